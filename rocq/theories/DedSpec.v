(** The star-shaped Hamiltonian of an impurity with prescribed poles; averages over
    accepted samples; entropy. *)
From Coq Require Import Reals List Arith NArith ZArith Bool.
From Verif Require Import Base RBase RLin CBase.
Import ListNotations.
Local Open Scope R_scope.

(** sum_i 1 / (x - p_i) *)
Definition pole_sum (n : nat) (p : nat -> R) (x : R) : R := rsum n (fun i => / (x - p i)).
Definition increasing (n : nat) (p : nat -> R) : Prop := forall i, (S i < n)%nat -> p i < p (S i).
(** One zero of [pole_sum] in each gap between neighbouring poles. *)
Definition gap_roots (n : nat) (p e : nat -> R) : Prop := forall k, (S k < n)%nat -> p k < e k < p (S k) /\ pole_sum n p (e k) = 0.
(** [solve f x0], started in the middle of a gap, finds the zero in that gap, for
    every function equal to the average of 1 / (x - p_i). *)
Definition finds_roots (solve : (R -> R) -> R -> R) (n : nat) (p : nat -> R) : Prop :=
  forall f, (forall x, f x = pole_sum n p x / INR n) -> gap_roots n p (fun k => solve f ((p k + p (S k)) / 2)).

(** Average of 1/(z - p_i). *)
Definition mean_gf (n : nat) (p : nat -> R) (z : cx) : cx := cxdiv (csum n (fun i => cxinv (cxsub z (rcx (p i))))) (rcx (INR n)).
(** 1 / (z - e0 - sum_k v2_k / (z - e_k)) *)
Definition star_gf (m : nat) (e0 : R) (e v2 : nat -> R) (z : cx) : cx :=
  cxinv (cxsub (cxsub z (rcx e0)) (csum m (fun k => cxdiv (rcx (v2 k)) (cxsub z (rcx (e k)))))).
(** Impurity 0 coupled by -v_k to the levels e_k. *)
Definition star (e0 : R) (e v : nat -> R) (a b : nat) : R :=
  match a, b with
  | O, O => e0
  | S k, O => - v k
  | O, S k => - v k
  | S k, S l => if (k =? l)%nat then e k else 0
  end.
(** The accepted ones among a list of trials. *)
Definition accepted {A} (l : list (option A)) : list A := flat_map (fun o => match o with Some a => [a] | None => [] end) l.
(** The last trial, if there is one, was accepted. *)
Definition ends_accepted {A} (l : list (option A)) : Prop := forall o l', l = l' ++ [o] -> o <> None.

(** Boltzmann probabilities of the levels [E 0 .. E (n-1)] and the entropy of a
    distribution. *)
Definition gibbs (beta : R) (n : nat) (E : nat -> R) (i : nat) : R := exp (- beta * E i) / rsum n (fun j => exp (- beta * E j)).
Definition shannon (n : nat) (p : nat -> R) : R := - rsum n (fun i => p i * ln (p i)).

(** <v| n_up + n_dw |v> on one site, for a vector over pairs of an up state and a
    down state: entry [a] belongs to the up state [a mod length up] and the down
    state [a / length up]. *)
Definition site_occupation (v : list R) (up dw : list N) (pos : nat) : R :=
  rsum (length up * length dw) (fun a => nth a v 0 * nth a v 0 *
    ((if N.testbit (nth (a mod length up) up 0%N) (N.of_nat pos) then 1 else 0) + (if N.testbit (nth (a / length up) dw 0%N) (N.of_nat pos) then 1 else 0))).

(** Sites of [nimp] impurities with [nb] levels each: first the impurities, then the
    levels of one impurity after the other. *)
Definition moam_site (nimp nb i a : nat) : nat := match a with O => i | S k => (nimp + i * nb + k)%nat end.
