(** The Fermi function, Lambert's continued fraction for tanh, and what
    scipy.linalg.eigh(a, b) guarantees. *)
From Coq Require Import Reals List Arith Bool.
From Verif Require Import Base RBase RLin CBase.
Import ListNotations.
Local Open Scope R_scope.

Definition fermi (x : R) : R := 1 / (exp x + 1).

(** 1/(2j+1 + t^2/(2j+3 + ... )) with [m] denominators; tanh t = t * lambert for
    infinitely many of them. *)
Fixpoint lambert (m j : nat) (t : R) : R :=
  match m with O => 0 | S m => 1 / (2 * INR j + 1 + t * t * lambert m (S j) t) end.
Definition tanh_cf (m : nat) (t : R) : R := t * lambert m 0 t.

(** Fermionic Matsubara frequencies. *)
Definition matsubara (beta : R) (i : nat) : R := (2 * INR i + 1) * PI / beta.

(** Product of the squares of t/1, t/3, ..., t/(2m-1). *)
Fixpoint odd_product (m : nat) (t : R) : R :=
  match m with O => 1 | S m => odd_product m t * (t / (2 * INR m + 1) * (t / (2 * INR m + 1))) end.

(** Generalised eigenvalue problem with a positive diagonal right-hand side. *)
Definition geigh_contract (geigh : nat -> (nat -> nat -> R) -> (nat -> nat -> R) -> res (list R * list (list R))) : Prop := forall M A B,
  (forall i j, (i < M)%nat -> (j < M)%nat -> A i j = A j i) -> (forall i, (i < M)%nat -> 0 < B i i) -> (forall i j, (i < M)%nat -> (j < M)%nat -> i <> j -> B i j = 0) ->
  exists vals cols, geigh M A B = Ok (vals, cols) /\ length vals = M /\ length cols = M /\
    (forall k l, (k < M)%nat -> (l < M)%nat ->
       rsum M (fun i => B i i * nth i (nth k cols []) 0 * nth i (nth l cols []) 0) = if (k =? l)%nat then 1 else 0) /\
    (forall k i, (k < M)%nat -> (i < M)%nat -> rsum M (fun j => A i j * nth j (nth k cols []) 0) = nth k vals 0 * (B i i * nth i (nth k cols []) 0)) /\
    forall j k, (j <= k)%nat -> (k < M)%nat -> nth j vals 0 <= nth k vals 0.

(** A Green's function with finitely many real poles, off the real axis. *)
Definition pole_function (m : nat) (w e : nat -> R) (gf : cx -> cx) : Prop :=
  forall z, im z <> 0 -> gf z = csum m (fun i => cxdiv (rcx (w i)) (cxsub z (rcx (e i)))).
