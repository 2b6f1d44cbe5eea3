(** Several sites: lattice matrix, inverses, equivalent sites, causality. *)
From Coq Require Import Reals List Arith.
From Verif Require Import Base RBase RLin CBase.
Import ListNotations.
Local Open Scope R_scope.

Definition delta (i j : nat) : cx := if (i =? j)%nat then rcx 1 else rcx 0.
(** [g] is the inverse of the [n] by [n] matrix [x]. *)
Definition inverse (n : nat) (x g : nat -> nat -> cx) : Prop :=
  forall i j, (i < n)%nat -> (j < n)%nat ->
    csum n (fun l => cxmul (x i l) (g l j)) = delta i j /\ csum n (fun l => cxmul (g i l) (x l j)) = delta i j.
(** The matrix inversion returns inverses only, and fails on singular matrices only. *)
Definition inverts (inv : nat -> (nat -> nat -> cx) -> res (nat -> nat -> cx)) : Prop :=
  forall n x, match inv n x with Ok g => inverse n x g | Err _ => ~ exists g, inverse n x g end.

(** (z + mu) S - H - Hybrid(z) - Sigma *)
Definition lat (mu : R) (H S : nat -> nat -> cx) (Hyb : cx -> nat -> nat -> cx) (sg : nat -> cx) (z : cx) (i j : nat) : cx :=
  cxsub (cxsub (cxsub (cxmul (cxadd z (rcx mu)) (S i j)) (H i j)) (Hyb z i j)) (cxmul (delta i j) (sg i)).

(** Sites with their class, and the first site of every class (np.unique). *)
Definition classes (inv neq : list nat) : Prop :=
  (forall i, (i < length inv)%nat -> (nth i inv 0%nat < length neq)%nat) /\
  forall a, (a < length neq)%nat ->
    (nth a neq 0 < length inv)%nat /\ nth (nth a neq 0%nat) inv 0%nat = a /\ forall i, (i < nth a neq 0)%nat -> nth i inv 0%nat <> a.
Definition pairwise_different (l : list nat) : Prop :=
  forall i j, (i < length l)%nat -> (j < length l)%nat -> nth i l 0%nat = nth j l 0%nat -> i = j.

(** <v| x |v> *)
Definition form (n : nat) (x : nat -> nat -> cx) (v : nat -> cx) : cx :=
  csum n (fun i => cxmul (cxconj (v i)) (csum n (fun j => cxmul (x i j) (v j)))).
Definition hermitian (n : nat) (x : nat -> nat -> cx) : Prop := forall i j, (i < n)%nat -> (j < n)%nat -> x i j = cxconj (x j i).
Definition positive (n : nat) (x : nat -> nat -> cx) : Prop := forall v, (exists i, (i < n)%nat /\ v i <> rcx 0) -> 0 < re (form n x v).
(** No negative spectral weight. *)
Definition causal (n : nat) (x : nat -> nat -> cx) : Prop := forall v, im (form n x v) <= 0.

(** [y] expresses the coupling of site [i] through the other sites:
    sum over l <> i of x_jl y_l = x_ji for every j <> i. *)
Definition through (n : nat) (x : nat -> nat -> cx) (i : nat) (y : nat -> cx) : Prop :=
  forall j, (j < n)%nat -> j <> i -> csum n (fun l => if (l =? i)%nat then rcx 0 else cxmul (x j l) (y l)) = x j i.
