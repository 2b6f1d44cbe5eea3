(** Specification vocabulary for the band Lanczos method and Gram-Schmidt. *)
From Coq Require Import List Arith Bool.
From Verif Require Import Base LanczosSpec.
Import ListNotations.

Section Spec.
Variable K : CField.
Local Open Scope cr_scope.

Definition orthonormal_rows (d : nat) (vs : list (list K)) : Prop :=
  (forall v, In v vs -> length v = d) /\
  forall i j, (i < length vs)%nat -> (j < length vs)%nat -> ip d (nth i vs []) (nth j vs []) = if (i =? j)%nat then 1 else 0.

(** Entry [i] of the linear combination of the vectors with coefficients [c]. *)
Definition comb (vs : list (list K)) (c : nat -> K) (i : nat) : K := nsum (length vs) (fun m => c m * ent vs m i).

(** [T] is the matrix of the operator in the basis [vs]. *)
Definition matrix_of (d : nat) (mv : list K -> res (list K)) (vs T : list (list K)) : Prop :=
  length T = length vs /\ (forall r, In r T -> length r = length vs) /\
  forall i j, (i < length vs)%nat -> (j < length vs)%nat -> ent T i j = ent T j i /\
    exists w, mv (nth j vs []) = Ok w /\ ent T i j = ip d (nth i vs []) w.

(** No linear combination of the rows vanishes but the trivial one. *)
Definition independent (d : nat) (vs : list (list K)) : Prop :=
  forall c : nat -> K, (forall i, (i < d)%nat -> comb vs c i = 0) -> forall m, (m < length vs)%nat -> c m = 0.

(** The columns of a matrix with [nc] columns. *)
Definition columns (nc : nat) (X : list (list K)) : list (list K) := map (fun j => map (fun r => nth j r 0) X) (seq 0 nc).
(** Row [i] of [X] is a combination of the first [i] rows of [Y] plus [a] times row [i] of [Y]. *)
Definition lower_row (d : nat) (X Y : list (list K)) (i : nat) (a : K) : Prop :=
  exists c : nat -> K, forall t, (t < d)%nat -> ent X i t = nsum i (fun m => c m * ent Y m t) + a * ent Y i t.
End Spec.
Arguments orthonormal_rows {K}. Arguments comb {K}. Arguments matrix_of {K}. Arguments independent {K}. Arguments columns {K}. Arguments lower_row {K}.
