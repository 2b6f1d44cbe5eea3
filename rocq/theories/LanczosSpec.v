(** Specification vocabulary for the Lanczos method. *)
From Coq Require Import List Arith Bool.
From Verif Require Import Base.
Import ListNotations.

(** A sequence of steps: from the pair (v, l) through the recorded coefficients
    and vectors (a, b, l) to a last pair. *)
Inductive run {V F} (step : V -> V -> res (F * F * V * V)) (v l : V) : list (F * F * V) -> V -> V -> Prop :=
| run_nil : run step v l [] v l
| run_snoc tr v1 l1 a b l2 v2 :
    run step v l tr v1 l1 -> step v1 l1 = Ok (a, b, l2, v2) -> run step v l (tr ++ [(a, b, l2)]) v2 l2.

Definition tr_a {V F} (t : F * F * V) : F := fst (fst t).
Definition tr_b {V F} (t : F * F * V) : F := snd (fst t).
Definition tr_v {V F} (t : F * F * V) : V := snd t.

Section Exact.
Variable K : CField.
Local Open Scope cr_scope.

(** Scalar product of vectors with [d] entries. *)
Definition ip (d : nat) (x y : list K) : K := nsum d (fun i => nth i x 0 * nth i y 0).

(** [mv] is a symmetric operator on vectors with [d] entries. *)
Definition symmetric_op (d : nat) (mv : list K -> res (list K)) : Prop :=
  (forall x, length x = d -> exists y, mv x = Ok y /\ length y = d) /\
  (forall x y X Y, length x = d -> length y = d -> mv x = Ok X -> mv y = Ok Y -> ip d X y = ip d x Y).

(** Element (i, j) of the symmetric tridiagonal matrix with diagonal [a] and
    off-diagonal [b[1:]]. *)
Definition tri (a b : list K) (i j : nat) : K :=
  if (i =? j)%nat then nth i a 0
  else if (j =? S i)%nat then nth j b 0
  else if (i =? S j)%nat then nth i b 0
  else 0.

(** Entry [i] of the [k]-th vector. *)
Definition ent (vs : list (list K)) (k i : nat) : K := nth i (nth k vs []) 0.

(** [a], [b] are Lanczos coefficients of the operator started from [phi0], with
    vectors [vs] and residual [res]. *)
Record lanczos (d : nat) (mv : list K -> res (list K)) (phi0 a b : list K) (vs : list (list K)) (res : list K) : Prop := mklanczos {
  lo_a : length a = length vs;
  lo_b : length b = length vs;
  lo_vs : forall k, (k < length vs)%nat -> length (nth k vs []) = d;
  lo_b0 : nth 0 b 0 * nth 0 b 0 = ip d phi0 phi0;
  lo_first : forall i, (i < d)%nat -> nth i phi0 0 = nth 0 b 0 * ent vs 0 i;
  lo_orthonormal : forall j k, (j < length vs)%nat -> (k < length vs)%nat ->
    ip d (nth j vs []) (nth k vs []) = if (j =? k)%nat then 1 else 0;
  lo_nonzero : forall k, (k < length vs)%nat -> nth k b 0 <> 0;
  lo_recurrence : forall k, (k < length vs)%nat -> exists w, mv (nth k vs []) = Ok w /\ length w = d /\
    forall i, (i < d)%nat ->
      nth i w 0 = (if (S k <? length vs)%nat then nth (S k) b 0 * ent vs (S k) i else nth i res 0)
                  + nth k a 0 * ent vs k i
                  + match k with O => 0 | S k' => nth k b 0 * ent vs k' i end;
  lo_tridiagonal : forall j k w, (j < length vs)%nat -> (k < length vs)%nat -> mv (nth k vs []) = Ok w ->
    ip d (nth j vs []) w = tri a b j k;
  lo_residual : length res = d /\ forall k, (k < length vs)%nat -> ip d (nth k vs []) res = 0
}.
End Exact.
Arguments ip {K}. Arguments tri {K}. Arguments ent {K}. Arguments symmetric_op {K}. Arguments lanczos {K}.

(** Related runs of two programs: same outcome up to a relation. *)
Definition res_rel {A B} (Rel : A -> B -> Prop) (x : res A) (y : res B) : Prop :=
  match x, y with Ok a, Ok b => Rel a b | Err e, Err f => e = f | _, _ => False end.

Section Exact2.
Variable K : CField.
Local Open Scope cr_scope.

(** The pieces [xs] of a vector, with [shape] giving their lengths. *)
Definition shaped (shape : list nat) (xs : list (list K)) : Prop := map (@length K) xs = shape.

(** A collective product that acts on the pieces as [mv] acts on the whole. *)
Definition distributes (shape : list nat) (mv : list K -> res (list K)) (mvd : list (list K) -> res (list (list K))) : Prop :=
  forall xs, shaped shape xs -> exists ys, mvd xs = Ok ys /\ shaped shape ys /\ mv (concat xs) = Ok (concat ys).

(** [w], [U] (given by rows) solve the tridiagonal eigenvalue problem. *)
Definition tri_eigen (a b1 w : list K) (U : list (list K)) : Prop :=
  length U = length a /\ (forall u, In u U -> length u = length w) /\
  (forall i j, (i < length w)%nat -> (j < length w)%nat ->
     nsum (length a) (fun k => ent U k i * ent U k j) = if (i =? j)%nat then 1 else 0) /\
  (forall i j, (i < length w)%nat -> (j < length a)%nat ->
     nsum (length a) (fun k => tri a (0 :: b1) j k * ent U k i) = nth i w 0 * ent U j i).
End Exact2.
Arguments shaped {K}. Arguments distributes {K}. Arguments tri_eigen {K}.
