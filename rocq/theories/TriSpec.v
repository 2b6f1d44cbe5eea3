(** Tridiagonal matrices, their blocks and spectra; what LAPACK guarantees. *)
From Coq Require Import Reals List Arith ZArith Bool Permutation.
From Verif Require Import Base RBase RLin.
Import ListNotations.
Local Open Scope R_scope.

(** Diagonal [a], off-diagonal [b]. *)
Definition tmat (a b : list R) (i j : nat) : R :=
  if (i =? j)%nat then nth i a 0 else if (j =? S i)%nat then nth i b 0 else if (i =? S j)%nat then nth j b 0 else 0.
(** Shape of the arguments. *)
Definition tshape (a b : list R) (n : nat) : Prop := length a = n /\ S (length b) = n.
(** Number of the block that holds row [i], counted from 1: blocks end at vanishing
    off-diagonal elements. *)
Fixpoint block (b : list R) (i : nat) : nat :=
  match i with O => 1%nat | S i' => (block b i' + if Req_EM_T (nth i' b 0%R) 0%R then 1 else 0)%nat end.

Definition apply_mat (n : nat) (A : nat -> nat -> R) (v : nat -> R) (i : nat) : R := rsum n (fun j => A i j * v j).
Definition eigenvector (n : nat) (A : nat -> nat -> R) (x : R) (v : nat -> R) : Prop :=
  forall i, (i < n)%nat -> apply_mat n A v i = x * v i.
(** All eigenvalues in ascending order, with their multiplicities. *)
Definition spectrum (n : nat) (A : nat -> nat -> R) (e : nat -> R) : Prop :=
  (forall j k, (j <= k)%nat -> (k < n)%nat -> e j <= e k) /\
  exists v, orthonormal n n v /\ forall k, (k < n)%nat -> eigenvector n A (e k) (v k).
(** [v] vanishes outside block [p]. *)
Definition inside (n : nat) (b : list R) (p : nat) (v : nat -> R) : Prop := forall i, (i < n)%nat -> block b i <> p -> v i = 0.
Definition block_value (a b : list R) (p : nat) (x : R) : Prop :=
  exists v, inside (length a) b p v /\ rsum (length a) (fun i => v i * v i) = 1 /\ eigenvector (length a) (tmat a b) x v.
(** Ordered by block and by value within a block. *)
Definition by_block (m : nat) (ib : list nat) (w : list R) : Prop := forall j k, (j < k)%nat -> (k < m)%nat ->
  (nth j ib 0 < nth k ib 0)%nat \/ nth j ib 0%nat = nth k ib 0%nat /\ nth j w 0 < nth k w 0.

(** stebz: eigenvalues number [il] to [iu] in ascending order or by blocks. *)
Definition stebz_contract (stebz : list R -> list R -> Z -> Z -> bool -> nat * list R * list nat * list nat) : Prop :=
  forall a b n lo m bb, tshape a b n -> (0 < m)%nat -> (lo + m <= n)%nat ->
  exists w ib sp e, stebz a b (Z.of_nat lo + 1)%Z (Z.of_nat (lo + m)) bb = (m, w, ib, sp) /\ spectrum n (tmat a b) e /\ (m <= length w)%nat /\ (m <= length ib)%nat /\
    if bb then
      Permutation (firstn m w) (map e (seq lo m)) /\ (forall k, (k < m)%nat -> block_value a b (nth k ib 0%nat) (nth k w 0)) /\ by_block m ib w
    else firstn m w = map e (seq lo m).
(** stein: a unit eigenvector inside the block for each value. *)
Definition stein_contract (stein : list R -> list R -> list R -> list nat -> list nat -> list (list R)) : Prop :=
  forall a b n w ib sp, tshape a b n -> (length w <= length ib)%nat -> (forall k, (k < length w)%nat -> block_value a b (nth k ib 0%nat) (nth k w 0)) -> by_block (length w) ib w ->
  let v := stein a b w ib sp in
  length v = n /\ (forall r, In r v -> length r = length w) /\
  forall k, (k < length w)%nat -> let c := fun i => nth k (nth i v []) 0 in
    inside n b (nth k ib 0%nat) c /\ rsum n (fun i => c i * c i) = 1 /\ eigenvector n (tmat a b) (nth k w 0) c.
(** stemr: everything, in ascending order; the last entry of [b_] is workspace. *)
Definition stemr_contract (stemr : list R -> list R -> bool -> list R * list (list R)) : Prop :=
  forall a b g n vecs, tshape a b n ->
  exists w v, stemr a (b ++ [g]) vecs = (w, v) /\ length w = n /\ (forall j k, (j <= k)%nat -> (k < n)%nat -> nth j w 0 <= nth k w 0) /\
    (exists e, spectrum n (tmat a b) e /\ forall k, (k < n)%nat -> nth k w 0 = e k) /\
    (vecs = true -> length v = n /\ (forall r, In r v -> length r = n) /\ orthonormal n n (fun k i => nth k (nth i v []) 0) /\
      forall k, (k < n)%nat -> eigenvector n (tmat a b) (nth k w 0) (fun i => nth k (nth i v []) 0)).
