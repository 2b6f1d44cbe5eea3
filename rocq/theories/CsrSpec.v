(** Reading a sparse matrix in CSR form: well-formedness and dense entries. *)
From Coq Require Import List Arith NArith ZArith Bool.
From Verif Require Import Base HoppingModel.
Import ListNotations.

Section CsrSpec.
Variable K : CRing.
Local Open Scope cr_scope.

(** Dense entry (a,b): sum of the stored values of row [a] whose column is [b]
    (scipy adds duplicates). *)
Definition sp_get (m : spmat K) (a b : nat) : K :=
  let lo := nth a (m_indptr K m) 0%nat in
  let hi := nth (S a) (m_indptr K m) 0%nat in
  bsum (fun p => if Z.eqb (nth p (m_indices K m) (-1)%Z) (Z.of_nat b)
                 then nth p (m_data K m) 0 else 0) (seq lo (hi - lo)).

(** Row pointers start at 0, never decrease and end at the number of stored
    values; there are as many column indices as values, all of them valid. *)
Definition sp_wf (m : spmat K) : Prop :=
  length (m_indptr K m) = S (m_rows K m) /\
  nth 0 (m_indptr K m) 1%nat = 0%nat /\
  (forall a, (a < m_rows K m)%nat ->
     (nth a (m_indptr K m) 0 <= nth (S a) (m_indptr K m) 0)%nat) /\
  nth (m_rows K m) (m_indptr K m) 0%nat = length (m_data K m) /\
  length (m_indices K m) = length (m_data K m) /\
  (forall j, In j (m_indices K m) -> (0 <= j < Z.of_nat (m_cols K m))%Z).

(** The off-diagonal part of [A] without the entries below the threshold. *)
Definition offdiag (big : K -> bool) (A : nat -> nat -> K) (i j : nat) : K :=
  if negb (i =? j)%nat && big (A i j) then A i j else 0.

End CsrSpec.
