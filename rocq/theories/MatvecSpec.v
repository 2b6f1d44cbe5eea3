(** What the products need of their inputs. *)
From Coq Require Import List Arith NArith ZArith Bool.
From Verif Require Import Base HoppingModel CsrSpec MatvecModel.
Import ListNotations.

Section Ops.
Variable K : CRing.

(** Shapes required of an off-diagonal operator of a d-dimensional sector. *)
Definition op_fits (d : nat) (o : op K) : Prop :=
  match o with
  | OpLocal _ _ => False
  | OpUp _ m k | OpDw _ m k => sp_wf K m /\ m_rows K m = m_cols K m /\ (0 < m_rows K m)%nat /\ (m_rows K m * k)%nat = d
  | OpNL _ m => sp_wf K m /\ m_rows K m = d /\ m_cols K m = d
  end.

(** Entry (a,b) of an operator's own dense array (the diagonal operator has none). *)
Definition odense (o : op K) (a b : nat) : K :=
  match op_dense K o with Some D => d_at K D a b | None => c0 K end.

End Ops.

(** A square CSR matrix with sorted row pointers and valid column indices. *)
Section Raw.
Variable F : Type.

Definition raw_wf (A : raw F) : Prop :=
  0 < r_rows F A /\ r_rows F A = r_cols F A /\
  length (r_indptr F A) = S (r_rows F A) /\
  (forall r, r < r_rows F A -> nth r (r_indptr F A) 0 <= nth (S r) (r_indptr F A) 0 /\
     nth (S r) (r_indptr F A) 0 <= length (r_data F A)) /\
  length (r_indices F A) = length (r_data F A) /\
  (forall j, In j (r_indices F A) -> (0 <= j < Z.of_nat (r_cols F A))%Z).

End Raw.

(** The dispatch of loop iterations to threads: [groups] lists, for every
    thread, the iterations it executes, in its order; together they are all
    iterations, each exactly once. *)
Definition dispatch {A} (its : list A) (groups : list (list A)) : Prop :=
  Permutation.Permutation (concat groups) its.
