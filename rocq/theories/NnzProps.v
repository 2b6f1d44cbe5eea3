(** C139: [nnz_csrmat] compresses a matrix when told the right number of entries. *)
From Coq Require Import List Arith NArith ZArith Lia Bool.
From Verif Require Import Base HoppingModel CsrSpec NnzModel NnzSpec NnzProofs.
Import ListNotations.

(** The right number: a well-formed matrix with exactly the entries above the threshold. *)
Theorem C139_exact (K : CRing) big n A nnz : nnz = above K big n A -> exists m sp, nnz_csrmat K big n A nnz = Ok m /\ freeze K m = Ok sp /\ sp_wf K sp /\ m_rows K sp = n /\ m_cols K sp = n /\ length (m_data K sp) = nnz /\
  (forall x, In x (m_data K sp) -> big x = true) /\ forall i j, (i < n)%nat -> (j < n)%nat -> sp_get K sp i j = chopped K big A i j.
Proof. exact (nnz_exact K big n nnz A). Qed.
Print Assumptions C139_exact.

(** Too small a number is noticed ... *)
Theorem C139_short (K : CRing) big n A nnz : (nnz < above K big n A)%nat -> nnz_csrmat K big n A nnz = Err IndexError.
Proof. exact (nnz_short K big n nnz A). Qed.
Print Assumptions C139_short.

(** ... too large a number is not: cells stay unwritten. *)
Theorem C139_long_refuted (K : CRing) big n A nnz : (above K big n A < nnz)%nat -> exists m, nnz_csrmat K big n A nnz = Ok m /\ freeze K m = Err OutOfBounds.
Proof. exact (nnz_long K big n nnz A). Qed.
Print Assumptions C139_long_refuted.

(** Diagonal entries are kept, small ones dropped, an empty row repeats its pointer. *)
Definition ex_A (i j : nat) : ZRing := match i, j with O, O => 5%Z | O, 2 => 7%Z | 2, 1 => (-3)%Z | 2, 2 => 1%Z | _, _ => 0%Z end.
Definition ex_big (x : ZRing) : bool := (1 <? Z.abs x)%Z.
Example C139_ex : above ZRing ex_big 3 ex_A = 3 /\
  (do m <- nnz_csrmat ZRing ex_big 3 ex_A 3; freeze ZRing m) = Ok (mksp ZRing [5; 7; -3]%Z [0; 2; 2; 3] [0; 2; 1]%Z 3 3).
Proof. split; reflexivity. Qed.
(** Counting the nonzero entries (4) instead leaves a cell unwritten; counting the
    off-diagonal ones (2) raises. *)
Example C139_ex_counts : (do m <- nnz_csrmat ZRing ex_big 3 ex_A 4; freeze ZRing m) = Err OutOfBounds /\
  count_nnz_offdiag ZRing ex_big 3 ex_A = 2 /\ nnz_csrmat ZRing ex_big 3 ex_A 2 = Err IndexError.
Proof. repeat split. Qed.
