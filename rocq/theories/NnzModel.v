(** Model of [nnz_csrmat] of edpyt/ham_non_local.py (its [@njit] is commented out). *)
From Coq Require Import List Arith NArith ZArith Bool.
From Verif Require Import Base HoppingModel.
Import ListNotations.

Section Nnz.
Variable K : CRing.
(** [big x] is the test [abs(x) > 1e-7]. *)
Variable big : K -> bool.

(** ham_non_local.py:33-44.  Simplification: [A] is n x n; [nnz] is the size of the
    buffers, whatever the caller says. *)
Definition nnz_csrmat (n : nat) (A : nat -> nat -> K) (nnz : nat) : res (csr K) :=
  do r <- foldM (fun st i =>
      let '(count, sp_A) := st in
      let init_count := count in
      do st' <- foldM (fun st j =>
          let '(count, sp_A) := st in
          if big (A i j) then
            do sp_A <- set_indices K sp_A count (Z.of_nat j);
            do sp_A <- set_data K sp_A count (A i j);
            Ok (S count, sp_A)
          else Ok (count, sp_A)) (seq 0 n) (count, sp_A);
      let '(count, sp_A) := st' in
      do p <- rd (indptr K sp_A) i;
      do sp_A <- set_indptr K sp_A (i + 1) (p + (count - init_count));
      Ok (count, sp_A)) (seq 0 n) (0%nat, empty_csrmat K nnz n n);
  Ok (snd r).
End Nnz.
