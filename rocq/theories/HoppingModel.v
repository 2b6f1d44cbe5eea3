(** Model of edpyt/ham_hopping.py.  The functions that fill the buffers are
    plain Python (their [@njit] decorators are commented out in the source), so
    an access outside a buffer raises IndexError. *)
From Coq Require Import List Arith NArith ZArith Bool.
From Verif Require Import Base OperatorsModel LookupModel SectorModel LocalModel.
Import ListNotations.

(** [binom(n,k)] for Python integers: zero when k<0 or k>n.  Simplification:
    a negative [n] (only reachable with fewer than two sites) gives 0 here. *)
Definition binomZ (n k : Z) : nat :=
  if (n <? 0)%Z then 0 else if (k <? 0)%Z then 0 else binom (Z.to_nat n) (Z.to_nat k).

Section Csr.
Variable K : CRing.
(** [big x] is the test [abs(x) > 1e-7]. *)
Variable big : K -> bool.
Local Open Scope cr_scope.

(** ham_hopping.py:33 [cs_type], with buffers of fixed size whose cells are
    [None] until written ([np.empty]). *)
Record csr := mkcsr {
  data : list (option K);
  indptr : list (option nat);
  indices : list (option Z);
  nrows : nat;
  ncols : nat
}.

(** Buffer read: IndexError outside; reading an unwritten cell yields garbage,
    modelled as the error [OutOfBounds]. *)
Definition rd {A} (l : list (option A)) (i : nat) : res A :=
  match nth_error l i with
  | None => Err IndexError
  | Some None => Err OutOfBounds
  | Some (Some a) => Ok a
  end.

(** Buffer write. *)
Definition wr {A} (l : list (option A)) (i : nat) (a : A) : res (list (option A)) :=
  match upd l i (Some a) with Some l' => Ok l' | None => Err IndexError end.

Definition set_data (m : csr) (i : nat) (x : K) : res csr :=
  do l <- wr (data m) i x; Ok (mkcsr l (indptr m) (indices m) (nrows m) (ncols m)).
Definition set_indptr (m : csr) (i : nat) (x : nat) : res csr :=
  do l <- wr (indptr m) i x; Ok (mkcsr (data m) l (indices m) (nrows m) (ncols m)).
Definition set_indices (m : csr) (i : nat) (x : Z) : res csr :=
  do l <- wr (indices m) i x; Ok (mkcsr (data m) (indptr m) l (nrows m) (ncols m)).

(** ham_hopping.py:36-43 [empty_csrmat]. *)
Definition empty_csrmat (nnz r c : nat) : csr :=
  mkcsr (repeat None nnz) (Some 0%nat :: repeat None r) (repeat None nnz) r c.

(** ham_hopping.py:46-56 [count_nnz_offdiag]; [A] is an n x n matrix. *)
Definition count_nnz_offdiag (n : nat) (A : nat -> nat -> K) : nat :=
  fold_left (fun count i =>
    fold_left (fun count j =>
      if negb (i =? j)%nat && big (A i j) then S count else count)
      (seq 0 n) count) (seq 0 n) 0%nat.

(** ham_hopping.py:60-79 [nnz_offdiag_csrmat]. *)
Definition nnz_offdiag_csrmat (n : nat) (A : nat -> nat -> K) (nnz : nat) : res csr :=
  do r <- foldM (fun st i =>
      let '(count, sp_A) := st in
      let init_count := count in
      do st' <- foldM (fun st j =>
          let '(count, sp_A) := st in
          if negb (i =? j)%nat && big (A i j) then
            do sp_A <- set_indices sp_A count (Z.of_nat j);
            do sp_A <- set_data sp_A count (A i j);
            Ok (S count, sp_A)
          else Ok (count, sp_A)) (seq 0 n) (count, sp_A);
      let '(count, sp_A) := st' in
      do p <- rd (indptr sp_A) i;
      do sp_A <- set_indptr sp_A (i + 1) (p + (count - init_count));
      Ok (count, sp_A)) (seq 0 n) (0%nat, empty_csrmat nnz n n);
  Ok (snd r).

(** ham_hopping.py:83-110 [add_hoppings].  [T.indices[p]] is a non-negative
    orbital number, converted to a position. *)
Definition add_hoppings (ix_s : nat) (states : list N) (T : csr) (count : nat) (sp_mat : csr)
    : res (nat * csr) :=
  match nth_error states ix_s with
  | None => Err IndexError
  | Some s =>
    let init_count := count in
    do st <- foldM (fun st i =>
        if negb (N.eqb (check_empty s i) 0) then
          do lo <- rd (indptr T) i;
          do hi <- rd (indptr T) (i + 1);
          foldM (fun st p =>
            do j <- rd (indices T) p;
            let '(count, sp_mat) := st in
            if negb (N.eqb (check_full s (Z.to_nat j)) 0) then
              let '(sgn, f) := cdgc s i (Z.to_nat j) in
              do t <- rd (data T) p;
              do sp_mat <- set_data sp_mat count (t * z2k sgn);
              do k <- binsearch states f;
              do sp_mat <- set_indices sp_mat count k;
              Ok (S count, sp_mat)
            else Ok (count, sp_mat)) (seq lo (hi - lo)) st
        else Ok st) (seq 0 (nrows T)) (count, sp_mat);
    let '(count, sp_mat) := st in
    do p <- rd (indptr sp_mat) ix_s;
    do sp_mat <- set_indptr sp_mat (ix_s + 1) (p + (count - init_count));
    Ok (count, sp_mat)
  end.

(** ham_hopping.py:121-141 (and, identically, 143-160): one spin species of
    [build_ham_hopping].  [A] is [H[0]] or [H[1]]. *)
Definition build_hop (n : nat) (A : nat -> nat -> K) (states : list N) : res csr :=
  match states with
  | [] => Err IndexError
  | s0 :: _ =>
    let p := count_bits s0 n in
    let d := length states in
    let nnz_offdiag := count_nnz_offdiag n A in
    do T <- nnz_offdiag_csrmat n A nnz_offdiag;
    let nnz := (nnz_offdiag * binomZ (Z.of_nat n - 2) (Z.of_N p - 1))%nat in
    do r <- foldM (fun st ix => add_hoppings ix states T (fst st) (snd st))
                  (seq 0 d) (0%nat, empty_csrmat nnz d d);
    Ok (snd r)
  end.

(** A finished sparse matrix ([scipy.sparse.csr_matrix]); cells that were
    never written would be garbage, so freezing them is an error. *)
Record spmat := mksp {
  m_data : list K;
  m_indptr : list nat;
  m_indices : list Z;
  m_rows : nat;
  m_cols : nat
}.

Fixpoint all_some {A} (l : list (option A)) : res (list A) :=
  match l with
  | [] => Ok []
  | None :: _ => Err OutOfBounds
  | Some a :: l => do l' <- all_some l; Ok (a :: l')
  end.

(** The constructor call ham_hopping.py:162-163. *)
Definition freeze (m : csr) : res spmat :=
  do d <- all_some (data m); do p <- all_some (indptr m); do ix <- all_some (indices m);
  Ok (mksp d p ix (nrows m) (ncols m)).

(** ham_hopping.py:113-164 [build_ham_hopping]. *)
Definition build_ham_hopping (n : nat) (H : nat -> nat -> nat -> K) (st : states_t)
    : res (spmat * spmat) :=
  match st with
  | StN _ => Err NotImplementedError
  | StSz up dw =>
    (* count_bits(states_up[0]) and count_bits(states_dw[0]) come first *)
    match up, dw with
    | [], _ | _, [] => Err IndexError
    | _, _ =>
      do mu <- build_hop n (H 0%nat) up;
      do md <- build_hop n (H 1%nat) dw;
      do fu <- freeze mu;
      do fd <- freeze md;
      Ok (fu, fd)
    end
  end.

End Csr.
