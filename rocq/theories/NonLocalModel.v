(** Model of edpyt/ham_non_local.py.  None of the functions of this file is
    compiled, so buffer accesses are checked. *)
From Coq Require Import List Arith NArith ZArith Bool.
From Verif Require Import Base OperatorsModel LookupModel SectorModel LocalModel HoppingModel.
Import ListNotations.

Section NonLocal.
Variable K : CRing.
Variable big : K -> bool.
(** The constant [0.5]; also the division by [2.] of lines 223 and 238. *)
Variable half : K.
Local Open Scope cr_scope.

(** ham_non_local.py:76-90: compression of a coupling matrix.  Simplification:
    the warnings about a non-zero diagonal have no effect. *)
Definition compress (n : nat) (J : nat -> nat -> K) : res (nat * csr K) :=
  let nnz := count_nnz_offdiag K big n J in
  do T <- nnz_offdiag_csrmat K big n J nnz; Ok (nnz, T).

Definition compress_opt (n : nat) (J : option (nat -> nat -> K)) : res (nat * option (csr K)) :=
  match J with
  | None => Ok (0%nat, None)
  | Some J => do r <- compress n J; Ok (fst r, Some (snd r))
  end.

(** [for p in range(T.indptr[i], T.indptr[i+1]): ... T.indices[p] ... T.data[p]];
    the value is handed over unread, as the source reads it later or not at all. *)
Definition for_row {B} (T : csr K) (i : nat) (f : B -> nat -> res K -> res B) (st : B) : res B :=
  do lo <- rd (indptr K T) i;
  do hi <- rd (indptr K T) (i + 1);
  foldM (fun st p => do j <- rd (indices K T) p; f st (Z.to_nat j) (rd (data K T) p))
        (seq lo (hi - lo)) st.

Definition nz (x : N) : bool := negb (N.eqb x 0).

(** The five statements shared by lines 122-129 and 146-153: two hops, two
    look-ups and one appended entry [sgn * val]. *)
Definition put (states_up states_dw : list N) (hup hdw : Z * N) (neg : bool) (val : res K)
    (cm : nat * csr K) : res (nat * csr K) :=
  let '(count, sp_mat) := cm in
  let '(sgn_up, fup) := hup in
  do jup <- binsearch states_up fup;
  let '(sgn_dw, fdw) := hdw in
  do jdw <- binsearch states_dw fdw;
  let Jndx := (jdw * Z.of_nat (length states_up) + jup)%Z in
  do v <- val;
  do sp_mat <- set_data K sp_mat count
     (z2k (if neg then (- sgn_up * sgn_dw) else (sgn_up * sgn_dw))%Z * v);
  do sp_mat <- set_indices K sp_mat count Jndx;
  Ok (S count, sp_mat).

(** ham_non_local.py:118-129: exchange entries of row [i]. *)
Definition exch_put (Jx : csr K) (up dw : list N) (sup sdw : N) (cm : nat * csr K) (i : nat)
    : res (nat * csr K) :=
  let nup := bitval sup in let ndw := bitval sdw in
  if negb (nz (nup i)) && nz (ndw i) then
    for_row Jx i (fun cm j v =>
      if nz (nup j) && negb (nz (ndw j)) then
        put up dw (cdgc sup i j) (cdgc sdw j i) true v cm
      else Ok cm) cm
  else Ok cm.

(** ham_non_local.py:130-132. *)
Definition exch_tmp (Jx : csr K) (sup sdw : N) (tmp : K) (i : nat) : res K :=
  let nup := bitval sup in let ndw := bitval sdw in
  for_row Jx i (fun tmp j v =>
    do v <- v; Ok (tmp + v * z2k (Z.of_N (nup i * nup j + ndw i * ndw j)%N))) tmp.

(** ham_non_local.py:141-153. *)
Definition pair_put (Jp : csr K) (up dw : list N) (sup sdw : N) (cm : nat * csr K) (i : nat)
    : res (nat * csr K) :=
  let nup := bitval sup in let ndw := bitval sdw in
  if negb (nz (nup i)) && negb (nz (ndw i)) then
    for_row Jp i (fun cm j v =>
      if nz (nup j) && nz (ndw j) then
        put up dw (cdgc sup i j) (cdgc sdw i j) false v cm
      else Ok cm) cm
  else Ok cm.

(** [vec_diag[k] += x], ham_non_local.py:134. *)
Definition add_at (l : list K) (k : nat) (x : K) : res (list K) :=
  match nth_error l k with
  | None => Err IndexError
  | Some y => match upd l k (y + x) with Some l' => Ok l' | None => Err IndexError end
  end.

(** ham_non_local.py:103-155: the body of the double loop. *)
Definition nl_row (n : nat) (Jx : csr K) (Jp : option (csr K)) (up dw : list N) (idw : nat) (sdw : N)
    (st : nat * csr K * list K) (iup : nat) : res (nat * csr K * list K) :=
  match nth_error up iup with
  | None => Err IndexError
  | Some sup =>
    let '(cm, vec_diag) := st in
    let init_count := fst cm in
    let dup := length up in
    let Indx := (iup + dup * idw)%nat in
    (* Spin-exchange; Jx is not None here *)
    do r <- foldM (fun st i =>
        do cm <- exch_put Jx up dw sup sdw (fst st) i;
        do tmp <- exch_tmp Jx sup sdw (snd st) i;
        Ok (cm, tmp)) (seq 0 n) (cm, 0);
    let '(cm, tmp) := r in
    do vec_diag <- add_at vec_diag (iup + idw * dup) (tmp * (- half));
    (* Pair-hopping *)
    do cm <- match Jp with
             | None => Ok cm
             | Some Jp => foldM (pair_put Jp up dw sup sdw) (seq 0 n) cm
             end;
    let '(count, sp_mat) := cm in
    do p <- rd (indptr K sp_mat) Indx;
    do sp_mat <- set_indptr K sp_mat (Indx + 1) (p + (count - init_count));
    Ok (count, sp_mat, vec_diag)
  end.

(** ham_non_local.py:157-160: truncation when fewer entries than allocated. *)
Definition truncate (count : nat) (m : csr K) : csr K * bool :=
  if (count =? length (data K m))%nat then (m, false)
  else (mkcsr K (firstn count (data K m)) (indptr K m) (firstn count (indices K m))
              (nrows K m) (ncols K m), true).

(** ham_non_local.py:55-161 [_build_ham_non_local].  Returns the matrix, the
    updated [vec_diag] and whether the warning of line 158 was issued.
    [n = Jx.shape[0]] (line 71) precedes the test for None of line 76. *)
Definition build_nl_sz (n : nat) (Jx Jp : option (nat -> nat -> K)) (up dw : list N)
    (vec_diag : list K) : res (csr K * list K * bool) :=
  match Jx with
  | None => Err AttributeError
  | Some Jx =>
    match up, dw with
    | su :: _, sd :: _ =>
      let Nup := count_bits su n in
      let Ndw := count_bits sd n in
      do rx <- compress n Jx;
      do rp <- compress_opt n Jp;
      let nnz := ((fst rx + fst rp) * binomZ (Z.of_nat n - 2) (Z.of_N Nup - 1)
                    * binomZ (Z.of_nat n - 2) (Z.of_N Ndw - 1))%nat in
      let d := (length dw * length up)%nat in
      do r <- foldM (fun st idw =>
          match nth_error dw idw with
          | None => Err IndexError
          | Some sdw =>
            foldM (nl_row n (snd rx) (snd rp) up dw idw sdw) (seq 0 (length up)) st
          end) (seq 0 (length dw)) (0%nat, empty_csrmat K nnz d d, vec_diag);
      let '(count, m, vec) := r in
      let '(m, warned) := truncate count m in
      Ok (m, vec, warned)
    | _, _ => Err IndexError
    end
  end.

(** ham_non_local.py:216-225 (and, with other positions, 231-240): four
    operators with the bare [except: continue], then [append] to the lists.
    [acc] holds the entries appended so far (column, value). *)
Definition quad (n : nat) (states : list N) (s : N) (a1 a2 c3 c4 : nat) (val : res K)
    (acc : list (Z * K)) : res (list (Z * K)) :=
  let attempt :=
    do r0 <- c s a1 (2 * n);
    do r1 <- c (snd r0) a2 (2 * n);
    do r2 <- cdg (snd r1) c3 (2 * n);
    do r3 <- cdg (snd r2) c4 (2 * n);
    Ok ((fst r0 * fst r1 * fst r2 * fst r3)%Z, snd r3) in
  match attempt with
  | Err _ => Ok acc
  | Ok (sgn, f) =>
    do v <- val;
    do k <- binsearch states f;
    Ok (acc ++ [(k, z2k sgn * v * half)])
  end.

(** ham_non_local.py:212-225. *)
Definition n_exch (n : nat) (Jx : csr K) (states : list N) (s : N) (acc : list (Z * K)) (i : nat)
    : res (list (Z * K)) :=
  for_row Jx i (fun acc j v =>
    foldM (fun acc sg => let '(sigma, gamma) := sg in
      quad n states s (j + sigma * n) (i + gamma * n) (j + gamma * n) (i + sigma * n) v acc)
      [(0, 0); (0, 1); (1, 0); (1, 1)]%nat acc) acc.

(** ham_non_local.py:227-240. *)
Definition n_pair (n : nat) (Jp : csr K) (states : list N) (s : N) (acc : list (Z * K)) (i : nat)
    : res (list (Z * K)) :=
  for_row Jp i (fun acc j v =>
    foldM (fun acc sg => let '(sigma, gamma) := sg in
      quad n states s (j + sigma * n) (j + gamma * n) (i + gamma * n) (i + sigma * n) v acc)
      [(0, 1); (1, 0)]%nat acc) acc.

(** ham_non_local.py:208-241: one state; [indptr] grows by one element. *)
Definition n_row (n : nat) (Jx Jp : option (csr K)) (states : list N)
    (st : list (Z * K) * list nat) (s : N) : res (list (Z * K) * list nat) :=
  let '(entries, indptr) := st in
  let init_count := length entries in
  do e1 <- match Jx with
           | None => Ok entries
           | Some Jx => foldM (n_exch n Jx states s) (seq 0 n) entries
           end;
  do e2 <- match Jp with
           | None => Ok e1
           | Some Jp => foldM (n_pair n Jp states s) (seq 0 n) e1
           end;
  Ok (e2, indptr ++ [(last indptr 0 + (length e2 - init_count))%nat]).

(** ham_non_local.py:164-243 [_N_build_ham_non_local].  [n] is taken from
    whichever matrix is given (line 179); with neither, [None.shape] raises.
    [indptr[idu]] is the last element appended so far. *)
Definition build_nl_n (n : nat) (Jx Jp : option (nat -> nat -> K)) (states : list N)
    : res (spmat K) :=
  match Jx, Jp with
  | None, None => Err AttributeError
  | _, _ =>
    match states with
    | [] => Err IndexError
    | _ =>
      do rx <- compress_opt n Jx;
      do rp <- compress_opt n Jp;
      do r <- foldM (n_row n (snd rx) (snd rp) states) states ([], [0%nat]);
      Ok (mksp K (map snd (fst r)) (snd r) (map fst (fst r)) (length states) (length states))
    end
  end.

(** ham_non_local.py:246-253 [build_ham_non_local].  The diagonal correction is
    made in place on [vec_diag]. *)
Definition build_ham_non_local (n : nat) (Jx Jp : option (nat -> nat -> K)) (st : states_t)
    (vec_diag : list K) : res (spmat K * list K * bool) :=
  match st with
  | StSz up dw =>
    do r <- build_nl_sz n Jx Jp up dw vec_diag;
    let '(m, vec, warned) := r in
    do sp <- freeze K m;
    Ok (sp, vec, warned)
  | StN states =>
    do sp <- build_nl_n n Jx Jp states;
    Ok (sp, vec_diag, false)
  end.

End NonLocal.
