(** Model of edpyt/observs.py. *)
From Coq Require Import Reals List Arith NArith ZArith Bool.
From Verif Require Import Base RBase OperatorsModel LocalModel ProjModel.
Import ListNotations.

Section Obs.
Variable K : CRing.
Local Open Scope cr_scope.

(** A NumPy array: [flags.f_contiguous], shape and memory.  With the flag set the
    memory holds the columns one after the other, otherwise the rows.  A strided
    view is represented by its entries in that order. *)
Record arr := mkarr { a_f : bool; a_shape : list nat; a_buf : list K }.
Definition size_of (sh : list nat) : nat := fold_left Nat.mul sh 1%nat.
(** [a.shape = sh] *)
Definition set_shape (a : arr) (sh : list nat) : res arr :=
  if size_of sh =? length (a_buf a) then Ok (mkarr (a_f a) sh (a_buf a)) else Err ValueError.

(** observs.py:83-96, the contractions of the reshaped array at one
    subscript: [np.einsum('i,ij,ji->i', ...)] sums over [m], [idx m j] is the
    memory position for eigenvector [j].  Simplification: a weight vector of
    length one, which einsum would broadcast, is rejected like any other wrong length. *)
Definition contract (buf : list K) (coeffs : option (list K)) (nev m : nat) (idx : nat -> nat -> nat) : res (list K) :=
  match coeffs with
  | None => Ok (map (fun j => nsum m (fun r => nth (idx r j) buf 0 * nth (idx r j) buf 0)) (seq 0 nev))
  | Some c => if length c =? nev
              then Ok (map (fun j => nsum m (fun r => nth j c 0 * nth (idx r j) buf 0 * nth (idx r j) buf 0)) (seq 0 nev))
              else Err ValueError
  end.

(** observs.py:98-110: [occ[k,:] += n_op(s,k)*occps]. *)
Definition add_occ (acc : list (list K)) (s : N) (occps : list K) : list (list K) :=
  map (fun p => map (fun q => fst q + z2k (Z.of_N (check_full s (fst p))) * snd q) (combine (snd p) occps)) (combine (seq 0 (length acc)) acc).
Definition count_loop (n nev : nat) (states : list N) (con : nat -> res (list K)) : res (list (list K)) :=
  foldM (fun acc p => do occps <- con (fst p); Ok (add_occ acc (snd p) occps)) (enum states) (repeat (repeat 0 nev) n).

(** observs.py:50-112 [_get_evecs_occupation].  The caller's array afterwards is
    the second component: only the C branch changes it. *)
Definition evecs_occupation (evecs : arr) (up dw : list N) (n : nat) (coeffs : option (list K))
    : res (list (list K) * list (list K)) * arr :=
  let dup := length up in let dwn := length dw in
  match nth_error (a_shape evecs) 1 with
  | None => (Err IndexError, evecs)
  | Some nev =>
      if a_f evecs then
        match set_shape evecs [nev; dwn; dup] with
        | Err e => (Err e, evecs)
        | Ok a =>
            (do u <- count_loop n nev up (fun iup => contract (a_buf a) coeffs nev dwn (fun idw j => ((j * dwn + idw) * dup + iup)%nat));
             do d <- count_loop n nev dw (fun idw => contract (a_buf a) coeffs nev dup (fun iup j => ((j * dwn + idw) * dup + iup)%nat));
             Ok (u, d), evecs)
        end
      else
        match set_shape evecs [dwn; dup; nev] with
        | Err e => (Err e, evecs)
        | Ok a =>
            (do u <- count_loop n nev up (fun iup => contract (a_buf a) coeffs nev dwn (fun idw j => ((idw * dup + iup) * nev + j)%nat));
             do d <- count_loop n nev dw (fun idw => contract (a_buf a) coeffs nev dup (fun iup j => ((idw * dup + iup) * nev + j)%nat));
             Ok (u, d), a)
        end
  end.

(** observs.py:115-128 [_get_evecs_occupation_mpi] on all ranks; [states_dw[a:b]]
    per rank, results summed by Allreduce (same shape on every rank). *)
Definition madd (x y : list (list K)) : list (list K) :=
  map (fun p => map (fun q => fst q + snd q) (combine (fst p) (snd p))) (combine x y).
Definition msum (l : list (list (list K))) : list (list K) :=
  match l with [] => [] | x :: l => fold_left madd l x end.
Definition evecs_occupation_mpi (evecs : list arr) (up dw : list N) (n : nat) (coeffs : option (list K))
    : res (list (list K) * list (list K)) :=
  let loc := (length dw / length evecs)%nat in
  do rs <- mapM (fun p => fst (evecs_occupation (snd p) up (firstn loc (skipn (fst p * loc) dw)) n coeffs)) (enum evecs);
  Ok (msum (map fst rs), msum (map snd rs)).
End Obs.

(** observs.py:5-21 [get_occupation] on the values of the dictionary.  Also
    returned: the arrays afterwards (an exception leaves the loop). *)
Record osct := mkosct { o_states : states_t; o_vals : list R; o_vecs : arr RRing }.
Definition row_sums (m : list (list R)) : list R := map (fun r => fold_left Rplus r 0%R) m.
Definition vadd (x y : list R) : list R := map (fun p : R * R => (fst p + snd p)%R) (combine x y).
Fixpoint occupation_loop (egs beta : R) (n : nat) (scts : list osct) (nup ndw : list R) (Z : R) : res (list R * list R * R) * list osct :=
  match scts with
  | [] => (Ok (nup, ndw, Z), [])
  | s :: scts =>
      let exps := map (fun e : R => exp (- beta * (e - egs))) (o_vals s) in
      match o_states s with
      | StN _ => (Err AttributeError, s :: scts)
      | StSz up dw =>
          let '(r, a) := evecs_occupation RRing (o_vecs s) up dw n (Some exps) in
          let s' := mkosct (o_states s) (o_vals s) a in
          match r with
          | Err e => (Err e, s' :: scts)
          | Ok (u, d) =>
              let '(r, ss) := occupation_loop egs beta n scts (vadd nup (row_sums u)) (vadd ndw (row_sums d)) (Z + fold_left Rplus exps 0)%R in
              (r, s' :: ss)
          end
      end
  end.
Definition get_occupation (scts : list osct) (egs beta : R) (n : nat) : res (list R * list R) * list osct :=
  let '(r, ss) := occupation_loop egs beta n scts (repeat 0%R n) (repeat 0%R n) 0 in
  (do x <- r; let '(nup, ndw, Z) := x in Ok (map (fun y => y / Z)%R nup, map (fun y => y / Z)%R ndw), ss).
