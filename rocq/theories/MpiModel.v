(** Model of edpyt/vector_transpose.py and of the distributed product in
    edpyt/matvec_product.py.  All ranks are modelled together: a distributed
    array is the list of the ranks' local buffers, each in C order.  Every rank
    holds a buffer of the same shape.  No law of arithmetic is assumed. *)
From Coq Require Import List Arith NArith ZArith Bool.
From Verif Require Import Base HoppingModel MatvecModel.
Import ListNotations.

Section Mpi.
Variable F : Type.
Variable dflt : F.   (* what an out-of-range read would return; never observed *)
Variables fadd fmul : F -> F -> F.

Definition slice (l : list F) (off len : nat) : list F :=
  map (fun k => nth (off + k) l dflt) (seq 0 len).

(** [comm.Alltoall([send,chunk],[recv,chunk])]: rank r receives at q*chunk the
    chunk at r*chunk of rank q's send buffer. *)
Definition alltoall (chunk : nat) (send : list (list F)) : list (list F) :=
  map (fun r => flat_map (fun q => slice (nth q send []) (r * chunk) chunk) (seq 0 (length send)))
    (seq 0 (length send)).

(** vector_transpose.py:34-51 [collect_dw] for local shape (m,n): the returned
    array is the caller's buffer, overwritten, with shape (n,m). *)
Definition collect_dw (m n : nat) (a : list (list F)) : res (list (list F)) :=
  let size := length a in
  if negb (m * size =? n) then Err AssertionError
  else
    let batch := n / size in
    let chunk := batch * m in
    let b := map (fun l =>
      flat_map (fun p => flat_map (fun i => slice l (i * n + p * batch) batch) (seq 0 m)) (seq 0 size)) a in
    Ok (alltoall chunk b).

(** vector_transpose.py:80-103 [collect_up] for local shape (m,n); the returned
    array is the caller's buffer with shape (n,m). *)
Definition collect_up (m n : nat) (a : list (list F)) : res (list (list F)) :=
  let size := length a in
  if negb (m =? n * size) then Err AssertionError
  else
    let batch := m / size in
    let chunk := batch * n in
    let b := alltoall chunk a in
    Ok (map (fun l =>
      let row := length l / size in   (* b.shape = (size,-1) *)
      flat_map (fun p => flat_map (fun q => slice l (q * row + p * n) n) (seq 0 size)) (seq 0 batch)) b).

(** The loop over ranks of a local step. *)
Definition each2 (f : list F -> list F -> res (list F)) (a b : list (list F)) : res (list (list F)) :=
  mapM (fun xy => f (fst xy) (snd xy)) (List.combine a b).

(** matvec_product.py:45-72 [_matvec_operator_mpi], the check (52-60) and one
    application (62-71) on all ranks.  [diag] and [vec] are the ranks' slices.
    Second component: the callers' [vec] buffers afterwards ([reshape] of a
    contiguous array is a view, so they are overwritten by both transposes). *)
Definition mpi_matvec (diag : list (list F)) (up dw : raw F) (vec : list (list F))
    : res (list (list F) * list (list F)) :=
  let size := length vec in
  let dup := r_rows F up in
  let dwn := r_rows F dw in
  if negb (dup =? dwn) then Err NotImplementedError
  else if (size =? 0) then Err ZeroDivisionError
  else if negb (dwn mod size =? 0) then Err ValueError
  else
    let loc := dwn / size in
    do res <- each2 (fun d v => if length d =? length v
                                then Ok (map (fun xy => fmul (fst xy) (snd xy)) (List.combine d v))
                                else Err ValueError) diag vec;
    do res <- each2 (fun v r => UPmultiply F fadd fmul up v r) vec res;
    do vec <- collect_dw loc dup vec;
    do res <- collect_dw loc dup res;
    do res <- each2 (fun v r => DWmultiply F fadd fmul dw v r) vec res;
    do vec <- collect_up dup loc vec;
    do res <- collect_up dup loc res;
    Ok (res, vec).

(** The serial product of [Local], [UpHopping], [DwHopping] over the same arithmetic. *)
Definition serial_matvec (diag : list F) (up dw : raw F) (vec : list F) : res (list F) :=
  do y <- (if length diag =? length vec
           then Ok (map (fun xy => fmul (fst xy) (snd xy)) (List.combine diag vec)) else Err ValueError);
  do y <- UPmultiply F fadd fmul up vec y;
  DWmultiply F fadd fmul dw vec y.

End Mpi.
