(** Model of edpyt/build_mb_ham.py. *)
From Coq Require Import List Arith NArith ZArith Bool.
From Verif Require Import Base LocalModel HoppingModel NonLocalModel MatvecModel.
Import ListNotations.

Section Mb.
Variable K : CRing.
Variable big : K -> bool.
Variable half : K.

(** The array [H]: shape (n,n) or (2,n,n). *)
Inductive hmat :=
| H2 (h : nat -> nat -> K)
| H3 (h : nat -> nat -> nat -> K).

(** What matters of the caller's array object for [flags.writeable]: its own
    flag, whether it owns its data, and the flag of the array that owns the
    data when it does not. *)
Record hflags := mkflags { f_writeable : bool; f_owns : bool; f_base : bool }.

(** The interaction argument: an array, a dictionary with optional keys, or
    anything else (then [U], [Jx], [Jp] stay unbound). *)
Inductive inter :=
| VArray (U : nat -> nat -> K)
| VDict (U Jx Jp : option (nat -> nat -> K))
| VOther.

(** [np.broadcast_to(H, (2,n,n)) if H.ndim==2 else H] (line 40). *)
Definition spinful (h : hmat) : nat -> nat -> nat -> K :=
  match h with H2 h => fun _ => h | H3 h => h end.

(** Lines 43-70 between the two changes of the flag.  The result holds the
    operators and whether the warning of line 66 was issued.  [len(U)] is n.
    [None] for U cannot be typed by numba. *)
Definition mb_operators (n : nat) (H : nat -> nat -> nat -> K) (V : inter) (st : states_t)
    (hfmode : bool) (mu : K) (z : option (nat -> K)) : res (list (op K) * bool) :=
  do UJ <- match V with
           | VArray U => Ok (Some U, None, None)
           | VDict U Jx Jp => Ok (U, Jx, Jp)
           | VOther => Err UnboundLocalError
           end;
  let '(U, Jx, Jp) := UJ in
  do U <- match U with Some U => Ok U | None => Err TypeError end;
  do vec <- build_ham_local K half n H U st hfmode mu z;
  do hop <- match st with
            | StN _ => Ok ([], true)
            | StSz up dw =>
              if (1 <? n)%nat then
                do m <- build_ham_hopping K big n H st;
                Ok ([OpUp K (fst m) (length dw); OpDw K (snd m) (length up)], false)
              else Ok ([], false)
            end;
  match Jx, Jp with
  | None, None => Ok (OpLocal K vec :: fst hop, snd hop)
  | _, _ =>
    (* operators[0] is updated in place *)
    do r <- build_ham_non_local K big half n Jx Jp st vec;
    let '(sp, vec, _) := r in
    Ok (OpLocal K vec :: fst hop ++ [OpNL K sp], snd hop)
  end.

(** build_mb_ham.py:24-76 [build_mb_ham].  Second component: the writeable flag
    of the caller's array when the call returns or raises.  For a 2-d array the
    flag is changed on a broadcast view only; setting it back to True raises
    unless the owner of the data is writeable. *)
Definition build_mb_ham (n : nat) (h : hmat) (fl : hflags) (V : inter) (st : states_t)
    (hfmode : bool) (mu : K) (z : option (nat -> K)) : res (list (op K) * bool) * bool :=
  let during := match h with H2 _ => f_writeable fl | H3 _ => false end in
  match mb_operators n (spinful h) V st hfmode mu z with
  | Err e => (Err e, during)
  | Ok r =>
    match h with
    | H2 _ => if (if f_owns fl then f_writeable fl else f_base fl)
              then (Ok r, during) else (Err ValueError, during)
    | H3 _ => if f_owns fl || f_base fl then (Ok r, true) else (Err ValueError, false)
    end
  end.

End Mb.
