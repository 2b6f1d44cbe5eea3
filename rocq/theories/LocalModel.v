(** Model of edpyt/ham_local.py. *)
From Coq Require Import List Arith NArith ZArith Bool.
From Verif Require Import Base OperatorsModel.
Import ListNotations.

Section Local.
Variable K : CRing.
(** The constant [0.5] of the source. *)
Variable half : K.
Local Open Scope cr_scope.

(** Simplifications: float64 is replaced by an arbitrary commutative ring;
    the arrays [H] (2,n,n), [V] (n,n) and [z] (n) are functions of their
    indices. *)
Variable n : nat.
Variable H : nat -> nat -> nat -> K.
Variable V : nat -> nat -> K.
Variable z : nat -> K.
Variable hfmode : bool.
Variable mu : K.

(** ham_local.py:33-34 and 92-93: on-site energies. *)
Definition eupdiag (i : nat) : K := H 0 i i + mu.
Definition edwdiag (i : nat) : K := H 1 i i + mu.
(** ham_local.py:35-36: [Vi[i] = V[i,i]; Vij[i,i] -= V[i,i]]. *)
Definition Vi (i : nat) : K := V i i.
Definition Vij (i j : nat) : K := if i =? j then V i j - V i i else V i j.

(** [np.float64((s>>i)&uone)], ham_local.py:45,51. *)
Definition occf (s : N) (i : nat) : K := z2k (Z.of_N (bitval s i)).

(** ham_local.py:54-67 (and 112-125): Coulomb contribution added to [r]. *)
Definition coulomb (nup ndw : nat -> K) (r : K) : K :=
  fold_left (fun r i =>
    let r := if hfmode then r + (nup i - half) * (ndw i - half) * Vi i
             else r + nup i * ndw i * Vi i in
    let tmp := fold_left (fun tmp j => tmp + Vij i j * (nup j + ndw j - z j)) (seq 0 n) 0 in
    r + half * (nup i + ndw i - z i) * tmp) (seq 0 n) r.

(** ham_local.py:41-68: the value written for a pair of states. *)
Definition edw_of (sdw : N) : K :=
  fold_left (fun e i => e + edwdiag i * occf sdw i) (seq 0 n) 0.
Definition sz_value (sup : N) (sdw : N) : K :=
  let r := fold_left (fun r i => r + occf sup i * eupdiag i) (seq 0 n) (edw_of sdw) in
  coulomb (occf sup) (occf sdw) r.

(** One iteration [idw] of the parallel loop (ham_local.py:41-68): the
    writes [vec_diag[iup+idw*dup] = res], in order.  The arrays [nup], [ndw]
    are private to the iteration. *)
Definition sz_writes (states_up states_dw : list N) (idw : nat) : list (nat * K) :=
  map (fun iup => (iup + idw * length states_up,
                   sz_value (nth iup states_up 0%N) (nth idw states_dw 0%N))%nat)
      (seq 0 (length states_up)).

(** Executing a list of array writes; a write outside the array is
    [OutOfBounds] (Numba does not check). *)
Definition run_writes (ws : list (nat * K)) (a : list K) : res (list K) :=
  foldM (fun a w => match upd a (fst w) (snd w) with
                    | Some a' => Ok a' | None => Err OutOfBounds end) ws a.

(** ham_local.py:19-68 [_build_ham_local], iterations in sequential order. *)
Definition build_sz (states_up states_dw : list N) (vec_diag : list K) : res (list K) :=
  run_writes (flat_map (sz_writes states_up states_dw) (seq 0 (length states_dw))) vec_diag.

(** ham_local.py:97-98: [mask_up = uint32((uone<<n)-1)], [mask_dw = mask_up<<n]. *)
Definition mask_up : N := u32 (N.shiftl 1 (N.of_nat n) - 1).
Definition mask_dw : N := N.shiftl mask_up (N.of_nat n).

(** ham_local.py:102-126: the value written for an N-symmetric state.  Note
    that [edwdiag] is used for both spins (line 110). *)
Definition n_value (sdu : N) : K :=
  let sdw := N.shiftr (N.land sdu mask_dw) (N.of_nat n) in
  let sup := N.land sdu mask_up in
  let r := fold_left (fun r i => r + edwdiag i * (occf sdw i + occf sup i)) (seq 0 n) 0 in
  coulomb (occf sup) (occf sdw) r.

(** ham_local.py:79-126 [_N_build_ham_local]. *)
Definition n_writes (states : list N) (idu : nat) : list (nat * K) :=
  [(idu, n_value (nth idu states 0%N))].
Definition build_n (states : list N) (vec_diag : list K) : res (list K) :=
  run_writes (flat_map (n_writes states) (seq 0 (length states))) vec_diag.

End Local.

Section Build.
Variable K : CRing.
Variable half : K.
Local Open Scope cr_scope.

(** [sct.states]: either two lists (Sz symmetry) or one (N symmetry). *)
Inductive states_t := StSz (up dw : list N) | StN (states : list N).

(** sector size [sct.d] (espace.py:41,47): product of the two list sizes, or
    the length of the single list. *)
Definition states_dim (st : states_t) : nat :=
  match st with StSz up dw => length up * length dw | StN l => length l end.

(** ham_local.py:129-134: default of [z]. *)
Definition default_z (hfmode : bool) (z : option (nat -> K)) : nat -> K :=
  match z with
  | Some z => z
  | None => if hfmode then fun _ => 1 else fun _ => 0
  end.

(** ham_local.py:129-141 [build_ham_local]. *)
Definition build_ham_local (n : nat) (H : nat -> nat -> nat -> K) (V : nat -> nat -> K)
    (st : states_t) (hfmode : bool) (mu : K) (z : option (nat -> K)) : res (list K) :=
  let z := default_z hfmode z in
  let vec_diag := repeat 0 (states_dim st) in
  match st with
  | StSz up dw => build_sz K half n H V z hfmode mu up dw vec_diag
  | StN l => build_n K half n H V z hfmode mu l vec_diag
  end.

End Build.
