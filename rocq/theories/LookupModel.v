(** Model of edpyt/lookup.py. *)
From Coq Require Import List Arith NArith ZArith Bool.
From Verif Require Import Base OperatorsModel.
Import ListNotations.

(** lookup.py:10-18 [count_bits]. *)
Definition count_bits (s : N) (n : nat) : N :=
  fold_left (fun bits i => (bits + bitval s i)%N) (seq 0 n) 0%N.

(** Binary digits of a positive number, least significant first. *)
Fixpoint pos_digits (p : positive) : list bool :=
  match p with
  | xH => [true]
  | xO p => false :: pos_digits p
  | xI p => true :: pos_digits p
  end.

(** [np.binary_repr(i, n)] for a non-negative [i] (called in lookup.py:28):
    most significant digit first, zero-filled to width [n]; [0] gives
    ['0'*(n or 1)]; a number that needs more than [n] digits is returned
    unpadded (NumPy < 1.24 behaviour; newer versions raise).  Characters '0'/'1' are
    modelled as booleans. *)
Definition binary_repr (i : N) (n : nat) : list bool :=
  match i with
  | N0 => repeat false (if n =? 0 then 1 else n)
  | Npos p => let d := pos_digits p in repeat false (n - length d) ++ rev d
  end.

(** lookup.py:21-38 [binrep]; the "array" and "string" formats reverse the same
    digit sequence ([[::-1]], lines 30 and 34), so one list models both.
    Simplification: the [ValueError] for an unknown format name is left out. *)
Definition binrep (i : N) (n : nat) : list bool := rev (binary_repr i n).

(** The loop lookup.py:45-48 of [intrep] for arrays:
    [for shift, j in enumerate(arr_repr[::-1]): if j: i += 1 << shift]. *)
Fixpoint intrep_loop (l : list bool) (shift : nat) (i : N) : N :=
  match l with
  | [] => i
  | j :: l => intrep_loop l (S shift)
                (if j then (i + N.shiftl 1 (N.of_nat shift))%N else i)
  end.

(** lookup.py:41-49 [intrep], array case.  NumPy promotes uint32 with Python
    int to int64, so no truncation happens for the sizes concerned. *)
Definition intrep (l : list bool) : N := intrep_loop (rev l) 0 0.

(** lookup.py:43-44 [intrep], string case: [int(str, base=2)] reads the most
    significant digit first; then converted to uint32. *)
Definition intrep_str (l : list bool) : N :=
  u32 (fold_left (fun acc d => (2 * acc + (if d : bool then 1 else 0))%N) l 0%N).

(** lookup.py:54-60 [get_spin_indices]: [%] and [//] have Python (floor)
    semantics in Numba.  Simplification: 64-bit overflow is not modelled; a
    zero [dup] raises ZeroDivisionError. *)
Definition get_spin_indices (i dup dwn : Z) : res (Z * Z) :=
  if Z.eqb dup 0 then Err ZeroDivisionError
  else Ok (Z.modulo i dup, Z.div i dup).

(** lookup.py:64-69 [get_state_index]. *)
Definition get_state_index (iup idw dup : Z) : Z := (iup + idw * dup)%Z.

(** The [while] loop of [binsearch], lookup.py:77-82, with explicit fuel.
    [(lo+hi)>>1] is the arithmetic shift; [a[m]] is an unchecked read, here
    [OutOfBounds] if outside the array. *)
Fixpoint bs_loop (fuel : nat) (a : list N) (s : N) (lo hi : Z) : res Z :=
  if (1 <? hi - lo)%Z then
    match fuel with
    | O => Err OutOfFuel
    | S fuel =>
        let m := Z.shiftr (lo + hi) 1 in
        if (m <? 0)%Z then Err OutOfBounds
        else match nth_error a (Z.to_nat m) with
             | None => Err OutOfBounds
             | Some x => if (x <=? s)%N then bs_loop fuel a s m hi
                         else bs_loop fuel a s lo m
             end
    end
  else Ok lo.

(** lookup.py:72-88 [binsearch]. *)
Definition binsearch (a : list N) (s : N) : res Z :=
  do lo <- bs_loop (length a) a s (-1) (Z.of_nat (length a));
  if Z.eqb lo (-1) then Ok (-1)%Z
  else if (lo <? 0)%Z then Err OutOfBounds
  else match nth_error a (Z.to_nat lo) with
       | None => Err OutOfBounds
       | Some x => if N.eqb x s then Ok lo else Ok (-1)%Z
       end.

(** lookup.py:92-96 [get_num_spins]: [np.unravel_index(isct,(n+1,n+1))], which
    raises ValueError outside [0..(n+1)^2-1]. *)
Definition get_num_spins (isct n : Z) : res (Z * Z) :=
  if ((0 <=? isct) && (isct <? (n + 1) * (n + 1)))%Z
  then Ok (Z.div isct (n + 1), Z.modulo isct (n + 1))
  else Err ValueError.

(** lookup.py:100-104 [get_sector_index]:
    [np.ravel_multi_index((nup,ndw),(n+1,n+1))], which raises ValueError if a
    coordinate is outside [0..n]. *)
Definition get_sector_index (n nup ndw : Z) : res Z :=
  if ((0 <=? nup) && (nup <=? n) && (0 <=? ndw) && (ndw <=? n))%Z
  then Ok (nup * (n + 1) + ndw)%Z
  else Err ValueError.
