(** Model of edpyt/operators.py and edpyt/shared.py. *)
From Coq Require Import List Arith NArith ZArith Bool.
From Verif Require Import Base.
Import ListNotations.

(** edpyt/shared.py:4-5 ([unsiged_dt = np.uint32]): storing into a uint32
    truncates modulo 2^32. *)
Definition u32 (x : N) : N := (x mod 2^32)%N.

(** Bit [k] of [s] as computed by [(s>>k)&unsigned_one]
    (operators.py:26,39,99; lookup.py:17; ham_local.py:45,51).
    Numba computes the shift of a uint32 by an int64 in uint64; for k<64 this
    is the mathematical right shift.  Simplification: for k>=64 (undefined in
    LLVM) the model also uses the mathematical shift. *)
Definition bitval (s : N) (k : nat) : N := N.land (N.shiftr s (N.of_nat k)) 1.

(** operators.py:8-15 [flip].  [unsigned_one<<pos] is computed in uint64 by
    Numba and the result is truncated to the declared uint32 return type, so a
    position in 32..63 leaves the state unchanged.  Simplification: positions
    are natural numbers (a negative shift is undefined); positions >=64
    (undefined) behave like 32..63. *)
Definition flip (s : N) (pos : nat) : N :=
  u32 (N.lxor (N.shiftl 1 (N.of_nat pos)) s).

(** The accumulation loop shared by [fsgn] (operators.py:24-26) and
    [get_parity] (operators.py:37-39): number of ones at positions
    [from <= k < to], as [range(from,to)] (empty when [to <= from]). *)
Definition bits_in_range (s : N) (from to : nat) : N :=
  fold_left (fun bits k => (bits + bitval s k)%N) (seq from (to - from)) 0%N.

(** [1-2*(bits%2)], operators.py:27,40. *)
Definition sgn_of_bits (bits : N) : Z := (1 - 2 * Z.of_N (bits mod 2))%Z.

(** operators.py:18-27 [fsgn]. *)
Definition fsgn (s : N) (pos n : nat) : Z := sgn_of_bits (bits_in_range s (pos + 1) n).

(** operators.py:30-40 [get_parity]; [sorted((i,j))] puts the pair in order. *)
Definition get_parity (s : N) (i j : nat) : Z :=
  let '(i, j) := if (i <=? j)%nat then (i, j) else (j, i) in
  sgn_of_bits (bits_in_range s (i + 1) j).

(** operators.py:43-61 [cdg]: returns (sign, state) or raises AssertionError. *)
Definition cdg (s : N) (pos n : nat) : res (Z * N) :=
  let s_out := flip s pos in
  let fermionic_sgn := fsgn s pos n in
  if (s <? s_out)%N then Ok (fermionic_sgn, s_out) else Err AssertionError.

(** operators.py:64-82 [c]. *)
Definition c (s : N) (pos n : nat) : res (Z * N) :=
  let s_out := flip s pos in
  let fermionic_sgn := fsgn s pos n in
  if (s_out <? s)%N then Ok (fermionic_sgn, s_out) else Err AssertionError.

(** operators.py:85-90 [cdgc]; the returned state is truncated to uint32 by
    the declared signature. *)
Definition cdgc (s : N) (i j : nat) : Z * N :=
  let f := N.lxor (N.lxor s (N.shiftl 1 (N.of_nat j))) (N.shiftl 1 (N.of_nat i)) in
  (get_parity s i j, u32 f).

(** operators.py:93-99 [check_full] (also [n_op], line 111). *)
Definition check_full (s : N) (pos : nat) : N := bitval s pos.

(** operators.py:102-108 [check_empty]: [not check_full], cast to uint32. *)
Definition check_empty (s : N) (pos : nat) : N :=
  if N.eqb (check_full s pos) 0 then 1%N else 0%N.
