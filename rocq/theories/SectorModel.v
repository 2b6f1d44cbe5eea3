(** Model of edpyt/sector.py. *)
From Coq Require Import List Arith NArith ZArith Bool.
From Verif Require Import Base OperatorsModel.
Import ListNotations.

(** [int(scipy.special.binom(n, k))] (sector.py:37,44 and elsewhere) for
    natural arguments, taken to be the exact binomial coefficient (zero for
    k>n); float rounding inside scipy is not modelled. *)
Fixpoint binom (n k : nat) : nat :=
  match n, k with
  | _, O => 1
  | O, S _ => 0
  | S n, S k => binom n k + binom n (S k)
  end.

(** uint64 wrap-around. *)
Definition u64 (x : N) : N := (x mod 2^64)%N.

(** One iteration of the loop sector.py:26-28 in [permutations].
    Numba types: [-x] on an unsigned word is the uint64 negation, [u], [v] and
    [x] are uint64; [(v^x)/u] is a float64 division by a power of two (exact
    here; truncated by the uint32 conversion, modelled as integer division);
    a zero [u] raises ZeroDivisionError. *)
Definition perm_step (x : N) : res N :=
  let u := N.land x (u64 (2^64 - x)) in
  let v := u64 (u + x) in
  if N.eqb u 0 then Err ZeroDivisionError
  else Ok (u64 (v + N.shiftr (u32 (N.lxor v x / u)) 2)).

(** sector.py:18-29 [permutations]: the [k] entries after the first one;
    storing into the uint32 array truncates. *)
Fixpoint permutations (x : N) (k : nat) : res (list N) :=
  match k with
  | O => Ok []
  | S k => do x' <- perm_step x; do l <- permutations x' k; Ok (u32 x' :: l)
  end.

(** sector.py:32-37 [get_sector_dim]. *)
Definition get_sector_dim (n nup ndw : nat) : nat := binom n nup * binom n ndw.

(** sector.py:40-49 [generate_states]; [states[0] = initial] raises
    IndexError when the array is empty. *)
Definition generate_states (n p : nat) : res (list N) :=
  let num_states := binom n p in
  let initial := u32 (N.shiftl 1 (N.of_nat p) - 1) in
  match num_states with
  | O => Err IndexError
  | S k => do l <- permutations initial k; Ok (initial :: l)
  end.

(** sector.py:52-70 [get_cdg_sector]; arguments are Python integers. *)
Definition get_cdg_sector (n nup ndw ispin : Z) : res (Z * Z) :=
  if Z.eqb ispin 0 then
    let nupJ := (nup + 1)%Z in let ndwJ := ndw in
    if (n <? nupJ)%Z then Err OutOfHilbertError else Ok (nupJ, ndwJ)
  else if Z.eqb ispin 1 then
    let nupJ := nup in let ndwJ := (ndw + 1)%Z in
    if (n <? ndwJ)%Z then Err OutOfHilbertError else Ok (nupJ, ndwJ)
  else Err RuntimeError.

(** sector.py:73-89 [get_c_sector]. *)
Definition get_c_sector (nup ndw ispin : Z) : res (Z * Z) :=
  if Z.eqb ispin 0 then
    let nupJ := (nup - 1)%Z in let ndwJ := ndw in
    if (nupJ <? 0)%Z then Err OutOfHilbertError else Ok (nupJ, ndwJ)
  else if Z.eqb ispin 1 then
    let nupJ := nup in let ndwJ := (ndw - 1)%Z in
    if (ndwJ <? 0)%Z then Err OutOfHilbertError else Ok (nupJ, ndwJ)
  else Err RuntimeError.
