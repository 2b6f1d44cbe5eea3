(** Specification vocabulary for Fock states, independent of the model. *)
From Coq Require Import List Arith NArith ZArith Bool.
From Verif Require Import Base.

(** Orbital [k] of the state with bit pattern [s] is occupied. *)
Definition occ (s : N) (k : nat) : bool := N.testbit s (N.of_nat k).

(** Number of occupied orbitals [k] with [a <= k < b]. *)
Definition nocc (s : N) (a b : nat) : nat := length (filter (occ s) (seq a (b - a))).

(** (-1)^m. *)
Definition parity_sign (m : nat) : Z := if Nat.even m then 1%Z else (-1)%Z.

(** [t] is [s] with orbital [i] set to [b]. *)
Definition sets_orbital (s t : N) (i : nat) (b : bool) : Prop :=
  forall k, occ t k = if k =? i then b else occ s k.

(** Amplitude of basis state [t] in the result of applying an operator to a
    basis state; a raised exception is the zero vector. *)
Definition amp (r : res (Z * N)) (t : N) : Z :=
  match r with
  | Ok (sg, u) => if N.eqb u t then sg else 0%Z
  | Err _ => 0%Z
  end.

(** Apply [g] first, then [f]; signs multiply. *)
Definition after (f g : N -> res (Z * N)) (s : N) : res (Z * N) :=
  match g s with
  | Ok (sg, u) => match f u with
                  | Ok (sg', v) => Ok ((sg * sg')%Z, v)
                  | Err e => Err e
                  end
  | Err e => Err e
  end.

(** Matrix element <t| f g |s> + <t| g f |s>. *)
Definition anticomm (f g : N -> res (Z * N)) (s t : N) : Z :=
  (amp (after f g s) t + amp (after g f s) t)%Z.
