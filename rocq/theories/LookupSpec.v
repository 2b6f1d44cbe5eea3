(** Specification vocabulary for state lookup. *)
From Coq Require Import List Arith NArith ZArith Bool Sorted.
From Verif Require Import Base OperatorsSpec.

(** Number of ones in the binary representation. *)
Fixpoint pos_popcount (p : positive) : nat :=
  match p with
  | xH => 1
  | xO p => pos_popcount p
  | xI p => S (pos_popcount p)
  end.
Definition popcount (s : N) : nat :=
  match s with N0 => 0 | Npos p => pos_popcount p end.

(** Strictly increasing array. *)
Definition increasing (a : list N) : Prop := StronglySorted N.lt a.

(** [t] is [s] read backwards as an [n]-bit word. *)
Definition bit_reversal (n : nat) (s t : N) : Prop :=
  forall k, occ t k = (k <? n) && occ s (n - 1 - k).
