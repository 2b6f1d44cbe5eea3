(** The entries of a matrix above the threshold. *)
From Coq Require Import List Arith Bool.
From Verif Require Import Base.
Import ListNotations.

Section NnzSpec.
Variable K : CRing.
Variable big : K -> bool.
(** How many of the n x n entries are above the threshold. *)
Definition above (n : nat) (A : nat -> nat -> K) : nat :=
  length (filter (fun p => big (A (fst p) (snd p))) (list_prod (seq 0 n) (seq 0 n))).
(** [A] with the entries below the threshold set to zero. *)
Definition chopped (A : nat -> nat -> K) (i j : nat) : K := if big (A i j) then A i j else c0 K.
End NnzSpec.
