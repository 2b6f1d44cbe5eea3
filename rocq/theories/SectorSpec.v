(** Specification vocabulary for sectors. *)
From Coq Require Import List Arith NArith ZArith Bool Factorial.
From Verif Require Import Base OperatorsSpec LookupSpec.

(** [s] is a Fock state of [n] orbitals with [p] particles. *)
Definition in_sector (n p : nat) (s : N) : Prop :=
  (s < 2 ^ N.of_nat n)%N /\ popcount s = p.

(** [b] is the binomial coefficient "n over k". *)
Definition is_binomial (b n k : nat) : Prop :=
  if k <=? n then b * (fact k * fact (n - k)) = fact n else b = 0.
