(** Second quantisation, written down independently of the code: words of
    creation and annihilation operators acting on Fock states with unboundedly
    many orbitals.  Orbitals are ordered with the largest index leftmost. *)
From Coq Require Import List Arith NArith ZArith Bool.
From Verif Require Import Base OperatorsSpec.
Import ListNotations.

Inductive ladder_op := Cr (i : nat) | An (i : nat).

(** Action of one operator on a basis state of [n] orbitals; [None] is the
    zero vector. *)
Definition app1 (n : nat) (o : ladder_op) (s : N) : option (Z * N) :=
  match o with
  | Cr i => if occ s i then None
            else Some (parity_sign (nocc s (S i) n), N.setbit s (N.of_nat i))
  | An i => if occ s i
            then Some (parity_sign (nocc s (S i) n), N.clearbit s (N.of_nat i))
            else None
  end.

(** A product of operators; the rightmost one acts first. *)
Fixpoint word (n : nat) (l : list ladder_op) (s : N) : option (Z * N) :=
  match l with
  | [] => Some (1%Z, s)
  | o :: l => match word n l s with
              | None => None
              | Some (z, u) => match app1 n o u with
                               | None => None
                               | Some (z', v) => Some ((z' * z)%Z, v)
                               end
              end
  end.

(** Matrix element <t| l |s>. *)
Definition elem (n : nat) (l : list ladder_op) (t s : N) : Z :=
  match word n l s with
  | None => 0%Z
  | Some (z, u) => if N.eqb u t then z else 0%Z
  end.

(** The 2n-orbital state with up electrons in orbitals 0..n-1 and down
    electrons in orbitals n..2n-1. *)
Definition combine (n : nat) (sup sdw : N) : N := (sup + sdw * 2 ^ N.of_nat n)%N.
