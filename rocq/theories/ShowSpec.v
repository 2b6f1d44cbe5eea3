(** What the displays should contain. *)
From Coq Require Import Reals List Arith NArith Bool.
From Verif Require Import Base OperatorsSpec MatvecModel EspaceModel ShowModel.
Import ListNotations.

(** The characters of one site, from its two occupations. *)
Definition site (s_up s_dw : N) (i : nat) : text :=
  match occ s_up i, occ s_dw i with
  | false, false => [Zero] | true, false => [Up] | false, true => [Down] | true, true => [Up; Down]
  end.
Fixpoint joined (l : list text) : text :=
  match l with [] => [] | [x] => x | x :: l => x ++ Comma :: joined l end.
(** |site,site,...> *)
Definition rendered (s_up s_dw : N) (n : nat) : text := Bar :: joined (map (site s_up s_dw) (seq 0 n)) ++ [Close].
(** The up and down halves of a state of [2 n] orbitals. *)
Definition halves (s : N) (n : nat) (up dw : N) : Prop :=
  (up < 2 ^ N.of_nat n)%N /\ (dw < 2 ^ N.of_nat n)%N /\ (forall i, (i < n)%nat -> occ up i = occ s i) /\ forall i, (i < n)%nat -> occ dw i = occ s (i + n).
Fixpoint ascending (l : list R) : Prop := match l with x :: (y :: _) as t => (x <= y)%R /\ ascending t | _ => True end.
(** Number of electrons of a sector, labelled by N or by (nup, ndw). *)
Definition electrons (key : qnums) : nat := match key with [N] => N | [nup; ndw] => nup + ndw | _ => 0 end.
