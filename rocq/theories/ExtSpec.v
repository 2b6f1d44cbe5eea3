(** What a list of sequential elements extracted from the second-order ones contains. *)
From Coq Require Import Reals List Arith NArith ZArith Bool Permutation.
From Verif Require Import Base RBase RLin OperatorsSpec FockSpec SectorModel LocalModel MatvecModel EspaceModel ProjModel ProjSpec GfSpec RateModel RateSpec TransSpec TnlSpec.
Import ListNotations.
Local Open Scope R_scope.

(** The labels of the two spins. *)
Definition twice (l : list (nat * gfel)) (g0 g1 : gfel) : Prop := Permutation l [(0%nat, g0); (0%nat, g0); (1%nat, g1); (1%nat, g1)].
(** Each element once with either label. *)
Definition mixed (l : list (nat * gfel)) (g0 g1 : gfel) : Prop := Permutation l [(0%nat, g0); (1%nat, g0); (0%nat, g1); (1%nat, g1)].
(** The transition involves a sector with more electrons than [N]. *)
Definition upper (N : nat) (F I : label) : Prop := exists a b, (F = [S N; a] /\ I = [N; b]) \/ (F = [N; b] /\ I = [S N; a]).
