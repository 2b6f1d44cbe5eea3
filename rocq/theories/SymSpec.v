(** Symmetries of a discrete bath: levels renumbered, signs of couplings, particle-hole mirror. *)
From Coq Require Import Reals List Arith.
From Verif Require Import Base RBase RLin CBase.
Import ListNotations.
Local Open Scope R_scope.

Definition is_sign (x : R) : Prop := x = 1 \/ x = -1.
Definition renumbering (m : nat) (sg : nat -> nat) : Prop :=
  (forall k, (k < m)%nat -> (sg k < m)%nat) /\ forall j k, (j < m)%nat -> (k < m)%nat -> sg j = sg k -> j = k.
(** [m] energies, then [m] couplings. *)
Definition relabel (m : nat) (mu : R) (sg : nat -> nat) (ep : nat -> R) (x : list R) : list R :=
  map (fun k => mu * nth (sg k) x 0) (seq 0 m) ++ map (fun k => ep k * nth (m + sg k) x 0) (seq 0 m).
(** The target with electrons and holes exchanged, for the sign -1. *)
Definition reflect (mu : R) (d : cx) : cx := (mu * re d, im d).
(** Levels in pairs of opposite energy with equal couplings. *)
Definition mirror_symmetric (m : nat) (x : list R) : Prop :=
  forall k, (k < m)%nat -> nth k x 0 = - nth (m - 1 - k) x 0 /\ nth (m + k) x 0 = nth (m + (m - 1 - k)) x 0.
(** Signed permutations of parameters. *)
Definition signed_perm (dim : nat) (pi : nat -> nat) (s : nat -> R) (x : list R) : list R := map (fun k => s k * nth (pi k) x 0) (seq 0 dim).
