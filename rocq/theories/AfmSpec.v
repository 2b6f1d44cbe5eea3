(** Pairs of spins that are exchanged together with electrons and holes. *)
From Coq Require Import String Reals List Arith ZArith Bool.
From Verif Require Import Base RBase RLin CBase FitModel DmftModel DmftSpec SymSpec PhsSpec MagModel MagSpec.
Import ListNotations.
Local Open Scope R_scope.

(** The bath with the energies negated, read from the other end. *)
Definition mirror (m : nat) (x : list R) : list R := relabel m (-1) (fun k => m - 1 - k)%nat (fun _ => 1) x.
(** Minus the conjugate: the reflection at the imaginary axis. *)
Definition over (z : cx) : cx := reflect (-1) z.
(** Site 0 at -(c+f) for up and -(c-f) for down; each level of one spin has a level of opposite energy and the
    same coupling for the other spin. *)
Definition facing (n : nat) (Hu Hd : list R) (c f : R) : Prop :=
  symmetric n Hu /\ symmetric n Hd /\ arrow n Hu /\ arrow n Hd /\ ent n Hu 0 0 = - (c + f) /\ ent n Hd 0 0 = - (c - f) /\
  forall k, (0 < k < n)%nat -> ent n Hd (n - k) (n - k) = - ent n Hu k k /\ ent n Hd 0 (n - k) = ent n Hu 0 k.
(** Functions of the two spins that are reflections of each other. *)
Definition facing_gf (fu fd : cx -> cx) : Prop := forall z, im z <> 0 -> fd (over z) = over (fu z).
(** Lattices that commute with the reflection. *)
Definition facing_lattice (k : lattice) (ed : R) : Prop :=
  match k with LHybrid hyb => forall w, re (hyb (0, w)) = 0 | LHilbert h => ed = 0 /\ forall z, h (over z) = over (h z) end.
(** Fits that commute with the reflection of bath and data. *)
Definition facing_fit (n nm : nat) (fitter : list R -> list cx -> list R) : Prop :=
  forall x d, length x = (2 * (n - 1))%nat -> length d = nm -> length (fitter x d) = (2 * (n - 1))%nat /\ fitter (mirror (n - 1) x) (map over d) = mirror (n - 1) (fitter x d).
(** The state of the loop, and the data of one trial. *)
Definition opposed (n : nat) (U mu ed : R) (hf : bool) (a : spins * gfloc) : Prop :=
  let '((u, d), l) := a in
  shaped n U u /\ shaped n U d /\ imp_x d = mirror (n - 1) (imp_x u) /\
  loc_mu l = Some mu /\ loc_ed l = Some ed /\ loc_Sigma l = Some SImp /\ facing_lattice (loc_kind l) ed /\
  (exists fu fd, imp_gf u = Some fu /\ imp_gf d = Some fd /\ facing_gf fu fd) /\
  forall z, im z <> 0 -> exists v, imp_Sigma u z = Ok (cxadd (rcx (centre hf U)) v) /\ imp_Sigma d (over z) = Ok (cxadd (rcx (centre hf U)) (over v)).
Definition facing_data (nm : nat) (d : both) : Prop := length (fst d) = nm /\ snd d = map over (fst d).
