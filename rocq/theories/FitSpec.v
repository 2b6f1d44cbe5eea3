(** Discrete bath: hybridisation, least squares objective, initial guess. *)
From Coq Require Import Reals List Arith ZArith Bool.
From Verif Require Import Base RBase RLin CBase.
Import ListNotations.
Local Open Scope R_scope.

(** Hybridisation of [m] levels [e] with couplings [v]. *)
Definition hyb (m : nat) (e v : nat -> R) (z : cx) : cx := csum m (fun k => cxdiv (rcx (v k * v k)) (cxsub z (rcx (e k)))).
(** Mean squared distance on a grid of [n] points. *)
Definition misfit (n m : nat) (z d : nat -> cx) (e v : nat -> R) : R :=
  rsum n (fun i => cxn2 (cxsub (d i) (hyb m e v (z i)))) / INR n.
(** No grid point hits a level. *)
Definition off_levels (p : list R) (z : list cx) : Prop :=
  forall i j, (i < length z)%nat -> (j < length p / 2)%nat -> nth i z (rcx 0) <> rcx (nth j p 0).

(** All entries written. *)
Definition written (p : list (option R)) (e : list R) : Prop := p = map Some e.
Definition strictly_increasing (m : nat) (e : nat -> R) : Prop := forall k, (S k < m)%nat -> e k < e (S k).
