(** A site that no hopping connects to the rest of a cluster. *)
From Coq Require Import Reals List Arith NArith ZArith Bool.
From Verif Require Import Base RBase RLin CBase OperatorsSpec FockSpec SectorModel MbModel MbSpec.
Import ListNotations.
Local Open Scope R_scope.

(** Site 0 keeps its electrons of both spins; its level for the spin [s] is [e]. *)
Definition isolated (n s : nat) (h : nat -> nat -> nat -> R) (e : R) : Prop :=
  h s 0%nat 0%nat = e /\ forall r l, (r < 2)%nat -> (0 < l < n)%nat -> h r l 0%nat = 0.
(** Two poles: the level alone, and the level with an electron of the other spin
    present, of weight [q]; the first has the weight [p]. *)
Definition two_poles (e u p q : R) (z : cx) : cx := cxadd (cxdiv (rcx p) (cxsub z (rcx e))) (cxdiv (rcx q) (cxsub z (rcx (e + u)))).
(** The self-energy of the isolated site with mean occupation [m] of the other spin. *)
Definition atom_sigma (e u m : R) (z : cx) : cx :=
  cxadd (rcx (u * m)) (cxdiv (rcx (u * u * (m * (1 - m)))) (cxsub z (rcx (e + u * (1 - m))))).
(** Grand canonical occupation of the spin with level [e], the other having the level [e']. *)
Definition atom_filling (beta e e' u : R) : R :=
  (exp (- beta * e) + exp (- beta * (e + e' + u))) / (1 + exp (- beta * e) + exp (- beta * e') + exp (- beta * (e + e' + u))).
(** The level of site 0 for the spin [r], and a site 0 that no hopping above the
    threshold [big] leaves. *)
Definition site_level (half : R) (h : hmat RRing) (hf : bool) (mu : R) (U : nat -> nat -> R) (r : nat) : R :=
  hspin RRing h r 0%nat 0%nat + mu - (if hf then half * U 0%nat 0%nat else 0).
Definition detached (big : R -> bool) (n : nat) (h : hmat RRing) : Prop :=
  forall r l, (r < 2)%nat -> (0 < l < n)%nat -> hspin RRing h r l 0%nat = 0 \/ big (hspin RRing h r l 0%nat) = false.
