(** Change of the Hubbard repulsion. *)
From Coq Require Import Reals List Arith.
From Verif Require Import Base RBase RLin LocalModel MbModel MbSpec.
Import ListNotations.
Local Open Scope R_scope.

(** [V'] differs from [V] only in the repulsion on each site, which is not smaller. *)
Definition repulsion_raised (n : nat) (V V' : inter RRing) (U U' : nat -> nat -> R) : Prop :=
  inter_Jx RRing V' = inter_Jx RRing V /\ inter_Jp RRing V' = inter_Jp RRing V /\
  (forall i j, (i < n)%nat -> (j < n)%nat -> i <> j -> U' i j = U i j) /\ (forall i, (i < n)%nat -> U i i <= U' i i).
