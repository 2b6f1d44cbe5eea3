(** Green's functions of dictionaries from which states have been removed by their energy. *)
From Coq Require Import Reals List Arith NArith ZArith Bool.
From Verif Require Import Base RBase RLin CBase OperatorsSpec FockSpec SectorModel LocalModel MatvecModel EspaceModel ProjModel ProjSpec GfSpec GmSpec GflSpec VisSpec.
Import ListNotations.
Local Open Scope R_scope.

(** Boltzmann weight of the states kept, zero for the others. *)
Definition cut_weight (keep : R -> bool) (beta egs e : R) : R := if keep e then weight beta egs e else 0.
(** Lehmann sum over a complete family with any weights of the states. *)
Definition lehmann_w (n s x y : nat) (W : R -> R) (F : family) (z : cx) : cx :=
  csum n (fun m => csum (S n) (fun o => let I := of_spin F s m o in let J := of_spin F s (S m) o in
    csum (nvals J) (fun j => csum (nvals I) (fun i =>
      cxdiv (rcx (add_amp n s x J I j i * add_amp n s y J I j i * (W (energy J j) + W (energy I i))))
            (cxsub z (rcx (energy J j - energy I i))))))).
Definition Zsum_w (n : nat) (W : R -> R) (F : family) : R :=
  rsum (S n) (fun p => rsum (S n) (fun q => rsum (nvals (F p q)) (fun i => W (energy (F p q) i)))).

(** A stored sector of at most ten states that differs by one electron of the given spin
    from another stored sector holds all its states (compare C127). *)
Definition undisturbed (n : nat) (ispin : Z) (es : espace RRing) : Prop :=
  forall p q s, In ([p; q], s) es -> (dimn n p q <= 10)%nat -> listed [p; q] (flat_map (targets n ispin) (map fst es)) = true -> nvals s = dimn n p q.
