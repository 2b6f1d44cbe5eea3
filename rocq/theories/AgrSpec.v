(** The Lehmann sums of the two parts of a Green's function. *)
From Coq Require Import Reals List Arith NArith ZArith Bool.
From Verif Require Import Base RBase RLin CBase OperatorsSpec FockSpec SectorModel LocalModel MatvecModel EspaceModel ProjModel ProjSpec GfSpec GmSpec.
Import ListNotations.
Local Open Scope R_scope.

(** Adding an electron to a state of energy [ei] weighs that state, removing one
    from a state of energy [ej] weighs the latter. *)
Definition part_weight (op : fop) (beta egs ej ei : R) : R := match op with OpCdg => weight beta egs ei | OpC => weight beta egs ej end.
(** Unnormalised Lehmann sum of one part. *)
Definition lehmann_part (n s x y : nat) (beta egs : R) (F : family) (op : fop) (z : cx) : cx :=
  csum n (fun m => csum (S n) (fun o => let I := of_spin F s m o in let J := of_spin F s (S m) o in
    csum (nvals J) (fun j => csum (nvals I) (fun i =>
      cxdiv (rcx (add_amp n s x J I j i * add_amp n s y J I j i * part_weight op beta egs (energy J j) (energy I i)))
            (cxsub z (rcx (energy J j - energy I i))))))).
