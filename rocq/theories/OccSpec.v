(** The same solved sector in the two forms used by the models: columns
    (EspaceModel) and a numpy array in either memory layout (ObsModel). *)
From Coq Require Import Reals List Arith.
From Verif Require Import Base RBase CBase LocalModel MatvecModel EspaceModel ProjSpec CfModel GfModel GfSpec ObsModel ObsSpec.
Local Open Scope R_scope.

Definition stored (s : sct RRing) (o : osct) : Prop :=
  o_states o = s_states RRing s /\ o_vals o = s_vals RRing s /\ matrix_arr RRing (o_vecs o) (sdim RRing s) (nvals s) /\
  forall i j, (i < sdim RRing s)%nat -> (j < nvals s)%nat -> entry RRing (o_vecs o) (sdim RRing s) (nvals s) i j = nth i (vec RRing s j) 0.

(** The Green's function object as a function of the frequency. *)
Definition gf_fun (g : gf_t) (z : cx) : cx := match gf_call g z 0 with Ok G => G | Err _ => rcx 0 end.
