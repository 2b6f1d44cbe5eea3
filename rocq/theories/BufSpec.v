(** What the calls of a fit should answer, whatever was called before. *)
From Coq Require Import Reals List Arith ZArith Bool.
From Verif Require Import Base RBase RLin CBase FitSpec BufModel.
Import ListNotations.
Local Open Scope R_scope.

Definition point (c : call) : list R := match c with CallDelta p | CallChi2 p | CallDchi2 p => p end.
(** The mean squared distance at a parameter array of [m] levels and [m] couplings. *)
Definition distance_at (m : nat) (z vals : list cx) (p : list R) : R :=
  misfit (length z) m (fun i => nth i z (rcx 0)) (fun i => nth i vals (rcx 0)) (fun k => nth k p 0) (fun k => nth (m + k) p 0).
(** The function value, and the partial derivatives. *)
Definition right_answer (m : nat) (z vals : list cx) (c : call) (a : answer) : Prop :=
  match c, a with
  | CallDelta _, TheArray => True
  | CallChi2 p, Number x => x = distance_at m z vals p
  | CallDchi2 p, Vector (Ok g) => length g = length p /\
      forall k, (k < length p)%nat -> derivable_pt_lim (fun t => distance_at m z vals (upd_tot p k t)) (nth k p 0) (nth k g 0)
  | _, _ => False
  end.
(** The arrays have the shapes they were made with. *)
Definition shaped (m : nat) (z : list cx) (b : buffers) : Prop :=
  length (b_delta b) = length z /\ length (b_ddelta b) = length z /\ forall row, In row (b_ddelta b) -> length row = (2 * m)%nat.
(** The hybridisation of [p] on the grid. *)
Definition holds_hyb (m : nat) (z : list cx) (p : list R) (l : list cx) : Prop :=
  l = map (hyb m (fun k => nth k p 0) (fun k => nth (m + k) p 0)) z.
