(** What one sample of the distributional solver has to be. *)
From Coq Require Import Reals List Arith NArith ZArith Bool.
From Verif Require Import Base RBase RLin CBase MbModel EspaceModel ProjModel CfModel GfModel DedSpec.
Import ListNotations.
Local Open Scope R_scope.

(** Impurity on site 0 with the interaction [U], coupled by -v_k to the levels e_k. *)
Definition is_siam (n : nat) (e0 : R) (e v : nat -> R) (U : R) (H V : nat -> nat -> R) : Prop :=
  forall a b, (a < n)%nat -> (b < n)%nat -> H a b = star e0 e v a b /\ V a b = if (a =? 0)%nat && (b =? 0)%nat then U else 0.
(** The first sector whose lowest energy is the ground state energy up to 1e-7. *)
Definition ground_sector (es : espace RRing) (e : R) (q : qnums) (s : sct RRing) : Prop :=
  exists l1 l2, es = l1 ++ (q, s) :: l2 /\ (exists v r, s_vals RRing s = v :: r /\ Rabs (v - e) < / 10000000) /\
  forall q' s' v r, In (q', s') l1 -> s_vals RRing s' = v :: r -> / 10000000 <= Rabs (v - e).
(** Inverse of the mean Green's function of the poles minus inverse of the interacting one. *)
Definition self_energy_at (n : nat) (p : nat -> R) (gf : gf_t) (z x : cx) : Prop :=
  exists G, gf_call gf (rcx (re z)) (im z) = Ok G /\ x = cxsub (cxinv (mean_gf n p z)) (cxinv G).
(** Lowest energy of the first sector with these particle numbers. *)
Definition lowest (es : espace RRing) (q : qnums) (m : R) : Prop :=
  exists l1 s l2, es = l1 ++ (q, s) :: l2 /\ (forall s', ~ In (q, s') l1) /\ In m (s_vals RRing s) /\ forall v, In v (s_vals RRing s) -> m <= v.
(** The poles with all signs changed, in ascending order again. *)
Definition mirrored (poles : list R) : list R := rev (map Ropp poles).
