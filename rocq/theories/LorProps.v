(** C140: the density sampled by the script ded.py. *)
From Coq Require Import Reals Lra Psatz.
From Verif Require Import Base RBase CBase LorModel LorProofs.
Local Open Scope R_scope.

(** Positive, even and falling away from [z0]; gamma is the full width at half maximum. *)
Theorem C140_shape gamma z0 : 0 < gamma -> (forall z, 0 < lorentzian gamma z0 z) /\
  (forall x y, Rabs (x - z0) < Rabs (y - z0) -> lorentzian gamma z0 y < lorentzian gamma z0 x) /\ (forall t, lorentzian gamma z0 (z0 - t) = lorentzian gamma z0 (z0 + t)) /\
  lorentzian gamma z0 z0 = 2 / (PI * gamma) /\ lorentzian gamma z0 (z0 + gamma / 2) = lorentzian gamma z0 z0 / 2.
Proof. exact (fun H => conj (lor_pos gamma z0 H) (conj (lor_falls gamma z0 H) (conj (lor_even gamma z0) (conj (lor_peak gamma z0 H) (proj2 (lor_half gamma z0 H)))))). Qed.
Print Assumptions C140_shape.

(** The weight of an interval: always short of 1 ... *)
Theorem C140_weight gamma z0 a b (pr : Riemann_integrable (lorentzian gamma z0) a b) : 0 < gamma -> a < b ->
  0 < RiemannInt pr < 1 /\ RiemannInt pr = (atan (2 * (b - z0) / gamma) - atan (2 * (a - z0) / gamma)) / PI.
Proof. exact (fun H => mass gamma z0 H a b pr). Qed.
Print Assumptions C140_weight.

(** ... but as close to 1 as one likes. *)
Theorem C140_total gamma z0 eps : 0 < gamma -> 0 < eps -> exists w, 0 < w /\
  forall a b (pr : Riemann_integrable (lorentzian gamma z0) a b), a <= z0 - w -> z0 + w <= b -> 1 - eps < RiemannInt pr.
Proof. exact (fun H => mass_all gamma z0 H eps). Qed.
Print Assumptions C140_total.

(** A negative gamma changes the sign. *)
Theorem C140_negative gamma z0 z : lorentzian (- gamma) z0 z = - lorentzian gamma z0 z.
Proof. exact (lor_neg gamma z0 z). Qed.
Print Assumptions C140_negative.

(** The density sampled in each round is what the round would plot on the real axis
    without self-energy. *)
Theorem C140_plot delta ed sigma0 x : script_plot delta ed sigma0 (rcx 0) (rcx x) = script_dos delta ed sigma0 x.
Proof. exact (plot_dos delta ed sigma0 x). Qed.
Print Assumptions C140_plot.

(** The script's first round: delta = 0.3, ed = -2, sigma0 = 3/2.  The peak is at -1/2,
    half of the weight is between -0.8 and -0.2. *)
Example C140_ex : exists pr : Riemann_integrable (script_dos (3 / 10) (-2) (3 / 2)) (- (8 / 10)) (- (2 / 10)), RiemannInt pr = / 2 /\ script_dos (3 / 10) (-2) (3 / 2) (- / 2) = 10 / (3 * PI).
Proof.
  pose proof PI_RGT_0. assert (pr : Riemann_integrable (lorentzian (2 * (3 / 10)) (-2 + 3 / 2)) (- (8 / 10)) (- (2 / 10))) by (apply lor_integrable; lra). exists pr. split.
  - destruct (C140_weight _ _ _ _ pr ltac:(lra) ltac:(lra)) as [_ E]. etransitivity; [exact E|].
    replace (2 * (- (2 / 10) - (-2 + 3 / 2)) / (2 * (3 / 10))) with 1 by field. replace (2 * (- (8 / 10) - (-2 + 3 / 2)) / (2 * (3 / 10))) with (- (1)) by field. rewrite atan_opp, atan_1. field. lra.
  - unfold script_dos. replace (- / 2) with (-2 + 3 / 2) by field. rewrite (proj1 (proj2 (proj2 (proj2 (C140_shape (2 * (3 / 10)) (-2 + 3 / 2) ltac:(lra)))))). field. lra.
Qed.
