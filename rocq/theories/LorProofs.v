(** The Lorentzian: shape, integral, and the impurity function it comes from. *)
From Coq Require Import Reals Lra Psatz.
From Verif Require Import Base RBase CBase LorModel.
Local Open Scope R_scope.

Section Lor.
Variables (gamma z0 : R).
Hypothesis Hg : 0 < gamma.
Notation L := (lorentzian gamma z0).
Definition lcdf (z : R) : R := / 2 + atan ((z - z0) * (2 / gamma)) / PI.

Lemma den_pos z : 0 < (z - z0) * (z - z0) + (/ 2 * gamma) * (/ 2 * gamma).
Proof. pose proof (Rle_0_sqr (z - z0)) as H. unfold Rsqr in H. assert (0 < (/ 2 * gamma) * (/ 2 * gamma)) by (apply Rmult_lt_0_compat; lra). lra. Qed.
Lemma lor_pos z : 0 < L z.
Proof. unfold lorentzian. pose proof PI_RGT_0. pose proof (den_pos z). apply Rdiv_lt_0_compat; [|assumption]. apply Rmult_lt_0_compat; [apply Rdiv_lt_0_compat; lra|lra]. Qed.
Lemma lor_falls x y : Rabs (x - z0) < Rabs (y - z0) -> L y < L x.
Proof.
  intros H. assert (S : (x - z0) * (x - z0) < (y - z0) * (y - z0)) by (apply Rsqr_lt_abs_1 in H; exact H).
  unfold lorentzian, Rdiv. pose proof PI_RGT_0. pose proof (den_pos x). pose proof (den_pos y). apply Rmult_lt_compat_l.
  - apply Rmult_lt_0_compat; [apply Rmult_lt_0_compat; [lra|now apply Rinv_0_lt_compat]|lra].
  - apply Rinv_lt_contravar; [now apply Rmult_lt_0_compat|lra].
Qed.
Lemma lor_peak : L z0 = 2 / (PI * gamma).
Proof. unfold lorentzian. pose proof PI_RGT_0. replace ((z0 - z0) * (z0 - z0) + / 2 * gamma * (/ 2 * gamma)) with (gamma * gamma / 4) by field. field. split; lra. Qed.
Lemma lor_half : L (z0 - gamma / 2) = L z0 / 2 /\ L (z0 + gamma / 2) = L z0 / 2.
Proof. rewrite lor_peak. unfold lorentzian. pose proof PI_RGT_0.
  split; match goal with |- _ / ?x = _ => replace x with (gamma * gamma / 2) by field end; field; split; lra.
Qed.
Lemma lor_even t : L (z0 - t) = L (z0 + t).
Proof. unfold lorentzian. f_equal. ring. Qed.

Lemma lcdf_lim z : derivable_pt_lim lcdf z (L z).
Proof.
  pose proof PI_RGT_0 as HP. pose proof (den_pos z) as HD. unfold lcdf.
  assert (D1 : derivable_pt_lim (fun z => (z - z0) * (2 / gamma)) z (2 / gamma)).
  { set (k := 2 / gamma). enough (D : derivable_pt_lim (fun z => (z - z0) * k) z ((1 - 0) * k + (z - z0) * 0)) by (now replace ((1 - 0) * k + (z - z0) * 0) with k in D by ring).
    exact (derivable_pt_lim_mult (fun z => z - z0) (fun _ => k) z _ _ (derivable_pt_lim_minus id (fun _ => z0) z _ _ (derivable_pt_lim_id z) (derivable_pt_lim_const z0 z)) (derivable_pt_lim_const k z)). }
  pose proof (derivable_pt_lim_comp _ atan z _ _ D1 (derivable_pt_lim_atan _)) as D2.
  assert (E : L z = 0 + (/ (1 + ((z - z0) * (2 / gamma)) ^ 2) * (2 / gamma) * / PI + comp atan (fun z => (z - z0) * (2 / gamma)) z * 0)).
  { unfold lorentzian. assert (1 + ((z - z0) * (2 / gamma)) ^ 2 = ((z - z0) * (z - z0) + (/ 2 * gamma) * (/ 2 * gamma)) * (4 / (gamma * gamma))) as -> by (field; lra). set (q := (z - z0) * (z - z0) + (/ 2 * gamma) * (/ 2 * gamma)) in *. field. repeat split; lra. }
  rewrite E. exact (derivable_pt_lim_plus (fun _ => / 2) _ z _ _ (derivable_pt_lim_const (/ 2) z) (derivable_pt_lim_mult _ (fun _ => / PI) z _ _ D2 (derivable_pt_lim_const (/ PI) z))).
Qed.
Lemma lor_cont : continuity L.
Proof.
  intros z. unfold lorentzian. pose proof (den_pos z) as HD.
  apply (continuity_pt_div (fun _ => 1 / PI * (/ 2 * gamma)) (fun z => (z - z0) * (z - z0) + / 2 * gamma * (/ 2 * gamma))); [reg|reg|lra].
Qed.
Lemma lcdf_der : derivable lcdf.
Proof. intros z. exists (L z). apply lcdf_lim. Defined.
Lemma lcdf_derive z : derive lcdf lcdf_der z = L z.
Proof. unfold derive. apply derive_pt_eq_0, lcdf_lim. Qed.
Lemma lcdf_C1 : continuity (derive lcdf lcdf_der).
Proof.
  intros z. pose proof (lor_cont z) as C. unfold continuity_pt, continue_in, limit1_in, limit_in in *. intros e He. destruct (C e He) as (a & Ha & H). exists a. split; [exact Ha|].
  intros x Hx. rewrite !lcdf_derive. now apply H.
Qed.
Definition lcdf_fun : C1_fun := mkC1 lcdf_C1.
Lemma lor_int a b (pr : Riemann_integrable L a b) : a <= b -> RiemannInt pr = lcdf b - lcdf a.
Proof.
  intros H. assert (pr' : Riemann_integrable (derive lcdf_fun (diff0 lcdf_fun)) a b) by (apply continuity_implies_RiemannInt; [exact H|intros; apply (cont1 lcdf_fun)]).
  etransitivity; [|exact (FTC_Riemann lcdf_fun pr')]. apply RiemannInt_P18; [exact H|]. intros x _. symmetry. exact (lcdf_derive x).
Qed.
Lemma lor_integrable a b : a <= b -> Riemann_integrable L a b.
Proof. intros H. apply continuity_implies_RiemannInt; [exact H|]. intros; apply lor_cont. Qed.
Lemma lcdf_range z : 0 < lcdf z < 1.
Proof.
  unfold lcdf. pose proof PI_RGT_0 as HP. pose proof (atan_bound ((z - z0) * (2 / gamma))) as [A B]. set (t := atan _) in *.
  assert (- / 2 < t / PI < / 2) by (split; apply (Rmult_lt_reg_r PI); auto; unfold Rdiv; rewrite (Rmult_assoc t), Rinv_l by lra; lra). lra.
Qed.
Lemma lcdf_mono x y : x < y -> lcdf x < lcdf y.
Proof.
  intros H. unfold lcdf. pose proof PI_RGT_0. apply Rplus_lt_compat_l. apply Rmult_lt_compat_r; [now apply Rinv_0_lt_compat|]. apply atan_increasing. apply Rmult_lt_compat_r; [apply Rdiv_lt_0_compat; lra|lra].
Qed.
Lemma lcdf_window t : lcdf (z0 + t) - lcdf (z0 - t) = 2 / PI * atan (2 * t / gamma).
Proof.
  unfold lcdf. replace ((z0 + t - z0) * (2 / gamma)) with (2 * t / gamma) by (field; lra). replace ((z0 - t - z0) * (2 / gamma)) with (- (2 * t / gamma)) by (field; lra). rewrite atan_opp. field. pose proof PI_RGT_0. lra.
Qed.

Lemma mass a b (pr : Riemann_integrable L a b) : a < b -> 0 < RiemannInt pr < 1 /\ RiemannInt pr = (atan (2 * (b - z0) / gamma) - atan (2 * (a - z0) / gamma)) / PI.
Proof.
  intros H. rewrite (lor_int a b pr) by lra. pose proof (lcdf_range a). pose proof (lcdf_range b). pose proof (lcdf_mono a b H). split; [lra|]. unfold lcdf.
  replace ((b - z0) * (2 / gamma)) with (2 * (b - z0) / gamma) by (field; lra). replace ((a - z0) * (2 / gamma)) with (2 * (a - z0) / gamma) by (field; lra). field. pose proof PI_RGT_0. lra.
Qed.
Lemma mass_half (pr : Riemann_integrable L (z0 - gamma / 2) (z0 + gamma / 2)) : RiemannInt pr = / 2.
Proof. rewrite lor_int by lra. rewrite lcdf_window. replace (2 * (gamma / 2) / gamma) with 1 by (field; lra). rewrite atan_1. field. pose proof PI_RGT_0. lra. Qed.
Lemma mass_all eps : 0 < eps -> exists w, 0 < w /\ forall a b (pr : Riemann_integrable L a b), a <= z0 - w -> z0 + w <= b -> 1 - eps < RiemannInt pr.
Proof.
  intros He. pose proof PI_RGT_0 as HP. set (d := Rmin (eps * PI / 4) (PI / 4)). assert (D : 0 < d <= PI / 4 /\ d <= eps * PI / 4).
  { unfold d. split; [split|]; [apply Rmin_pos; [nra|lra]|apply Rmin_r|apply Rmin_l]. }
  destruct D as ((D0 & D1) & D2). exists (gamma / 2 * tan (PI / 2 - d)).
  assert (T : 0 < tan (PI / 2 - d)) by (apply tan_gt_0; lra). assert (W : 0 < gamma / 2 * tan (PI / 2 - d)) by nra. split; [exact W|]. set (w := gamma / 2 * tan (PI / 2 - d)) in *.
  intros a b pr Ha Hb. rewrite lor_int by lra.
  assert (M : forall x y, x <= y -> lcdf x <= lcdf y) by (intros x y [LT | ->]; [left; now apply lcdf_mono|right; reflexivity]).
  pose proof (M _ _ Ha). pose proof (M _ _ Hb). pose proof (lcdf_window w) as E. replace (2 * w / gamma) with (tan (PI / 2 - d)) in E by (unfold w; field; lra). rewrite atan_tan in E by lra.
  assert (2 / PI * (PI / 2 - d) = 1 - 2 * d / PI) as E2 by (field; lra). assert (2 * d / PI < eps) by (apply (Rmult_lt_reg_r PI); auto; unfold Rdiv; rewrite Rmult_assoc, Rinv_l by lra; nra). lra.
Qed.
End Lor.

Lemma lor_neg gamma z0 z : lorentzian (- gamma) z0 z = - lorentzian gamma z0 z.
Proof. unfold lorentzian, Rdiv. replace (/ 2 * - gamma * (/ 2 * - gamma)) with (/ 2 * gamma * (/ 2 * gamma)) by ring. ring. Qed.
Lemma plot_dos delta ed sigma0 x : script_plot delta ed sigma0 (rcx 0) (rcx x) = script_dos delta ed sigma0 x.
Proof.
  unfold script_plot, script_gf, script_dos, lorentzian.
  replace (cxadd (cxsub (cxsub (cxsub (rcx x) (rcx ed)) (rcx 0)) (rcx sigma0)) (0, delta)) with ((x - (ed + sigma0), delta) : cx) by (apply cx_eq; cbn; ring).
  cbv [cxinv cxn2 re im fst snd]. replace (/ 2 * (2 * delta)) with delta by field. unfold Rdiv. ring.
Qed.
