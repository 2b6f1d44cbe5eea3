(** Entropy of a list of levels: temperature dependence and limits. *)
From Coq Require Import Reals List Arith NArith ZArith Bool Lia Lra Psatz Permutation.
From Verif Require Import Base RBase RLin DedModel DedSpec DedMoreProofs EntSpec.
Import ListNotations.
Local Open Scope R_scope.

Lemma ln_le_sub x : 0 < x -> ln x <= x - 1.
Proof.
  intros Hx. rewrite <- (ln_exp (x - 1)). destruct (Req_dec x 1) as [->|N]; [rewrite Rminus_diag_eq, ln_exp, ln_1 by reflexivity; lra|].
  left. apply ln_increasing; auto. pose proof (exp_ineq1 (x - 1) ltac:(lra)). lra.
Qed.
Lemma exp_ge_add x : 1 + x <= exp x.
Proof. destruct (Req_dec x 0) as [->|N]; [rewrite exp_0; lra|]. pose proof (exp_ineq1 x N). lra. Qed.
Lemma exp_le x y : x <= y -> exp x <= exp y.
Proof. intros [H|H]; [left; now apply exp_increasing|right; now rewrite H]. Qed.
Lemma below_half_exp y : 0 <= y -> y <= exp (y / 2).
Proof.
  intros Hy. replace (y / 2) with (y / 4 + y / 4) by lra. rewrite exp_plus. pose proof (exp_ge_add (y / 4)) as A.
  assert (B : (1 + y / 4) * (1 + y / 4) <= exp (y / 4) * exp (y / 4)) by (apply Rmult_le_compat; lra).
  pose proof (Rle_0_sqr (1 - y / 4)) as C. unfold Rsqr in C. set (p := exp (y / 4) * exp (y / 4)) in *. lra.
Qed.

Section Levels.
Variables (M : nat) (E : nat -> R).
Hypothesis HM : (0 < M)%nat.
Notation Z b := (rsum M (fun j => exp (- b * E j))).
Notation g b := (gibbs b M E).
Definition mean b := rsum M (fun i => g b i * E i).
Definition ent b := shannon M (g b).

Lemma Zpos b : 0 < Z b.
Proof. destruct M as [|m]; [lia|]. rewrite rsum_S_l. pose proof (exp_pos (- b * E 0%nat)). assert (0 <= rsum m (fun i => exp (- b * E (S i)))) by (apply rsum_nonneg; intros; left; apply exp_pos). lra. Qed.
Lemma gpos b i : 0 < g b i.
Proof. unfold gibbs. apply Rmult_lt_0_compat; [apply exp_pos|apply Rinv_0_lt_compat, Zpos]. Qed.
Lemma gsum b : rsum M (g b) = 1.
Proof. unfold gibbs, Rdiv. rewrite rsum_scal_r. apply Rinv_r. pose proof (Zpos b). lra. Qed.
Lemma gln b i : ln (g b i) = - b * E i - ln (Z b).
Proof. unfold gibbs, Rdiv. rewrite ln_mult by (apply exp_pos || apply Rinv_0_lt_compat, Zpos). rewrite ln_exp, ln_Rinv by apply Zpos. ring. Qed.
Lemma cross b c : - rsum M (fun i => g b i * ln (g c i)) = ln (Z c) + c * mean b.
Proof.
  rewrite (rsum_ext M _ (fun i => (- c) * (g b i * E i) + (- ln (Z c)) * g b i)) by (intros; rewrite gln; ring).
  rewrite rsum_add, !rsum_scal_l, gsum. unfold mean. ring.
Qed.
Lemma ent_form b : ent b = ln (Z b) + b * mean b.
Proof. apply cross. Qed.
Lemma gibbs_ineq b c : ent b <= ln (Z c) + c * mean b.
Proof.
  rewrite <- cross. unfold ent, shannon. apply Ropp_le_contravar.
  assert (Q : rsum M (fun i => g b i * ln (g c i) - g b i * ln (g b i)) <= rsum M (fun i => g c i - g b i)).
  { apply rsum_le. intros i _. pose proof (gpos b i) as P. pose proof (gpos c i) as P'. assert (P2 : 0 < g c i * / g b i) by (apply Rmult_lt_0_compat; auto; now apply Rinv_0_lt_compat).
    pose proof (ln_le_sub _ P2) as L. rewrite ln_mult, ln_Rinv in L by (auto; now apply Rinv_0_lt_compat).
    replace (g b i * ln (g c i) - g b i * ln (g b i)) with (g b i * (ln (g c i) + - ln (g b i))) by ring.
    replace (g c i - g b i) with (g b i * (g c i * / g b i - 1)) by (field; lra). apply Rmult_le_compat_l; lra. }
  rewrite !rsum_sub, !gsum in Q. lra.
Qed.
Lemma exchange_ineq b c : ent b <= ent c + c * (mean b - mean c).
Proof. pose proof (gibbs_ineq b c). rewrite (ent_form c). lra. Qed.
Lemma mean_mono b c : b <= c -> mean c <= mean b.
Proof. intros [H| ->]; [|lra]. pose proof (exchange_ineq b c). pose proof (exchange_ineq c b). nra. Qed.
Lemma ent_mono b c : 0 <= b -> b <= c -> ent c <= ent b.
Proof. intros Hb H. pose proof (mean_mono b c H). pose proof (exchange_ineq c b). nra. Qed.
Lemma ent_zero : ent 0 = ln (INR M).
Proof. rewrite ent_form, Rmult_0_l, Rplus_0_r. f_equal. rewrite (rsum_ext M _ (fun _ => 1)), rsum_const; [ring|]. intros i _. rewrite Ropp_0, Rmult_0_l. apply exp_0. Qed.
Lemma mean_range b lo hi : (forall i, (i < M)%nat -> lo <= E i <= hi) -> lo <= mean b <= hi.
Proof.
  intros H. split.
  - rewrite <- (Rmult_1_l lo), <- (gsum b), <- rsum_scal_r. apply rsum_le. intros i Hi. apply Rmult_le_compat_l; [left; apply gpos|now apply H].
  - rewrite <- (Rmult_1_l hi), <- (gsum b), <- rsum_scal_r. apply rsum_le. intros i Hi. apply Rmult_le_compat_l; [left; apply gpos|now apply H].
Qed.
Lemma ent_hot b lo hi : 0 <= b -> (forall i, (i < M)%nat -> lo <= E i <= hi) -> ln (INR M) - b * (hi - lo) <= ent b <= ln (INR M).
Proof.
  intros Hb H. split.
  - pose proof (exchange_ineq 0 b) as Q. rewrite ent_zero in Q. pose proof (mean_range 0 lo hi H). pose proof (mean_range b lo hi H). nra.
  - rewrite <- ent_zero. now apply ent_mono; [lra|].
Qed.
(** The lowest level [g0]-fold, the others at least [gap] above it. *)
Definition at_min (lo : R) : R := rsum M (fun i => if Req_EM_T (E i) lo then 1 else 0).
Lemma ent_cold b lo gap : 0 <= b -> 0 <= gap -> (exists i, (i < M)%nat /\ E i = lo) -> (forall i, (i < M)%nat -> E i <> lo -> lo + gap <= E i) ->
  ln (at_min lo) <= ent b <= ln (at_min lo) + 2 * (INR M - at_min lo) / at_min lo * exp (- b * gap / 2).
Proof.
  intros Hb Hg (k & Hk & Ek) G. set (x i := E i - lo). set (X i := if Req_EM_T (E i) lo then 0 else exp (- b * x i)).
  set (a := at_min lo). assert (A1 : 1 <= a).
  { unfold a, at_min. eapply Rle_trans; [|apply (rsum_term_le M _ k); [intros i _; destruct (Req_EM_T (E i) lo); lra|exact Hk]]. cbv beta. destruct (Req_EM_T (E k) lo); [lra|congruence]. }
  assert (ZX : Z b * exp (b * lo) = a + rsum M X).
  { unfold a, at_min. rewrite <- rsum_scal_r, <- rsum_add. apply rsum_ext. intros i _. unfold X, x. rewrite <- exp_plus. destruct (Req_EM_T (E i) lo) as [->|]; [replace (- b * lo + b * lo) with 0 by ring; rewrite exp_0; ring|rewrite Rplus_0_l; f_equal; ring]. }
  set (Y := rsum M X) in *. assert (Y0 : 0 <= Y) by (apply rsum_nonneg; intros i _; unfold X; destruct (Req_EM_T _ _); [lra|left; apply exp_pos]).
  assert (F : ent b = ln (a + Y) + b * (mean b - lo)).
  { rewrite ent_form, <- ZX, ln_mult by (apply Zpos || apply exp_pos). rewrite ln_exp. ring. }
  assert (GX : forall i, g b i = exp (- b * x i) * / (a + Y)).
  { intros i. rewrite <- ZX. unfold gibbs, x. pose proof (Zpos b). pose proof (exp_pos (b * lo)). replace (- b * (E i - lo)) with (- b * E i + b * lo) by ring. rewrite exp_plus. field. split; lra. }
  assert (MX : mean b - lo = rsum M (fun i => x i * X i) * / (a + Y)).
  { unfold mean. rewrite <- (Rmult_1_l lo) at 1. rewrite <- (gsum b) at 1. rewrite <- rsum_scal_r, <- rsum_sub, <- rsum_scal_r. apply rsum_ext. intros i _. rewrite GX. unfold X. destruct (Req_EM_T (E i) lo) as [e|]; unfold x; [rewrite e|]; ring. }
  set (q := exp (- b * gap / 2)). assert (Q0 : 0 < q) by apply exp_pos.
  assert (Q1 : q <= 1) by (unfold q; rewrite <- exp_0; apply exp_le; nra).
  assert (XB : forall i, (i < M)%nat -> 0 <= X i <= (1 - if Req_EM_T (E i) lo then 1 else 0) * q /\ 0 <= b * (x i * X i) <= (1 - if Req_EM_T (E i) lo then 1 else 0) * q).
  { intros i Hi. unfold X. destruct (Req_EM_T (E i) lo) as [|N]; [lra|]. pose proof (G i Hi N) as GI. assert (XG : gap <= x i) by (unfold x; lra).
    assert (BX : b * gap <= b * x i) by (apply Rmult_le_compat_l; lra). assert (B0 : 0 <= b * gap) by nra. pose proof (exp_pos (- b * x i)) as EP.
    assert (H2 : exp (- b * x i) = exp (- (b * x i) / 2) * exp (- (b * x i) / 2)) by (rewrite <- exp_plus; f_equal; lra).
    assert (H3 : exp (- (b * x i) / 2) <= q) by (unfold q; apply exp_le; lra). pose proof (exp_pos (- (b * x i) / 2)) as H4.
    split; [split; [lra|]; rewrite H2; nra|]. split; [replace (b * (x i * exp (- b * x i))) with ((b * x i) * exp (- b * x i)) by ring; nra|].
    pose proof (below_half_exp (b * x i) ltac:(lra)) as H5. assert (H6 : exp (b * x i / 2) * exp (- (b * x i) / 2) = 1) by (rewrite <- exp_plus; replace (b * x i / 2 + - (b * x i) / 2) with 0 by lra; apply exp_0).
    replace (b * (x i * exp (- b * x i))) with ((b * x i) * exp (- b * x i)) by ring. rewrite H2.
    apply Rle_trans with (exp (b * x i / 2) * (exp (- (b * x i) / 2) * exp (- (b * x i) / 2))); [apply Rmult_le_compat_r; nra|]. rewrite <- Rmult_assoc, H6. lra. }
  assert (CNT : rsum M (fun i => (1 - if Req_EM_T (E i) lo then 1 else 0) * q) = (INR M - a) * q).
  { rewrite rsum_scal_r, rsum_sub, rsum_const. unfold a, at_min. ring. }
  assert (YB : Y <= (INR M - a) * q) by (rewrite <- CNT; apply rsum_le; intros i Hi; apply XB; auto).
  assert (TB : b * rsum M (fun i => x i * X i) <= (INR M - a) * q) by (rewrite <- CNT, <- rsum_scal_l; apply rsum_le; intros i Hi; apply XB; auto).
  assert (T0 : 0 <= b * rsum M (fun i => x i * X i)) by (rewrite <- rsum_scal_l; apply rsum_nonneg; intros i Hi; apply XB; auto).
  set (T := b * rsum M (fun i => x i * X i)) in *. assert (ET : ent b = ln (a + Y) + T * / (a + Y)) by (rewrite F, MX; unfold T; ring).
  assert (IP : 0 < / (a + Y) <= / a) by (split; [apply Rinv_0_lt_compat; lra|apply Rinv_le_contravar; lra]).
  rewrite ET. split.
  - assert (L : ln a <= ln (a + Y)) by (destruct (Rle_lt_or_eq_dec _ _ Y0) as [P|P]; [left; apply ln_increasing; lra|rewrite <- P, Rplus_0_r; lra]). nra.
  - assert (L : ln (a + Y) <= ln a + Y * / a).
    { replace (a + Y) with (a * (1 + Y * / a)) by (field; lra). assert (0 <= Y * / a) by (apply Rmult_le_pos; [lra|left; apply Rinv_0_lt_compat; lra]). rewrite ln_mult by lra. pose proof (ln_le_sub (1 + Y * / a) ltac:(lra)). lra. }
    replace (2 * (INR M - a) / a * q) with ((INR M - a) * q * / a + (INR M - a) * q * / a) by (field; lra).
    assert (Y * / a <= (INR M - a) * q * / a) by (apply Rmult_le_compat_r; lra).
    assert (T * / (a + Y) <= (INR M - a) * q * / a) by (apply Rmult_le_compat; lra). lra.
Qed.
End Levels.

Lemma count_at_min l lo : at_min (length l) (fun i => nth i l 0) lo = INR (count_occ Req_EM_T l lo).
Proof.
  unfold at_min. induction l as [|x l IH]; [reflexivity|]. cbn [length count_occ]. rewrite rsum_S_l. cbn [nth]. rewrite IH. destruct (Req_EM_T x lo); [rewrite S_INR; ring|ring].
Qed.
