(** Proofs about Sigma.integrate (cotnl.py:262-270). *)
From Coq Require Import Reals List Arith NArith ZArith Bool Lia Lra Psatz.
From Verif Require Import Base RBase RLin OperatorsSpec FockSpec SectorModel LocalModel MatvecModel EspaceModel ProjModel ProjSpec
  GfModel GfSpec RateModel RateSpec RateProofs TransModel TransSpec CotModel TnlModel TnlSpec TnlProofs CnlSpec CnlProofs CnlRateProofs.
Import ListNotations.
Local Open Scope R_scope.

Lemma nFx_pos x : 0 < nFx x.
Proof. unfold nFx. pose proof (exp_pos x). apply Rdiv_lt_0_compat; lra. Qed.
Lemma nFx_lt1 x : nFx x < 1.
Proof. unfold nFx. pose proof (exp_pos x). apply (Rmult_lt_reg_r (exp x + 1)); [lra|]. unfold Rdiv. rewrite Rmult_assoc, Rinv_l by lra. lra. Qed.
Lemma nFx_half x : x <= 0 -> 1 / 2 <= nFx x.
Proof.
  intros H. unfold nFx. assert (exp x <= 1). { rewrite <- exp_0. destruct (Rle_lt_or_eq_dec _ _ H) as [L| ->]; [left; now apply exp_increasing|lra]. }
  pose proof (exp_pos x). apply Rmult_le_compat_l; [lra|]. apply Rinv_le_contravar; lra.
Qed.
Lemma nFx_exp x : nFx x <= exp (- x).
Proof. unfold nFx. rewrite exp_Ropp. pose proof (exp_pos x). unfold Rdiv. rewrite Rmult_1_l. apply Rinv_le_contravar; lra. Qed.
Theorem window_code_below beta me mi e : 0 < beta -> e <= me -> 1 / 2 <= window_code beta me mi e.
Proof. intros HB H. unfold window_code. apply nFx_half. pose proof (nFx_pos (- beta * (e - mi))). assert (beta * (e - me) <= 0) by nra. nra. Qed.
Theorem window_below beta me mi e : 0 < window beta me mi e <= exp (- beta * (mi - me)).
Proof.
  unfold window, fermi_of. change (1 / (exp (beta * (e - me)) + 1)) with (nFx (beta * (e - me))). change (1 / (exp (- beta * (e - mi)) + 1)) with (nFx (- beta * (e - mi))). pose proof (nFx_pos (beta * (e - me))) as P. pose proof (nFx_pos (- beta * (e - mi))) as Q. split; [nra|].
  replace (- beta * (mi - me)) with (- (beta * (e - me)) + - (- beta * (e - mi))) by ring. rewrite exp_plus.
  pose proof (nFx_exp (beta * (e - me))). pose proof (nFx_exp (- beta * (e - mi))). apply Rmult_le_compat; lra.
Qed.
Lemma window_code_pos beta me mi e : 0 < window_code beta me mi e.
Proof. apply nFx_pos. Qed.
Lemma linspace_nth lo hi m k : (k < m)%nat -> nth k (linspace lo hi m) 0 = lo + INR k * ((hi - lo) / INR (m - 1)).
Proof.
  intros H. unfold linspace. rewrite (nth_indep _ 0 (lo + INR 0 * ((hi - lo) / INR (m - 1)))) by now rewrite map_length, seq_length.
  rewrite (map_nth (fun k => lo + INR k * ((hi - lo) / INR (m - 1)))). now rewrite seq_nth.
Qed.
Lemma linspace_length lo hi m : length (linspace lo hi m) = m.
Proof. unfold linspace. now rewrite map_length, seq_length. Qed.
Lemma linspace_step lo hi m k : (S k < m)%nat -> nth (S k) (linspace lo hi m) 0 - nth k (linspace lo hi m) 0 = (hi - lo) / INR (m - 1).
Proof. intros H. rewrite !linspace_nth by lia. rewrite S_INR. ring. Qed.
Lemma rsum_split_le a b f c : (a <= b)%nat -> (forall k, (k < b)%nat -> 0 <= f k) -> (forall k, (k < a)%nat -> c <= f k) -> INR a * c <= rsum b f.
Proof.
  intros H P L. induction b as [|b IH].
  - assert (a = 0)%nat by lia. subst. unfold rsum. cbn. lra.
  - destruct (Nat.eq_dec a (S b)) as [->|N].
    + rewrite <- rsum_const. now apply rsum_le.
    + rewrite rsum_S. specialize (IH ltac:(lia) ltac:(intros; apply P; lia)). specialize (P b ltac:(lia)). lra.
Qed.
Lemma rsum_const_le b f c : (forall k, (k < b)%nat -> f k <= c) -> rsum b f <= INR b * c.
Proof. intros H. rewrite <- rsum_const. now apply rsum_le. Qed.
Lemma trapz_linspace g lo hi m : (1 < m)%nat -> trapz (map g (linspace lo hi m)) (linspace lo hi m) =
  rsum (m - 1) (fun k => (hi - lo) / INR (m - 1) * (g (nth (S k) (linspace lo hi m) 0) + g (nth k (linspace lo hi m) 0)) / 2).
Proof.
  intros Hm. unfold trapz. rewrite linspace_length. apply rsum_ext. intros k Hk. rewrite linspace_step by lia.
  rewrite !(nth_indep (map g _) 0 (g 0)) by (rewrite map_length, linspace_length; lia). now rewrite !map_nth.
Qed.
Lemma mapM_vals {A B} (f : A -> res B) (g : A -> B) l : (forall x, In x l -> f x = Ok (g x)) -> mapM f l = Ok (map g l).
Proof. induction l as [|a l IH]; intros H; [reflexivity|]. cbn [mapM map]. rewrite H by now left. cbn [bind]. rewrite IH by (intros; apply H; now right). reflexivity. Qed.

(** [trapz] of call times a weight on the grid *)
Definition grid (beta me mi : R) : list R := linspace (Rmin me mi - 4 / beta) (Rmax me mi + 4 / beta) 200.
Definition spacing (beta me mi : R) : R := (Rmax me mi - Rmin me mi + 8 / beta) / 199.
Lemma spacing_eq beta me mi : 0 < beta -> (Rmax me mi + 4 / beta - (Rmin me mi - 4 / beta)) / INR 199 = spacing beta me mi.
Proof. intros. unfold spacing. replace (INR 199) with 199 by (rewrite INR_IZR_INZ; reflexivity). field. lra. Qed.
Lemma spacing_pos beta me mi : 0 < beta -> 0 < spacing beta me mi.
Proof. intros HB. unfold spacing. pose proof (Rmin_l me mi). pose proof (Rmax_l me mi). assert (0 < 8 / beta) by (apply Rdiv_lt_0_compat; lra). lra. Qed.
Theorem nintegrate_lower s A ext inj beta mu m_e mi c m x : 0 < beta -> nth_error mu ext = Some m_e -> nth_error mu inj = Some mi -> 0 <= c ->
  (forall e, In e (grid beta (m_e - n_dE s) mi) -> exists v, nsigma_call s e A ext inj = Ok v /\ 0 <= v /\ (e <= m_e - n_dE s -> c <= v)) ->
  m_e - n_dE s <= mi -> (m <= 199)%nat -> INR m * spacing beta (m_e - n_dE s) mi <= 4 / beta ->
  nintegrate s A ext inj beta mu = Ok x -> INR m * spacing beta (m_e - n_dE s) mi * c / 2 <= x.
Proof.
  intros HB Ee Ei Hc HV LE Hm HW E. unfold nintegrate, lead in E. rewrite Ee, Ei in E. cbn [bind] in E. set (me := m_e - n_dE s) in *. fold (grid beta me mi) in E.
  set (g := fun e => match nsigma_call s e A ext inj with Ok v => v * window_code beta me mi e | Err _ => 0 end).
  rewrite (mapM_vals _ g) in E by (intros e He; destruct (HV e He) as (v & Ev & _); unfold g; rewrite Ev; reflexivity). cbn [bind] in E.
  assert (EX : trapz (map g (grid beta me mi)) (grid beta me mi) = x) by congruence. clear E. rewrite <- EX. clear EX. unfold grid at 1 2. rewrite trapz_linspace by lia. change (200 - 1)%nat with 199%nat. rewrite spacing_eq by exact HB. fold (grid beta me mi).
  pose proof (spacing_pos beta me mi HB) as HP.
  assert (GI : forall k, (k < 200)%nat -> In (nth k (grid beta me mi) 0) (grid beta me mi)) by (intros k Hk; apply nth_In; unfold grid; rewrite linspace_length; exact Hk).
  assert (GN : forall k, (k < 200)%nat -> 0 <= g (nth k (grid beta me mi) 0)).
  { intros k Hk. destruct (HV _ (GI k Hk)) as (v & Ev & V0 & _). unfold g. rewrite Ev. pose proof (window_code_pos beta me mi (nth k (grid beta me mi) 0)). nra. }
  assert (GL : forall k, (k <= m)%nat -> c / 2 <= g (nth k (grid beta me mi) 0)).
  { intros k Hk. destruct (HV _ (GI k ltac:(lia))) as (v & Ev & V0 & VC). unfold g. rewrite Ev.
    assert (BE : nth k (grid beta me mi) 0 <= me).
    { unfold grid. rewrite linspace_nth by lia. change (200 - 1)%nat with 199%nat. rewrite spacing_eq by exact HB. rewrite Rmin_left by exact LE.
      assert (INR k <= INR m) by (apply le_INR; exact Hk). assert (INR k * spacing beta me mi <= INR m * spacing beta me mi) by (apply Rmult_le_compat_r; lra). lra. }
    pose proof (window_code_below beta me mi _ HB BE). specialize (VC BE). nra. }
  replace (INR m * spacing beta me mi * c / 2) with (INR m * (spacing beta me mi * (c / 2))) by field. apply rsum_split_le; [lia| |].
  - intros k Hk. pose proof (GN k ltac:(lia)). pose proof (GN (S k) ltac:(lia)). assert (0 <= spacing beta me mi * (g (nth (S k) (grid beta me mi) 0%R) + g (nth k (grid beta me mi) 0%R))) by (apply Rmult_le_pos; lra). lra.
  - intros k Hk. pose proof (GL k ltac:(lia)). pose proof (GL (S k) ltac:(lia)).
    assert (spacing beta me mi * c <= spacing beta me mi * (g (nth (S k) (grid beta me mi) 0%R) + g (nth k (grid beta me mi) 0%R))) by (apply Rmult_le_compat_l; lra). lra.
Qed.
(** The same sum with the product of both occupations. *)
Theorem product_upper beta me mi v c : 0 < beta -> (forall e, In e (grid beta me mi) -> 0 <= v e <= c) ->
  trapz (map (fun e => v e * window beta me mi e) (grid beta me mi)) (grid beta me mi) <= (Rmax me mi - Rmin me mi + 8 / beta) * c * exp (- beta * (mi - me)).
Proof.
  intros HB HV. unfold grid at 1 2. rewrite (trapz_linspace (fun e => v e * window beta me mi e)) by lia. change (200 - 1)%nat with 199%nat. rewrite spacing_eq by exact HB. fold (grid beta me mi).
  pose proof (spacing_pos beta me mi HB) as HP. set (w := exp (- beta * (mi - me))).
  assert (GI : forall k, (k < 200)%nat -> In (nth k (grid beta me mi) 0) (grid beta me mi)) by (intros k Hk; apply nth_In; unfold grid; rewrite linspace_length; exact Hk).
  replace ((Rmax me mi - Rmin me mi + 8 / beta) * c * w) with (INR 199 * (spacing beta me mi * (c * w))) by (unfold spacing; replace (INR 199) with 199 by (rewrite INR_IZR_INZ; reflexivity); field; lra).
  apply rsum_const_le. intros k Hk. cbv beta.
  assert (B : forall j, (j < 200)%nat -> v (nth j (grid beta me mi) 0) * window beta me mi (nth j (grid beta me mi) 0) <= c * w).
  { intros j Hj. destruct (HV _ (GI j Hj)). destruct (window_below beta me mi (nth j (grid beta me mi) 0)). fold w in H2. apply Rmult_le_compat; lra. }
  pose proof (B k ltac:(lia)). pose proof (B (S k) ltac:(lia)).
  match goal with |- ?s * (?a + ?b) / 2 <= _ => assert (s * (a + b) <= s * (2 * (c * w))) by (apply Rmult_le_compat_l; lra) end. lra.
Qed.
