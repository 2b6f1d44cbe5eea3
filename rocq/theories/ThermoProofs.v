(** Stationary currents of a rate equation with two leads. *)
From Coq Require Import Reals List Arith Lia Lra Psatz.
From Verif Require Import Base RBase RLin RateModel RateSpec.
Local Open Scope R_scope.

Section Thermo.
Variables (sz : nat) (G : nat -> mat) (W : mat) (Nn : nat -> R) (p : nat -> R).
Hypothesis CO : conserves sz W.
Hypothesis OFF : forall f i, (f < sz)%nat -> (i < sz)%nat -> f <> i -> W f i = G 0%nat f i + G 1%nat f i.
Hypothesis ST : stationary sz W p.
(** Electrons entering from lead [l]. *)
Definition inflow (l : nat) : R := rsum sz (fun f => rsum sz (fun i => (Nn f - Nn i) * G l f i * p i)).

Lemma transport_zero (phi : nat -> R) : rsum sz (fun f => rsum sz (fun i => (phi f - phi i) * W f i * p i)) = 0.
Proof.
  rewrite (rsum_ext _ _ (fun f => phi f * rsum sz (fun i => W f i * p i) - rsum sz (fun i => phi i * p i * W f i))).
  - rewrite rsum_sub. rewrite (rsum_swap sz sz (fun f i => phi i * p i * W f i)).
    rewrite (rsum_ext _ _ (fun _ => 0)) by (intros f Hf; rewrite (ST f Hf); ring). rewrite (rsum_ext sz (fun i => rsum sz (fun f => _)) (fun _ => 0)); [rewrite rsum_0 by auto; ring|].
    intros i Hi. rewrite rsum_scal_l, (CO i Hi). ring.
  - intros f Hf. rewrite <- rsum_scal_l, <- rsum_sub. apply rsum_ext. intros i _. ring.
Qed.
Lemma split_leads (phi : nat -> R) : rsum sz (fun f => rsum sz (fun i => (phi f - phi i) * G 0%nat f i * p i)) + rsum sz (fun f => rsum sz (fun i => (phi f - phi i) * G 1%nat f i * p i)) = 0.
Proof.
  rewrite <- (transport_zero phi), <- rsum_add. apply rsum_ext. intros f Hf. rewrite <- rsum_add. apply rsum_ext. intros i Hi.
  destruct (Nat.eq_dec f i) as [->|NE]; [ring|]. rewrite (OFF f i Hf Hi NE). ring.
Qed.
Theorem kirchhoff : inflow 0 + inflow 1 = 0.
Proof. exact (split_leads Nn). Qed.

Variables (En : nat -> R) (mu : nat -> R) (beta : R).
Hypothesis BP : 0 < beta.
Hypothesis POS : forall l f i, (l < 2)%nat -> (f < sz)%nat -> (i < sz)%nat -> f <> i -> 0 <= G l f i.
Hypothesis LDB : forall l f i, (l < 2)%nat -> (f < sz)%nat -> (i < sz)%nat -> f <> i ->
  G l f i * exp (- beta * (En i - mu l * Nn i)) = G l i f * exp (- beta * (En f - mu l * Nn f)).
Hypothesis NN : forall i, (i < sz)%nat -> 0 <= p i.

Lemma dead_state i f : (i < sz)%nat -> (f < sz)%nat -> i <> f -> p i = 0 -> 0 < p f -> W i f = 0.
Proof.
  intros Hi Hf NE Z P. pose proof (ST i Hi) as S.
  assert (T : forall j, (j < sz)%nat -> 0 <= W i j * p j).
  { intros j Hj. destruct (Nat.eq_dec j i) as [->|N]; [rewrite Z; lra|]. apply Rmult_le_pos; [|auto]. rewrite OFF by auto.
    pose proof (POS 0 i j ltac:(lia) Hi Hj ltac:(auto)). pose proof (POS 1 i j ltac:(lia) Hi Hj ltac:(auto)). lra. }
  pose proof (rsum_term_le sz (fun j => W i j * p j) f T Hf) as Q. cbn beta in Q. rewrite S in Q. pose proof (T f Hf).
  assert (W i f * p f = 0) by lra. apply Rmult_integral in H0. lra.
Qed.
Lemma ln_mono x y : 0 < x -> 0 < y -> 0 <= (x - y) * (ln x - ln y).
Proof.
  intros Hx Hy. destruct (Rtotal_order x y) as [L|[->|L]]; [|lra|].
  - pose proof (ln_increasing _ _ Hx L). nra.
  - pose proof (ln_increasing _ _ Hy L). nra.
Qed.
Definition lnp (i : nat) : R := if Rlt_dec 0 (p i) then ln (p i) else 0.
Definition phi (i : nat) : R := beta * En i + lnp i.
Lemma dissipation l f i : (l < 2)%nat -> (f < sz)%nat -> (i < sz)%nat ->
  0 <= (G l f i * p i - G l i f * p f) * (phi i - phi f + beta * mu l * (Nn f - Nn i)).
Proof.
  intros Hl Hf Hi. destruct (Nat.eq_dec f i) as [->|NE]; [right; ring|].
  assert (ZERO : forall f i, (f < sz)%nat -> (i < sz)%nat -> f <> i -> p i = 0 -> 0 < p f -> G l f i = 0 /\ G l i f = 0).
  { clear f i Hf Hi NE. intros f i Hf Hi NE Z P. pose proof (dead_state i f Hi Hf ltac:(auto) Z P) as Q. rewrite OFF in Q by auto.
    pose proof (POS 0 i f ltac:(lia) Hi Hf ltac:(auto)). pose proof (POS 1 i f ltac:(lia) Hi Hf ltac:(auto)).
    assert (Z0 : G l i f = 0) by (destruct l as [|[|?]]; [lra|lra|lia]). split; [|exact Z0].
    pose proof (LDB l f i Hl Hf Hi NE) as D. rewrite Z0, Rmult_0_l in D. apply Rmult_integral in D. destruct D as [D|D]; auto. pose proof (exp_pos (- beta * (En i - mu l * Nn i))). lra. }
  destruct (Rle_lt_or_eq_dec _ _ (NN i Hi)) as [Pi|Zi], (Rle_lt_or_eq_dec _ _ (NN f Hf)) as [Pf|Zf].
  - pose proof (LDB l f i Hl Hf Hi NE) as D. pose proof (POS l f i Hl Hf Hi NE) as P.
    set (ei := exp (- beta * (En i - mu l * Nn i))) in *. set (ef := exp (- beta * (En f - mu l * Nn f))) in *.
    assert (Ei : 0 < ei) by apply exp_pos. assert (Ef : 0 < ef) by apply exp_pos.
    assert (L : phi i - phi f + beta * mu l * (Nn f - Nn i) = ln (p i / ei) - ln (p f / ef)).
    { unfold phi, lnp. destruct (Rlt_dec 0 (p i)); [|lra]. destruct (Rlt_dec 0 (p f)); [|lra]. unfold Rdiv. rewrite !ln_mult by (auto; now apply Rinv_0_lt_compat). rewrite !ln_Rinv by auto. unfold ei, ef. rewrite !ln_exp. ring. }
    assert (J : G l f i * p i - G l i f * p f = (G l f i * ei) * (p i / ei - p f / ef)).
    { rewrite Rmult_minus_distr_l. rewrite D at 2. field. lra. }
    rewrite L, J, Rmult_assoc. apply Rmult_le_pos; [nra|]. apply ln_mono; apply Rdiv_lt_0_compat; auto.
  - destruct (ZERO i f Hi Hf ltac:(auto) ltac:(auto) Pi) as [-> ->]. right. ring.
  - destruct (ZERO f i Hf Hi NE ltac:(auto) Pf) as [-> ->]. right. ring.
  - rewrite <- Zi, <- Zf. right. ring.
Qed.
Lemma double l (h : nat -> R) : rsum sz (fun f => rsum sz (fun i => (G l f i * p i - G l i f * p f) * (h f - h i))) = 2 * rsum sz (fun f => rsum sz (fun i => (h f - h i) * G l f i * p i)).
Proof.
  transitivity (rsum sz (fun f => rsum sz (fun i => (h f - h i) * G l f i * p i)) + rsum sz (fun f => rsum sz (fun i => (h i - h f) * G l i f * p f))).
  - rewrite <- rsum_add. apply rsum_ext. intros f _. rewrite <- rsum_add. apply rsum_ext. intros i _. ring.
  - rewrite (rsum_swap sz sz (fun f i => (h i - h f) * G l i f * p f)). ring.
Qed.
Theorem second_law : 0 <= (mu 0%nat - mu 1%nat) * inflow 0.
Proof.
  assert (D : forall l, (l < 2)%nat -> 0 <= 2 * beta * mu l * inflow l - 2 * rsum sz (fun f => rsum sz (fun i => (phi f - phi i) * G l f i * p i))).
  { intros l Hl. unfold inflow. replace (2 * beta * mu l * rsum sz (fun f => rsum sz (fun i => (Nn f - Nn i) * G l f i * p i))) with (beta * mu l * (2 * rsum sz (fun f => rsum sz (fun i => (Nn f - Nn i) * G l f i * p i)))) by ring.
    rewrite <- !double. rewrite <- rsum_scal_l, <- rsum_sub. apply rsum_nonneg. intros f Hf. rewrite <- rsum_scal_l, <- rsum_sub. apply rsum_nonneg. intros i Hi.
    pose proof (dissipation l f i Hl Hf Hi). nra. }
  pose proof (D 0%nat ltac:(lia)) as D0. pose proof (D 1%nat ltac:(lia)) as D1. pose proof (split_leads phi) as Z. pose proof kirchhoff as K.
  assert (Q : 0 <= 2 * beta * ((mu 0%nat - mu 1%nat) * inflow 0)) by (replace (inflow 1) with (- inflow 0) in D1 by lra; nra).
  apply (Rmult_le_reg_l (2 * beta)); lra.
Qed.
End Thermo.
