(** Lambert's continued fraction of tanh: even convergents are below tanh, with an
    explicit error bound. *)
From Coq Require Import Reals List Arith Lia Lra Psatz.
From Verif Require Import Base RBase RLin FermiSpec.
Local Open Scope R_scope.

Fixpoint G (j : nat) (t : R) : R :=
  match j with
  | O => sinh t
  | S O => t * cosh t - sinh t
  | S (S j as j') => t * t * G j t - (2 * INR j + 3) * G j' t
  end.
Lemma G_SS j t : G (S (S j)) t = t * t * G j t - (2 * INR j + 3) * G (S j) t.
Proof. reflexivity. Qed.
Lemma G_0 j : G j 0 = 0.
Proof.
  enough (H : G j 0 = 0 /\ G (S j) 0 = 0) by apply H. induction j as [|j [IH1 IH2]].
  - cbn [G]. rewrite sinh_0. split; ring.
  - split; [exact IH2|]. rewrite G_SS, IH1, IH2. ring.
Qed.
Lemma dG0 t : derivable_pt_lim (G 0) t (cosh t).
Proof. apply derivable_pt_lim_sinh. Qed.
Lemma dG j t : derivable_pt_lim (G (S j)) t (t * G j t).
Proof.
  enough (H : derivable_pt_lim (G (S j)) t (t * G j t) /\ derivable_pt_lim (G (S (S j))) t (t * G (S j) t)) by apply H.
  assert (D1 : derivable_pt_lim (G 1) t (t * G 0 t)).
  { change (derivable_pt_lim (id * cosh - sinh) t (t * sinh t)). replace (t * sinh t) with (1 * cosh t + id t * sinh t - cosh t) by (unfold id; ring).
    apply derivable_pt_lim_minus; [apply derivable_pt_lim_mult; [apply derivable_pt_lim_id|apply derivable_pt_lim_cosh]|apply derivable_pt_lim_sinh]. }
  assert (DS : forall j a, derivable_pt_lim (G j) t a -> derivable_pt_lim (G (S j)) t (t * G j t) -> t * a = G (S j) t + (2 * INR j + 1) * G j t -> derivable_pt_lim (G (S (S j))) t (t * G (S j) t)).
  { intros k a Da Db E. change (derivable_pt_lim (fun t => t * t * G k t - (2 * INR k + 3) * G (S k) t) t (t * G (S k) t)).
    replace (t * G (S k) t) with ((1 * t + t * 1) * G k t + t * t * a - (2 * INR k + 3) * (t * G k t)).
    - apply (derivable_pt_lim_minus (fun t => t * t * G k t) (fun t => (2 * INR k + 3) * G (S k) t)).
      + apply (derivable_pt_lim_mult (fun t => t * t) (G k)); [apply (derivable_pt_lim_mult id id); apply derivable_pt_lim_id|exact Da].
      + apply (derivable_pt_lim_scal (G (S k)) (2 * INR k + 3)). exact Db.
    - replace (t * t * a) with (t * (t * a)) by ring. rewrite E. ring. }
  induction j as [|j [IH1 IH2]].
  - split; [exact D1|]. apply (DS 0%nat (cosh t)); [apply dG0|exact D1|]. cbn [G INR]. ring.
  - split; [exact IH2|]. apply (DS (S j) (t * G j t)); [exact IH1|exact IH2|]. rewrite G_SS, S_INR. ring.
Qed.
Lemma mono_pos f f' : (forall t, derivable_pt_lim f t (f' t)) -> f 0 = 0 -> (forall t, 0 < t -> 0 < f' t) -> forall t, 0 < t -> 0 < f t.
Proof.
  intros D F0 P t Ht. assert (pr : forall c, 0 <= c <= t -> derivable_pt f c) by (intros c _; exists (f' c); apply D).
  destruct (MVT_cor2 f f' 0 t Ht) as (c & E & Hc); [intros; apply D|]. rewrite F0 in E. specialize (P c ltac:(lra)). nra.
Qed.
Lemma G_pos j t : 0 < t -> 0 < G j t.
Proof.
  revert t. induction j as [|j IH]; intros t Ht.
  - apply (mono_pos (G 0) cosh); auto; [apply dG0|apply G_0|]. intros s _. unfold cosh. pose proof (exp_pos s). pose proof (exp_pos (- s)). lra.
  - apply (mono_pos (G (S j)) (fun t => t * G j t)); auto; [intros; apply dG|apply G_0|]. intros s Hs. specialize (IH s Hs). nra.
Qed.
Lemma cosh_pos t : 0 < cosh t.
Proof. unfold cosh. pose proof (exp_pos t). pose proof (exp_pos (- t)). lra. Qed.

(** The infinite tails. *)
Definition tail (j : nat) (t : R) : R := match j with O => sinh t / (t * cosh t) | S j => G (S j) t / (t * t * G j t) end.
Lemma tail_pos j t : 0 < t -> 0 < tail j t.
Proof.
  intros Ht. destruct j as [|j]; cbn [tail]; apply Rdiv_lt_0_compat.
  - apply (G_pos 0 t Ht).
  - pose proof (cosh_pos t). nra.
  - now apply G_pos.
  - apply Rmult_lt_0_compat; [nra|]. now apply G_pos.
Qed.
Lemma tail_step j t : 0 < t -> tail j t = 1 / (2 * INR j + 1 + t * t * tail (S j) t).
Proof.
  intros Ht. pose proof (pos_INR j) as PJ. destruct j as [|j].
  - cbn [tail]. pose proof (G_pos 0 t Ht) as P0. cbn [G] in P0. pose proof (cosh_pos t). cbn [INR].
    replace (2 * 0 + 1 + t * t * (G 1 t / (t * t * G 0 t))) with (t * cosh t / sinh t) by (cbn [G]; field; lra). field. repeat split; lra.
  - change (tail (S (S j)) t) with (G (S (S j)) t / (t * t * G (S j) t)). change (tail (S j) t) with (G (S j) t / (t * t * G j t)). pose proof (G_pos j t Ht) as P0. pose proof (G_pos (S j) t Ht) as P1. rewrite G_SS, S_INR.
    replace (2 * (INR j + 1) + 1 + t * t * ((t * t * G j t - (2 * INR j + 3) * G (S j) t) / (t * t * G (S j) t))) with (t * t * G j t / G (S j) t) by (field; lra).
    field. repeat split; lra.
Qed.
Lemma tail_le j t : 0 < t -> tail j t <= 1 / (2 * INR j + 1).
Proof.
  intros Ht. rewrite tail_step by auto. pose proof (tail_pos (S j) t Ht). pose proof (pos_INR j). unfold Rdiv. rewrite !Rmult_1_l. apply Rinv_le_contravar; nra.
Qed.
Lemma lambert_nonneg m : forall j t, 0 <= lambert m j t.
Proof.
  induction m as [|m IH]; intros j t; cbn [lambert]; [lra|]. specialize (IH (S j) t). pose proof (pos_INR j). left. apply Rdiv_lt_0_compat; nra.
Qed.
Lemma lambert_pos m j t : 0 < lambert (S m) j t.
Proof. cbn [lambert]. pose proof (lambert_nonneg m (S j) t). pose proof (pos_INR j). apply Rdiv_lt_0_compat; nra. Qed.
Lemma lambert_le m j t : lambert m j t <= 1 / (2 * INR j + 1).
Proof.
  destruct m as [|m]; cbn [lambert]; pose proof (pos_INR j); [left; apply Rdiv_lt_0_compat; lra|]. pose proof (lambert_nonneg m (S j) t). unfold Rdiv. rewrite !Rmult_1_l. apply Rinv_le_contravar; nra.
Qed.
Lemma lambert_0 m j : lambert (S m) j 0 = 1 / (2 * INR j + 1).
Proof. cbn [lambert]. f_equal. ring. Qed.
(** Difference of tail and convergent. *)
Lemma diff_step m j t : 0 < t -> tail j t - lambert (S m) j t = - (t * t) * (tail (S j) t - lambert m (S j) t) * tail j t * lambert (S m) j t.
Proof.
  intros Ht. pose proof (pos_INR j). pose proof (tail_pos (S j) t Ht). pose proof (lambert_nonneg m (S j) t). assert (0 <= t * t * tail (S j) t) by nra. assert (0 <= t * t * lambert m (S j) t) by nra. rewrite (tail_step j t Ht). cbn [lambert]. field. split; lra.
Qed.
Lemma bracket_even m : forall j t, 0 < t -> 0 <= tail j t - lambert (2 * m) j t.
Proof.
  induction m as [|m IH]; intros j t Ht; [change (lambert (2 * 0) j t) with 0; pose proof (tail_pos j t Ht); lra|].
  replace (2 * S m)%nat with (S (S (2 * m))) by lia. rewrite diff_step, diff_step by auto. specialize (IH (S (S j)) t Ht).
  pose proof (tail_pos j t Ht). pose proof (tail_pos (S j) t Ht). pose proof (lambert_pos (S (2 * m)) j t). pose proof (lambert_pos (2 * m) (S j) t).
  set (d := tail (S (S j)) t - lambert (2 * m) (S (S j)) t) in *.
  replace (- (t * t) * (- (t * t) * d * tail (S j) t * lambert (S (2 * m)) (S j) t) * tail j t * lambert (S (S (2 * m))) j t)
    with (t * t * (t * t) * (d * (tail (S j) t * lambert (S (2 * m)) (S j) t) * (tail j t * lambert (S (S (2 * m))) j t))) by ring.
  apply Rmult_le_pos; [nra|]. apply Rmult_le_pos; [apply Rmult_le_pos; [exact IH|]|]; apply Rmult_le_pos; lra.
Qed.
(** Product of (t/(2i+1))^2 for i = j .. j+m-1. *)
Fixpoint cf_bound (m j : nat) (t : R) : R := match m with O => 1 | S m => (t / (2 * INR j + 1)) * (t / (2 * INR j + 1)) * cf_bound m (S j) t end.
Lemma diff_bound m : forall j t, 0 < t -> Rabs (tail j t - lambert m j t) <= cf_bound m j t.
Proof.
  induction m as [|m IH]; intros j t Ht.
  - cbn [lambert cf_bound]. rewrite Rminus_0_r, Rabs_right by (left; now apply tail_pos). eapply Rle_trans; [now apply tail_le|]. pose proof (pos_INR j).
    apply Rmult_le_reg_r with (2 * INR j + 1); [lra|]. unfold Rdiv. rewrite Rmult_assoc, Rinv_l by lra. lra.
  - rewrite diff_step by auto. rewrite !Rabs_mult, Rabs_Ropp, (Rabs_mult t t). pose proof (tail_pos j t Ht). pose proof (lambert_pos m j t). rewrite (Rabs_right (tail j t)), (Rabs_right (lambert (S m) j t)), (Rabs_right (t)) by lra.
    pose proof (tail_le j t Ht) as T1. pose proof (lambert_le (S m) j t) as L1. cbn [cf_bound]. specialize (IH (S j) t Ht). set (x := 1 / (2 * INR j + 1)) in *.
    replace (t / (2 * INR j + 1)) with (t * x) by (unfold x; field; pose proof (pos_INR j); lra).
    set (d := Rabs (tail (S j) t - lambert m (S j) t)) in *. pose proof (Rabs_pos (tail (S j) t - lambert m (S j) t)) as D0. fold d in D0.
    assert (X0 : tail j t * lambert (S m) j t <= x * x) by (apply Rmult_le_compat; lra).
    replace (t * t * d * tail j t * lambert (S m) j t) with (t * t * (d * (tail j t * lambert (S m) j t))) by ring.
    replace (t * x * (t * x) * cf_bound m (S j) t) with (t * t * (cf_bound m (S j) t * (x * x))) by ring.
    apply Rmult_le_compat_l; [nra|]. apply Rmult_le_compat; try lra. nra.
Qed.
Lemma tanh_tail t : 0 < t -> tanh t = t * tail 0 t.
Proof. intros Ht. cbn [tail]. unfold tanh. pose proof (cosh_pos t). field. lra. Qed.
Lemma lambert_even m : forall j t, lambert m j (- t) = lambert m j t.
Proof. induction m as [|m IH]; intros j t; cbn [lambert]; [reflexivity|]. rewrite IH. f_equal. ring. Qed.
Lemma tanh_odd t : tanh (- t) = - tanh t.
Proof. unfold tanh, sinh, cosh. rewrite Ropp_involutive. pose proof (exp_pos t). pose proof (exp_pos (- t)). field. lra. Qed.
Lemma cf_bound_even m : forall j t, cf_bound m j (- t) = cf_bound m j t.
Proof. induction m as [|m IH]; intros j t; cbn [cf_bound]; [reflexivity|]. rewrite IH. unfold Rdiv. ring. Qed.
Lemma fermi_tanh x : fermi x = (1 - tanh (x / 2)) / 2.
Proof.
  unfold fermi, tanh, sinh, cosh. pose proof (exp_pos (x / 2)) as P. pose proof (exp_pos (- (x / 2))) as P'.
  assert (E : exp x = exp (x / 2) * exp (x / 2)) by (rewrite <- exp_plus; f_equal; field). assert (I : exp (- (x / 2)) = / exp (x / 2)) by apply exp_Ropp.
  rewrite I, E. field. repeat split; nra.
Qed.
Lemma tanh_cf_spec m t : (0 <= t -> 0 <= tanh_cf (2 * m) t <= tanh t) /\ (t <= 0 -> tanh t <= tanh_cf (2 * m) t <= 0) /\ Rabs (tanh t - tanh_cf m t) <= Rabs t * cf_bound m 0 t.
Proof.
  assert (T0 : tanh 0 = 0) by (unfold tanh; rewrite sinh_0; field; pose proof (cosh_pos 0); lra).
  assert (P : forall t, 0 <= t -> 0 <= tanh_cf (2 * m) t <= tanh t).
  { intros s [Hs|<-]; [|unfold tanh_cf; rewrite Rmult_0_l, T0; lra]. rewrite tanh_tail by auto. unfold tanh_cf. pose proof (bracket_even m 0 s Hs). pose proof (lambert_nonneg (2 * m) 0 s). nra. }
  assert (B : forall t, 0 <= t -> Rabs (tanh t - tanh_cf m t) <= Rabs t * cf_bound m 0 t).
  { intros s [Hs|<-]; [|unfold tanh_cf; rewrite Rmult_0_l, T0, Rminus_0_r, Rabs_R0; lra]. rewrite tanh_tail by auto. unfold tanh_cf.
    replace (s * tail 0 s - s * lambert m 0 s) with (s * (tail 0 s - lambert m 0 s)) by ring. rewrite Rabs_mult. apply Rmult_le_compat_l; [apply Rabs_pos|]. now apply diff_bound. }
  assert (O : forall m t, tanh_cf m (- t) = - tanh_cf m t) by (intros; unfold tanh_cf; rewrite lambert_even; ring).
  split; [apply P|]. split.
  - intros Ht. specialize (P (- t) ltac:(lra)). rewrite O, tanh_odd in P. lra.
  - destruct (Rle_dec 0 t) as [H|H]; [now apply B|]. specialize (B (- t) ltac:(lra)). rewrite O, tanh_odd, cf_bound_even, Rabs_Ropp in B.
    replace (- tanh t - - tanh_cf m t) with (- (tanh t - tanh_cf m t)) in B by ring. now rewrite Rabs_Ropp in B.
Qed.
