(** Proofs about the discrete Fourier transform and the band filter. *)
From Coq Require Import Reals List Arith ZArith Bool Lia Lra.
From Verif Require Import Base RBase RLin CBase NanoMatProofs NanoInvProofs NanoProofs SmoModel SmoSpec.
Import ListNotations.
Local Open Scope R_scope.
Add Ring CxR : cx_ring.

Lemma cis_add a b : cis (a + b) = cxmul (cis a) (cis b).
Proof. unfold cis. apply cx_eq; cbn [re im fst snd cxmul]; [apply cos_plus|rewrite sin_plus; ring]. Qed.
Lemma cis_0 : cis 0 = rcx 1.
Proof. unfold cis. now rewrite cos_0, sin_0. Qed.
Lemma cis_period k : cis (2 * PI * INR k) = rcx 1.
Proof.
  induction k as [|k IH]; [change (INR 0) with 0; rewrite Rmult_0_r; apply cis_0|]. rewrite S_INR. replace (2 * PI * (INR k + 1)) with (2 * PI * INR k + 2 * PI) by ring.
  rewrite cis_add, IH. unfold cis. rewrite cos_2PI, sin_2PI. apply cx_eq; cbn; ring.
Qed.
Lemma cis_neg t : cis (- t) = cxconj (cis t).
Proof. unfold cis, cxconj. cbn. now rewrite cos_neg, sin_neg. Qed.
Lemma cis_period_neg k : cis (- (2 * PI * INR k)) = rcx 1.
Proof. rewrite cis_neg, cis_period. apply cx_eq; cbn; ring. Qed.

(** The sum of the powers of a root of unity. *)
Lemma geometric t n : cxmul (csum n (fun j => cis (t * INR j))) (cxsub (cis t) (rcx 1)) = cxsub (cis (t * INR n)) (rcx 1).
Proof.
  induction n as [|n IH]; [change (INR 0) with 0; rewrite Rmult_0_r, cis_0; apply cx_eq; cbn; ring|].
  rewrite csum_S, S_INR. replace (t * (INR n + 1)) with (t * INR n + t) by ring. rewrite cis_add.
  transitivity (cxadd (cxmul (csum n (fun j => cis (t * INR j))) (cxsub (cis t) (rcx 1))) (cxmul (cis (t * INR n)) (cxsub (cis t) (rcx 1)))); [ring|]. rewrite IH. ring.
Qed.
Lemma cis_not_1 t : 0 < t < 2 * PI -> cis t <> rcx 1.
Proof.
  intros H E. apply (f_equal re) in E. cbn in E. replace t with (2 * (t / 2)) in E by field. rewrite cos_2a_sin in E. pose proof (sin_gt_0 (t / 2) ltac:(lra) ltac:(lra)). nra.
Qed.
Lemma cis_not_1_neg t : 0 < t < 2 * PI -> cis (- t) <> rcx 1.
Proof. intros H E. apply (cis_not_1 t H). rewrite cis_neg in E. apply cx_eq; [exact (f_equal re E)|]. apply (f_equal im) in E. cbn in *. lra. Qed.
Lemma cx_integral a b : cxmul a b = rcx 0 -> b <> rcx 0 -> a = rcx 0.
Proof.
  intros E H. pose proof (cxn2_pos b H) as P. assert (I : cxmul b (cxinv b) = rcx 1).
  { apply cx_eq; cbn; unfold cxn2 in *; destruct b; cbn in *; field; lra. }
  transitivity (cxmul (cxmul a b) (cxinv b)); [|rewrite E; ring]. transitivity (cxmul a (cxmul b (cxinv b))); [rewrite I|]; ring.
Qed.

Definition w (n k j : nat) : cx := cis (2 * PI / INR n * INR k * INR j).
Definition w' (n k j : nat) : cx := cis (- (2 * PI / INR n * INR k * INR j)).
Lemma w_conj n k j : w' n k j = cxconj (w n k j).
Proof. apply cis_neg. Qed.
Lemma w_orth n k l : (k < n)%nat -> (l < n)%nat -> csum n (fun j => cxmul (w n k j) (w' n l j)) = if (k =? l)%nat then rcx (INR n) else rcx 0.
Proof.
  intros Hk Hl. assert (Hn : 0 < INR n) by (apply lt_0_INR; lia).
  rewrite (csum_ext n _ (fun j => cis (2 * PI / INR n * (INR k - INR l) * INR j))).
  2:{ intros j _. unfold w, w'. rewrite <- cis_add. f_equal. ring. }
  destruct (Nat.eqb_spec k l) as [->|Q].
  - rewrite (csum_ext n _ (fun j => rcx 1)); [|intros j _; rewrite Rminus_diag_eq, Rmult_0_r, Rmult_0_l by reflexivity; apply cis_0].
    rewrite <- (rcx_sum n (fun _ => 1)). rewrite rsum_const. now rewrite Rmult_1_r.
  - apply (cx_integral _ (cxsub (cis (2 * PI / INR n * (INR k - INR l))) (rcx 1))).
    + rewrite geometric. replace (2 * PI / INR n * (INR k - INR l) * INR n) with (2 * PI * INR k + - (2 * PI * INR l)) by (field; lra). rewrite cis_add, cis_period, cis_period_neg. apply cx_eq; cbn; ring.
    + assert (B : forall p q, (p < q)%nat -> (q < n)%nat -> 0 < 2 * PI / INR n * (INR q - INR p) < 2 * PI).
      { intros p q H1 H2. apply lt_INR in H1, H2. pose proof (pos_INR p). pose proof PI_RGT_0. replace (2 * PI / INR n * (INR q - INR p)) with (2 * PI * ((INR q - INR p) / INR n)) by (field; lra).
        assert (0 < (INR q - INR p) / INR n < 1); [|nra]. split; [apply Rdiv_lt_0_compat; lra|]. apply (Rmult_lt_reg_r (INR n)); [lra|]. replace ((INR q - INR p) / INR n * INR n) with (INR q - INR p) by (field; lra). lra. }
      assert (NE : cis (2 * PI / INR n * (INR k - INR l)) <> rcx 1).
      { destruct (Nat.lt_ge_cases l k) as [L|L]; [apply cis_not_1, B; lia|].
        replace (2 * PI / INR n * (INR k - INR l)) with (- (2 * PI / INR n * (INR l - INR k))) by ring. apply cis_not_1_neg, B; lia. }
      intros E. apply NE. apply cx_eq; [apply (f_equal re) in E|apply (f_equal im) in E]; cbn in E |- *; lra.
Qed.
Lemma w_sym n k j : w n k j = w n j k.
Proof. unfold w. f_equal. ring. Qed.
Lemma w'_sym n k j : w' n k j = w' n j k.
Proof. unfold w'. f_equal. ring. Qed.

(** Coefficients of a signal, and the signal from its coefficients. *)
Definition coef (n : nat) (x : nat -> cx) (k : nat) : cx := csum n (fun j => cxmul (x j) (w' n k j)).
Definition synth (n : nat) (X : nat -> cx) (j : nat) : cx := cxmul (rcx (/ INR n)) (csum n (fun k => cxmul (X k) (w n k j))).
Lemma coef_synth n X l : (l < n)%nat -> coef n (synth n X) l = X l.
Proof.
  intros Hl. assert (Hn : 0 < INR n) by (apply lt_0_INR; lia). unfold coef, synth.
  rewrite (csum_ext n _ (fun j => cxmul (rcx (/ INR n)) (csum n (fun k => cxmul (X k) (cxmul (w n k j) (w' n l j)))))).
  2:{ intros j _. transitivity (cxmul (rcx (/ INR n)) (cxmul (csum n (fun k => cxmul (X k) (w n k j))) (w' n l j))); [ring|]. f_equal. rewrite <- csum_scal_r. apply csum_ext. intros k _. ring. }
  rewrite csum_scal_l, csum_swap. rewrite (csum_ext n _ (fun k => cxmul (X k) (if (k =? l)%nat then rcx (INR n) else rcx 0))).
  2:{ intros k Hk. rewrite csum_scal_l. now rewrite w_orth. }
  rewrite (csum_single n _ l Hl); [|intros k _ Q; destruct (Nat.eqb_spec k l); [contradiction|ring]]. rewrite Nat.eqb_refl.
  transitivity (cxmul (X l) (cxmul (rcx (/ INR n)) (rcx (INR n)))); [ring|]. rewrite <- rcx_mul, Rinv_l by lra. ring.
Qed.
Lemma synth_coef n x m : (m < n)%nat -> synth n (coef n x) m = x m.
Proof.
  intros Hm. assert (Hn : 0 < INR n) by (apply lt_0_INR; lia). unfold coef, synth.
  rewrite (csum_ext n _ (fun k => csum n (fun j => cxmul (x j) (cxmul (w n m k) (w' n j k))))).
  2:{ intros k _. rewrite <- csum_scal_r. apply csum_ext. intros j _. rewrite (w_sym n m k), (w'_sym n j k). ring. }
  rewrite csum_swap. rewrite (csum_ext n _ (fun j => cxmul (x j) (if (m =? j)%nat then rcx (INR n) else rcx 0))).
  2:{ intros j Hj. rewrite csum_scal_l. now rewrite w_orth. }
  rewrite (csum_single n _ m Hm); [|intros j _ Q; destruct (Nat.eqb_spec m j) as [E|]; [symmetry in E; contradiction|ring]]. rewrite Nat.eqb_refl.
  transitivity (cxmul (x m) (cxmul (rcx (/ INR n)) (rcx (INR n)))); [ring|]. rewrite <- rcx_mul, Rinv_l by lra. ring.
Qed.

Lemma rsum_neg n f : rsum n (fun i => - f i) = - rsum n f.
Proof. transitivity (rsum n (fun i => -1 * f i)); [apply rsum_ext; intros; ring|]. rewrite rsum_scal_l. ring. Qed.

(** Coefficients in terms of cosines and sines. *)
Lemma coef_amp n x k : (0 < n)%nat -> coef n (fun j => rcx (x j)) k = (cosamp n k x, - sinamp n k x).
Proof.
  intros Hn. assert (P : INR n <> 0) by (apply not_0_INR; lia). apply cx_eq; unfold coef, cosamp, sinamp; rewrite ?csum_re, ?csum_im; cbn [re im fst snd].
  - apply rsum_ext. intros j _. unfold w', cis. cbn. rewrite cos_neg. replace (2 * PI * INR k * INR j / INR n) with (2 * PI / INR n * INR k * INR j) by (field; exact P). ring.
  - rewrite <- rsum_neg. apply rsum_ext. intros j _. unfold w', cis. cbn. rewrite sin_neg. replace (2 * PI * INR k * INR j / INR n) with (2 * PI / INR n * INR k * INR j) by (field; exact P). ring.
Qed.

(** Reflection of the frequencies. *)
Lemma w_reflect n k j : (0 < k <= n)%nat -> w n (n - k) j = cxconj (w n k j).
Proof.
  intros Hk. assert (P : INR n <> 0) by (apply not_0_INR; lia). rewrite <- w_conj. unfold w, w'. rewrite minus_INR by lia.
  replace (2 * PI / INR n * (INR n - INR k) * INR j) with (2 * PI * INR j + - (2 * PI / INR n * INR k * INR j)) by (field; exact P). rewrite cis_add, cis_period. ring.
Qed.
Lemma rsum_rev n f : rsum n f = rsum n (fun k => f (n - 1 - k)%nat).
Proof.
  revert f. induction n as [|n IH]; intros f; [reflexivity|]. rewrite rsum_S, (rsum_S_l n (fun k => f (S n - 1 - k)%nat)). replace (S n - 1 - 0)%nat with n by lia. rewrite Rplus_comm. f_equal.
  rewrite (IH f). apply rsum_ext. intros k Hk. f_equal. lia.
Qed.
(** A sum of an odd function of the frequency vanishes. *)
Lemma odd_sum n f : (forall k, (0 < k < n)%nat -> f (n - k)%nat = - f k) -> f 0%nat = 0 -> rsum n f = 0.
Proof.
  intros H H0. destruct n as [|n]; [reflexivity|]. rewrite rsum_S_l, H0.
  assert (E : rsum n (fun i => f (S i)) = - rsum n (fun i => f (S i))); [|lra].
  rewrite rsum_rev at 1. rewrite <- rsum_neg. apply rsum_ext. intros k Hk.
  replace (S (n - 1 - k)) with (S n - S k)%nat by lia. rewrite H by lia. ring.
Qed.

Section Filter.
Variables (n : nat) (keep : nat -> bool) (x : nat -> R).
Hypothesis even_keep : forall k, (0 < k < n)%nat -> keep (n - k)%nat = keep k.
Definition kept (k : nat) : cx := if keep k then coef n (fun j => rcx (x j)) k else rcx 0.
Lemma coef_reflect k : (0 < k < n)%nat -> coef n (fun j => rcx (x j)) (n - k) = cxconj (coef n (fun j => rcx (x j)) k).
Proof.
  intros Hk. unfold coef. apply cx_eq; unfold cxconj; cbn [re im fst snd]; rewrite ?csum_re, ?csum_im.
  - apply rsum_ext. intros j _. rewrite !w_conj, w_reflect by lia. cbn. ring.
  - rewrite <- rsum_neg. apply rsum_ext. intros j _. rewrite !w_conj, w_reflect by lia. cbn. ring.
Qed.
Lemma kept_real j : im (synth n kept j) = 0.
Proof.
  unfold synth. cbn [im snd cxmul rcx re fst]. rewrite csum_im. rewrite odd_sum; [ring| |].
  - intros k Hk. unfold kept. rewrite even_keep by exact Hk. destruct (keep k); [|cbn; ring]. rewrite coef_reflect, w_reflect by lia. destruct (coef n _ k), (w n k j). cbn. ring.
  - unfold kept. destruct (keep 0%nat); [|cbn; ring]. unfold coef, w. rewrite Rmult_0_r, Rmult_0_l, cis_0. cbn [cxmul im re fst snd rcx]. rewrite csum_im.
    rewrite (rsum_0 n); [ring|]. intros i _. unfold w'. rewrite Rmult_0_r, Rmult_0_l, Ropp_0, cis_0. cbn. ring.
Qed.
Definition filtered (j : nat) : R := re (synth n kept j).
Lemma filtered_cx j : rcx (filtered j) = synth n kept j.
Proof. apply cx_eq; [reflexivity|]. change (0 = im (synth n kept j)). now rewrite kept_real. Qed.
Lemma filtered_coef k : (k < n)%nat -> coef n (fun j => rcx (filtered j)) k = kept k.
Proof. intros Hk. unfold coef. rewrite (csum_ext n _ (fun j => cxmul (synth n kept j) (w' n k j))); [|intros; now rewrite filtered_cx]. now apply (coef_synth n kept k). Qed.
End Filter.

(** Two signals with the same amplitudes are the same. *)
Lemma amps_inj n x y : (forall k, (k < n)%nat -> cosamp n k x = cosamp n k y /\ sinamp n k x = sinamp n k y) -> forall j, (j < n)%nat -> x j = y j.
Proof.
  intros H j Hj. assert (E : rcx (x j) = rcx (y j)); [|exact (f_equal re E)].
  rewrite <- (synth_coef n (fun j => rcx (x j)) j Hj), <- (synth_coef n (fun j => rcx (y j)) j Hj). unfold synth. f_equal. apply csum_ext. intros k Hk. f_equal.
  rewrite !coef_amp by lia. destruct (H k Hk) as [-> ->]. reflexivity.
Qed.
Lemma amps_S n k f g : cosamp n k (fun j => f j + g j) = cosamp n k f + cosamp n k g /\ sinamp n k (fun j => f j + g j) = sinamp n k f + sinamp n k g.
Proof. unfold cosamp, sinamp. split; rewrite <- rsum_add; apply rsum_ext; intros; ring. Qed.
Lemma amps_scal n k c f : cosamp n k (fun j => c * f j) = c * cosamp n k f /\ sinamp n k (fun j => c * f j) = c * sinamp n k f.
Proof. unfold cosamp, sinamp. split; rewrite <- rsum_scal_l; apply rsum_ext; intros; ring. Qed.
Lemma slow_dec n limit k : {slow n limit k} + {~ slow n limit k}.
Proof. apply Rle_dec. Qed.

Lemma lowpass_unique n limit x y y' : lowpass n limit x y -> lowpass n limit x y' -> forall j, (j < n)%nat -> y j = y' j.
Proof.
  intros H H'. apply amps_inj. intros k Hk. destruct (H k Hk) as [A B], (H' k Hk) as [A' B']. destruct (slow_dec n limit k) as [S|S].
  - destruct (A S) as [-> ->], (A' S) as [-> ->]. auto.
  - destruct (B S) as [-> ->], (B' S) as [-> ->]. auto.
Qed.
Lemma lowpass_twice n limit x y : lowpass n limit x y -> lowpass n limit y y.
Proof. intros H k Hk. destruct (H k Hk) as [A B]. split; [auto|exact B]. Qed.
Lemma lowpass_linear n limit c x y x' y' : lowpass n limit x y -> lowpass n limit x' y' -> lowpass n limit (fun j => c * x j + x' j) (fun j => c * y j + y' j).
Proof.
  intros H H' k Hk. destruct (H k Hk) as [A B], (H' k Hk) as [A' B']. destruct (amps_S n k (fun j => c * y j) y') as [-> ->], (amps_S n k (fun j => c * x j) x') as [-> ->].
  destruct (amps_scal n k c y) as [-> ->], (amps_scal n k c x) as [-> ->]. split; intros S.
  - destruct (A S) as [-> ->], (A' S) as [-> ->]. auto.
  - destruct (B S) as [-> ->], (B' S) as [-> ->]. split; ring.
Qed.
Lemma lowpass_mean n limit x y : (0 < n)%nat -> 0 <= limit -> lowpass n limit x y -> rsum n y = rsum n x.
Proof.
  intros Hn L H. destruct (proj1 (H 0%nat Hn)) as [E _]; [unfold slow; rewrite Nat.min_l by lia; exact L|]. unfold cosamp in E.
  assert (G : forall f, rsum n (fun j => f j * cos (2 * PI * INR 0 * INR j / INR n)) = rsum n f).
  { intros f. apply rsum_ext. intros j _. change (INR 0) with 0. rewrite Rmult_0_r, Rmult_0_l. unfold Rdiv. rewrite Rmult_0_l, cos_0. ring. }
  now rewrite !G in E.
Qed.
Lemma lowpass_all n limit x y : (0 < n)%nat -> INR n <= 2 * limit -> lowpass n limit x y -> forall j, (j < n)%nat -> y j = x j.
Proof.
  intros Hn L H. apply amps_inj. intros k Hk. apply (H k Hk). unfold slow. assert (2 * Nat.min k (n - k) <= n)%nat by lia. apply le_INR in H0. rewrite mult_INR in H0. cbn [INR] in H0. lra.
Qed.
(** Removing oscillations never increases the norm. *)
Lemma lowpass_orth n limit x y : lowpass n limit x y -> rsum n (fun j => (x j - y j) * y j) = 0.
Proof.
  intros H. destruct n as [|n0]; [reflexivity|]. set (n := S n0) in *. assert (Hn : (0 < n)%nat) by (unfold n; lia).
  set (u := fun j => x j - y j).
  assert (U : forall k, (k < n)%nat -> slow n limit k -> cosamp n k u = 0 /\ sinamp n k u = 0).
  { intros k Hk S. destruct (proj1 (H k Hk) S) as [E1 E2]. unfold u, cosamp, sinamp in *. split.
    - rewrite (rsum_ext n _ (fun j => x j * cos (2 * PI * INR k * INR j / INR n) - y j * cos (2 * PI * INR k * INR j / INR n))) by (intros; ring). rewrite rsum_sub, E1. ring.
    - rewrite (rsum_ext n _ (fun j => x j * sin (2 * PI * INR k * INR j / INR n) - y j * sin (2 * PI * INR k * INR j / INR n))) by (intros; ring). rewrite rsum_sub, E2. ring. }
  assert (E : csum n (fun j => cxmul (rcx (u j)) (synth n (coef n (fun j => rcx (y j))) j)) = rcx 0).
  { unfold synth. rewrite (csum_ext n _ (fun j => cxmul (rcx (/ INR n)) (csum n (fun k => cxmul (coef n (fun j => rcx (y j)) k) (cxmul (rcx (u j)) (w n k j)))))).
    2:{ intros j _. transitivity (cxmul (rcx (/ INR n)) (cxmul (rcx (u j)) (csum n (fun k => cxmul (coef n (fun j => rcx (y j)) k) (w n k j))))); [ring|]. f_equal. rewrite <- csum_scal_l. apply csum_ext. intros k _. ring. }
    rewrite csum_scal_l, csum_swap. rewrite csum_0; [ring|]. intros k Hk. rewrite csum_scal_l. destruct (slow_dec n limit k) as [S|S].
    - replace (csum n (fun j => cxmul (rcx (u j)) (w n k j))) with (cxconj (coef n (fun j => rcx (u j)) k)).
      + rewrite (coef_amp n u k Hn). destruct (U k Hk S) as [-> ->]. apply cx_eq; cbn; ring.
      + unfold coef. apply cx_eq; unfold cxconj; cbn [re im fst snd]; rewrite ?csum_re, ?csum_im.
        * apply rsum_ext. intros j _. rewrite w_conj. cbn. ring.
        * rewrite <- rsum_neg. apply rsum_ext. intros j _. rewrite w_conj. cbn. ring.
    - rewrite (coef_amp n y k Hn). destruct (proj2 (H k Hk) S) as [-> ->]. apply cx_eq; cbn; ring. }
  apply (f_equal re) in E. rewrite csum_re in E. cbn [re fst rcx] in E. rewrite <- E. apply rsum_ext. intros j Hj. rewrite (synth_coef n (fun j => rcx (y j)) j Hj). cbn. unfold u. ring.
Qed.
Lemma lowpass_norm n limit x y : lowpass n limit x y -> rsum n (fun j => x j * x j) = rsum n (fun j => y j * y j) + rsum n (fun j => (x j - y j) * (x j - y j)).
Proof.
  intros H. pose proof (lowpass_orth n limit x y H) as E. rewrite (rsum_ext n (fun j => x j * x j) (fun j => y j * y j + (x j - y j) * (x j - y j) + 2 * ((x j - y j) * y j))) by (intros; ring).
  rewrite !rsum_add, rsum_scal_l, E. ring.
Qed.
