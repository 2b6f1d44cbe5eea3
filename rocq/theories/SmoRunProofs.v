(** Proofs about [smooth]. *)
From Coq Require Import Reals List Arith ZArith Bool Lia Lra.
From Verif Require Import Base RBase RLin CBase NanoMatProofs NanoInvProofs NanoProofs SmoModel SmoSpec SmoProofs.
Import ListNotations.
Local Open Scope R_scope.

Lemma Rltb_true a b : Rltb a b = true <-> a < b.
Proof. unfold Rltb. destruct (Rlt_dec a b); split; intros; auto; discriminate || contradiction. Qed.
Lemma Rltb_false a b : Rltb a b = false <-> b <= a.
Proof. unfold Rltb. destruct (Rlt_dec a b); split; intros; auto; try discriminate; lra. Qed.

(** The filter. *)
Lemma freq_abs n d k : (k < n)%nat -> 0 < d -> Rabs (nth k (fftfreq n d) 0) = INR (Nat.min k (n - k)) / (INR n * d).
Proof.
  intros Hk Hd. assert (P : 0 < INR n) by (apply lt_0_INR; lia). assert (PD : 0 < INR n * d) by (apply Rmult_lt_0_compat; auto). unfold fftfreq. cbv zeta. rewrite nth_map_seq by exact Hk.
  pose proof (Nat.div_mod (n - 1) 2 ltac:(lia)) as E. pose proof (Nat.mod_upper_bound (n - 1) 2 ltac:(lia)). pose proof (Nat.div_mod n 2 ltac:(lia)) as E'. pose proof (Nat.mod_upper_bound n 2 ltac:(lia)).
  unfold Rdiv. rewrite Rabs_mult, (Rabs_pos_eq (/ (INR n * d))) by (left; now apply Rinv_0_lt_compat). f_equal.
  destruct (Nat.ltb_spec k ((n - 1) / 2 + 1)) as [Q|Q].
  - rewrite Nat.min_l by lia. apply Rabs_pos_eq, pos_INR.
  - rewrite Nat.min_r by lia. rewrite <- Rabs_Ropp. replace (- (- INR (n / 2) + INR (k - ((n - 1) / 2 + 1)))) with (INR (n - k)); [apply Rabs_pos_eq, pos_INR|].
    assert (S : (n - k + (k - ((n - 1) / 2 + 1)) = n / 2)%nat) by lia. rewrite <- S, plus_INR. ring.
Qed.
Lemma freq_length n d : length (fftfreq n d) = n.
Proof. unfold fftfreq. cbv zeta. now rewrite map_length, seq_length. Qed.
Lemma fft_length x : length (fft x) = length x.
Proof. unfold fft. cbv zeta. now rewrite map_length, seq_length. Qed.
Lemma band_length n d cutoff x : length x = n -> length (band (fftfreq n d) cutoff x) = n.
Proof. intros L. unfold band, ifft. cbv zeta. rewrite !map_length, seq_length, combine_length, freq_length, fft_length. lia. Qed.

Lemma band_lowpass n d cutoff x : (0 < n)%nat -> 0 < d -> length x = n -> lowpass n (cutoff * (INR n * d)) (fun j => nth j x 0) (fun j => nth j (band (fftfreq n d) cutoff x) 0).
Proof.
  intros Hn Hd L. assert (P : 0 < INR n) by (apply lt_0_INR; lia). assert (PD : 0 < INR n * d) by (apply Rmult_lt_0_compat; auto).
  set (keep := fun k => negb (Rltb (cutoff * (INR n * d)) (INR (Nat.min k (n - k))))).
  assert (EV : forall k, (0 < k < n)%nat -> keep (n - k)%nat = keep k) by (intros k Hk; unfold keep; now replace (Nat.min (n - k) (n - (n - k))) with (Nat.min k (n - k)) by lia).
  set (xs := fun j => nth j x 0).
  assert (Y : forall j, (j < n)%nat -> nth j (band (fftfreq n d) cutoff x) 0 = filtered n keep xs j).
  { intros j Hj. unfold band. rewrite (nth_indep _ 0 (re (rcx 0))) by (rewrite map_length; unfold ifft; cbv zeta; rewrite map_length, seq_length, map_length, combine_length, freq_length, fft_length; lia).
    rewrite map_nth. unfold filtered. f_equal. unfold ifft. cbv zeta. rewrite map_length, combine_length, freq_length, fft_length, L, Nat.min_id. rewrite nth_map_seq by exact Hj. unfold synth. f_equal.
    apply csum_ext. intros k Hk. fold (w n k j). f_equal. unfold kept.
    rewrite (nth_indep _ (rcx 0) ((fun fX => if Rltb cutoff (Rabs (fst fX)) then rcx 0 else snd fX) (0, rcx 0))) by (rewrite map_length, combine_length, freq_length, fft_length; lia).
    rewrite (map_nth (fun fX => if Rltb cutoff (Rabs (fst fX)) then rcx 0 else snd fX)). rewrite combine_nth by (rewrite freq_length, fft_length; lia). cbn [fst snd]. rewrite freq_abs by auto.
    assert (K : Rltb cutoff (INR (Nat.min k (n - k)) / (INR n * d)) = negb (keep k)).
    { unfold keep. rewrite negb_involutive. destruct (Rltb (cutoff * (INR n * d)) (INR (Nat.min k (n - k)))) eqn:Q.
      - apply Rltb_true in Q. apply Rltb_true. apply (Rmult_lt_reg_r (INR n * d)); [exact PD|]. replace (INR (Nat.min k (n - k)) / (INR n * d) * (INR n * d)) with (INR (Nat.min k (n - k))) by (field; lra). exact Q.
      - apply Rltb_false in Q. apply Rltb_false. apply (Rmult_le_reg_r (INR n * d)); [exact PD|]. replace (INR (Nat.min k (n - k)) / (INR n * d) * (INR n * d)) with (INR (Nat.min k (n - k))) by (field; lra). exact Q. }
    rewrite K. destruct (keep k); cbn [negb]; [|reflexivity]. unfold fft. cbv zeta. rewrite L. rewrite nth_map_seq by exact Hk. unfold coef. apply csum_ext. reflexivity. }
  intros k Hk.
  assert (C : (cosamp n k (fun j => nth j (band (fftfreq n d) cutoff x) 0), - sinamp n k (fun j => nth j (band (fftfreq n d) cutoff x) 0)) = kept n keep xs k).
  { rewrite <- (coef_amp n _ k Hn), <- (filtered_coef n keep xs EV k Hk). unfold coef. apply csum_ext. intros j Hj. now rewrite Y. }
  unfold kept in C. unfold slow. destruct (keep k) eqn:Q; unfold keep in Q.
  - apply negb_true_iff, Rltb_false in Q. split; [|intros; contradiction]. intros _. rewrite (coef_amp n xs k Hn) in C. injection C as C1 C2. split; [exact C1|]. apply Ropp_eq_compat in C2. rewrite !Ropp_involutive in C2. exact C2.
  - apply negb_false_iff, Rltb_true in Q. split; [intros; lra|]. intros _. injection C as C1 C2. split; [exact C1|]. apply Ropp_eq_compat in C2. rewrite Ropp_involutive, Ropp_0 in C2. exact C2.
Qed.

(** Interpolation. *)
Lemma filter_split {A} (f : A -> bool) (d : A) l c : (c <= length l)%nat -> (forall i, (i < c)%nat -> f (nth i l d) = true) -> (forall i, (c <= i)%nat -> (i < length l)%nat -> f (nth i l d) = false) -> length (filter f l) = c.
Proof.
  revert c. induction l as [|x l IH]; intros c Hc T F; [cbn in *; lia|]. cbn [filter]. destruct c as [|c].
  - assert (E : f x = false) by (apply (F 0%nat (le_n _)); cbn; lia). rewrite E. apply IH; [lia|intros; lia|]. intros i _ Hi. apply (F (S i)); cbn; lia.
  - assert (E : f x = true) by (apply (T 0%nat); lia). rewrite E. cbn [length]. f_equal. apply IH; [cbn in Hc; lia| |].
    + intros i Hi. apply (T (S i)). lia.
    + intros i H1 H2. apply (F (S i)); cbn; lia.
Qed.
Lemma increasing_le xs i j : increasing xs -> (i <= j)%nat -> (j < length xs)%nat -> nth i xs 0 <= nth j xs 0.
Proof. intros I L H. destruct (Nat.eq_dec i j) as [->|Q]; [lra|]. left. apply I; lia. Qed.
Lemma search_at xs x c : increasing xs -> (c <= length xs)%nat -> (c = 0%nat \/ nth (c - 1) xs 0 < x) -> (c = length xs \/ x <= nth c xs 0) -> searchsorted xs x = c.
Proof.
  intros I Hc L R. unfold searchsorted. apply (filter_split _ 0); [exact Hc| |].
  - intros i Hi. apply Rltb_true. destruct L as [->|L]; [lia|]. apply (Rle_lt_trans _ (nth (c - 1) xs 0)); [apply increasing_le; auto; lia|exact L].
  - intros i Hi Hl. apply Rltb_false. destruct R as [->|R]; [lia|]. apply (Rle_trans _ (nth c xs 0)); [exact R|apply increasing_le; auto].
Qed.
Lemma line_between xs ys x : increasing xs -> (2 <= length xs)%nat -> between (fun i => nth i xs 0) (fun i => nth i ys (rcx 0)) (length xs) x (line xs ys x).
Proof.
  intros I L i Hi [H1 H2]. pose proof (I i (S i) (Nat.lt_succ_diag_r i) Hi) as D. unfold line. cbv zeta.
  destruct (Rle_lt_or_eq_dec _ _ H1) as [Q|Q].
  - rewrite (search_at xs x (S i) I ltac:(lia)); [|right; replace (S i - 1)%nat with i by lia; exact Q|right; exact H2].
    replace (Nat.min (Nat.max (S i) 1) (length xs - 1)) with (S i) by lia. replace (S i - 1)%nat with i by lia. set (u := nth (S i) ys (rcx 0)). set (v := nth i ys (rcx 0)).
    destruct u as [u1 u2], v as [v1 v2]. apply cx_eq; cbn; field; lra.
  - rewrite (search_at xs x i I ltac:(lia)); [| |right; lra].
    2:{ destruct i; [left; reflexivity|right]. rewrite <- Q. replace (S i - 1)%nat with i by lia. apply I; lia. }
    destruct i as [|i].
    + replace (Nat.min (Nat.max 0 1) (length xs - 1)) with 1%nat by lia. cbn [Nat.sub]. rewrite <- Q. set (u := nth 1 ys (rcx 0)). set (v := nth 0 ys (rcx 0)).
      destruct u as [u1 u2], v as [v1 v2]. apply cx_eq; cbn -[nth]; field; lra.
    + replace (Nat.min (Nat.max (S i) 1) (length xs - 1)) with (S i) by lia. replace (S i - 1)%nat with i by lia. rewrite <- Q.
      pose proof (I i (S i) (Nat.lt_succ_diag_r i) ltac:(lia)) as D'. set (u := nth (S i) ys (rcx 0)). set (v := nth i ys (rcx 0)). set (t := nth (S (S i)) ys (rcx 0)).
      destruct u as [u1 u2], v as [v1 v2], t as [t1 t2]. apply cx_eq; cbn -[nth]; field; lra.
Qed.
Lemma between_at xs ys m j v : between xs ys m (xs j) v -> (j < m)%nat -> (2 <= m)%nat -> (forall i, (S i < m)%nat -> xs i < xs (S i)) -> v = ys j.
Proof.
  intros B Hj Hm I. destruct (Nat.eq_dec (S j) m) as [Q|Q].
  - destruct j as [|j]; [lia|]. pose proof (I j ltac:(lia)) as D. rewrite (B j ltac:(lia) ltac:(lra)). destruct (ys j), (ys (S j)). apply cx_eq; cbn; field; lra.
  - pose proof (I j ltac:(lia)) as D. rewrite (B j ltac:(lia) ltac:(lra)). destruct (ys j), (ys (S j)). apply cx_eq; cbn; field; lra.
Qed.

(** Extrema and grid. *)
Lemma arrmin_first xs : increasing xs -> (0 < length xs)%nat -> arrmin xs = Ok (nth 0 xs 0).
Proof.
  destruct xs as [|x xs]; [cbn; lia|]. intros I _. cbn [arrmin nth]. f_equal.
  assert (G : forall l, (forall y, In y l -> x <= y) -> fold_left Rmin l x = x).
  { induction l as [|y l IH]; intros H; [reflexivity|]. cbn [fold_left]. rewrite Rmin_left by (apply H; now left). apply IH. intros z Hz. apply H. now right. }
  apply G. intros y Hy. apply In_nth with (d := 0) in Hy. destruct Hy as (i & Hi & <-). exact (increasing_le (x :: xs) 0 (S i) I ltac:(lia) ltac:(cbn; lia)).
Qed.
Lemma arrmax_last xs : increasing xs -> (0 < length xs)%nat -> arrmax xs = Ok (nth (length xs - 1) xs 0).
Proof.
  destruct xs as [|x xs]; [cbn; lia|]. intros I _. cbn [arrmax]. f_equal. revert x I. induction xs as [|y l IH]; intros x I; [reflexivity|]. cbn [fold_left].
  rewrite Rmax_right by (left; exact (I 0%nat 1%nat ltac:(lia) ltac:(cbn; lia))). rewrite IH.
  - cbn [length]. replace (S (length l) - 1)%nat with (length l) by lia. replace (S (S (length l)) - 1)%nat with (S (length l)) by lia. reflexivity.
  - intros i j H1 H2. exact (I (S i) (S j) ltac:(lia) ltac:(cbn in *; lia)).
Qed.
Lemma linspace_length a b n : length (linspace a b n) = n.
Proof. unfold linspace. now rewrite map_length, seq_length. Qed.
Lemma linspace_nth a b n j : (j < n)%nat -> nth j (linspace a b n) 0 = a + INR j * ((b - a) / INR (n - 1)).
Proof. intros H. unfold linspace. now rewrite nth_map_seq. Qed.
Lemma linspace_increasing a b n : a < b -> (2 <= n)%nat -> increasing (linspace a b n).
Proof.
  intros H Hn i j L Hj. rewrite linspace_length in Hj. rewrite !linspace_nth by lia. assert (0 < INR (n - 1)) by (apply lt_0_INR; lia). apply lt_INR in L.
  assert (0 < (b - a) / INR (n - 1)) by (apply Rdiv_lt_0_compat; lra). nra.
Qed.
Lemma linspace_last a b n : (2 <= n)%nat -> nth (n - 1) (linspace a b n) 0 = b.
Proof. intros Hn. rewrite linspace_nth by lia. field. apply not_0_INR. lia. Qed.
Lemma linspace_range a b n j : a < b -> (j < n)%nat -> (2 <= n)%nat -> a <= nth j (linspace a b n) 0 <= b.
Proof.
  intros H Hj Hn. pose proof (increasing_le _ 0 j (linspace_increasing a b n H Hn) ltac:(lia) ltac:(now rewrite linspace_length)) as L1.
  pose proof (increasing_le _ j (n - 1) (linspace_increasing a b n H Hn) ltac:(lia) ltac:(rewrite linspace_length; lia)) as L2. rewrite linspace_last in L2 by exact Hn.
  rewrite (linspace_nth a b n 0) in L1 by lia. change (INR 0) with 0 in L1. lra.
Qed.
Lemma points r n : n = Z.to_nat (Int_part r) -> 0 <= r -> INR n <= r < INR n + 1.
Proof.
  intros -> H. destruct (base_Int_part r) as [B1 B2]. assert (P : (0 <= Int_part r)%Z). { apply le_IZR. assert (-1 < Int_part r)%Z by (apply lt_IZR; lra). apply IZR_le. lia. }
  rewrite INR_IZR_INZ, Z2Nat.id by exact P. lra.
Qed.
Lemma mapM_total {A B} (f : A -> res B) (g : A -> B) l : (forall x, In x l -> f x = Ok (g x)) -> mapM f l = Ok (map g l).
Proof. induction l as [|x l IH]; intros H; [reflexivity|]. cbn [mapM map]. rewrite (H x) by now left. cbn [bind]. rewrite IH; [reflexivity|]. intros; apply H; now right. Qed.
Lemma inside xs x : nth 0 xs 0 <= x <= nth (length xs - 1) xs 0 -> outside xs x = false.
Proof. intros [H1 H2]. unfold outside. now rewrite (proj2 (Rltb_false _ _) H1), (proj2 (Rltb_false _ _) H2). Qed.

Section Smooth.
Variables (energies : list R) (sigma : list cx) (cutoff : R).
Hypothesis I : increasing energies. Hypothesis L : length energies = length sigma. Hypothesis L2 : (2 <= length energies)%nat.
Notation a := (nth 0 energies 0). Notation b := (nth (length energies - 1) energies 0).
Lemma ab : a < b.
Proof. apply I; lia. Qed.

Lemma smooth_short : b - a < 1 / 100 -> smooth energies sigma cutoff = Err IndexError.
Proof.
  intros H. pose proof ab as Q. unfold smooth. rewrite L, Nat.eqb_refl. cbn [negb]. rewrite arrmin_first, arrmax_last by (auto; lia). cbn [bind].
  set (n := Z.to_nat (Int_part ((b - a) / (1 / 100) + 1))). assert (B : 0 < (b - a) / (1 / 100) < 1) by lra.
  destruct (points _ n eq_refl ltac:(lra)) as [P1 P2]. assert (E : n = 1%nat).
  { assert (n < 2)%nat by (apply INR_lt; cbn; lra). assert (0 < n)%nat by (apply INR_lt; cbn; lra). lia. }
  rewrite E. unfold linspace. cbn [seq map mapM]. change (INR 0) with 0. rewrite Rmult_0_l, Rplus_0_r. unfold interp_strict. rewrite inside by lra. reflexivity.
Qed.
Lemma smooth_ok : 1 / 100 <= b - a -> exists n f (s y : nat -> cx), smooth energies sigma cutoff = Ok f /\ (2 <= n)%nat /\ INR n <= 100 * (b - a) + 1 < INR n + 1 /\
  let step := (b - a) / INR (n - 1) in let g := fun j => a + INR j * step in
  (forall j, (j < n)%nat -> between (fun i => nth i energies 0) (fun i => nth i sigma (rcx 0)) (length energies) (g j) (s j)) /\
  lowpass n (cutoff * (INR n * step)) (fun j => re (s j)) (fun j => re (y j)) /\ lowpass n (cutoff * (INR n * step)) (fun j => im (s j)) (fun j => im (y j)) /\
  (forall j, (j < n)%nat -> f (g j) = y j) /\ (forall x, a <= x <= b -> between g y n x (f x)) /\ forall x, x < a \/ b < x -> f x = rcx 0.
Proof.
  intros H. pose proof ab as Q. set (n := Z.to_nat (Int_part ((b - a) / (1 / 100) + 1))). destruct (points _ n eq_refl ltac:(lra)) as [P1 P2].
  assert (Hn : (2 <= n)%nat). { assert (1 < n)%nat; [|lia]. apply INR_lt. cbn. lra. }
  set (grid := linspace a b n). assert (LG : length grid = n) by apply linspace_length.
  set (sig := map (line energies sigma) grid). assert (LS : length sig = n) by (unfold sig; now rewrite map_length).
  set (step := (b - a) / INR (n - 1)). assert (PS : 0 < step) by (apply Rdiv_lt_0_compat; [lra|apply lt_0_INR; lia]).
  set (ys := map (fun p => cxadd (rcx (fst p)) (cxmul ci (rcx (snd p)))) (combine (band (fftfreq n step) cutoff (map re sig)) (band (fftfreq n step) cutoff (map im sig)))).
  assert (RUN : smooth energies sigma cutoff = Ok (interp_zero grid ys)).
  { unfold smooth. rewrite L, Nat.eqb_refl. cbn [negb]. rewrite arrmin_first, arrmax_last by (auto; lia). cbn [bind]. fold n. fold grid.
    rewrite (mapM_total _ (line energies sigma)).
    - cbn [bind]. fold sig. rewrite (nth_error_nth' grid 0) by lia. cbn [bind]. rewrite (nth_error_nth' grid 0) by lia. cbn [bind]. 
      assert (D : nth 1 grid 0 - nth 0 grid 0 = step) by (unfold grid; rewrite !linspace_nth by lia; fold step; cbn; ring). rewrite D, LS. reflexivity.
    - intros x Hx. apply In_nth with (d := 0) in Hx. destruct Hx as (j & Hj & <-). unfold interp_strict. rewrite inside; [reflexivity|]. unfold grid. apply linspace_range; auto. now rewrite LG in Hj. }
  assert (LR : length (map re sig) = n) by now rewrite map_length. assert (LI : length (map im sig) = n) by now rewrite map_length.
  assert (LB1 := band_length n step cutoff _ LR). assert (LB2 := band_length n step cutoff _ LI).
  assert (LY : length ys = n) by (unfold ys; rewrite map_length, combine_length, LB1, LB2; lia).
  assert (YJ : forall j, (j < n)%nat -> re (nth j ys (rcx 0)) = nth j (band (fftfreq n step) cutoff (map re sig)) 0 /\ im (nth j ys (rcx 0)) = nth j (band (fftfreq n step) cutoff (map im sig)) 0).
  { intros j Hj. unfold ys. rewrite (nth_indep _ (rcx 0) ((fun p => cxadd (rcx (fst p)) (cxmul ci (rcx (snd p)))) (0, 0))) by (rewrite map_length, combine_length, LB1, LB2; lia).
    rewrite (map_nth (fun p => cxadd (rcx (fst p)) (cxmul ci (rcx (snd p))))). rewrite combine_nth by congruence. cbn. split; ring. }
  assert (SJ : forall f, (f = re \/ f = im) -> forall j, (j < n)%nat -> nth j (map f sig) 0 = f (nth j sig (rcx 0))).
  { intros f Hf j Hj. rewrite (nth_indep _ 0 (f (rcx 0))) by (rewrite map_length; lia). now rewrite map_nth. }
  exists n, (interp_zero grid ys), (fun j => nth j sig (rcx 0)), (fun j => nth j ys (rcx 0)). split; [exact RUN|]. split; [exact Hn|]. split; [lra|]. cbv zeta. fold step.
  assert (G : forall j, (j < n)%nat -> nth j grid 0 = a + INR j * step) by (intros j Hj; unfold grid; now rewrite linspace_nth).
  assert (IG : increasing grid) by (apply linspace_increasing; auto).
  assert (BT : forall x, a <= x <= b -> between (fun j => a + INR j * step) (fun j => nth j ys (rcx 0)) n x (interp_zero grid ys x)).
  { intros x Hx. assert (X : interp_zero grid ys x = line grid ys x).
    { unfold interp_zero. rewrite inside; [reflexivity|]. rewrite LG. unfold grid. rewrite linspace_last by exact Hn. rewrite linspace_nth by lia. cbn. lra. }
    rewrite X. intros i Hi HB. rewrite <- !G in HB by lia. pose proof (line_between grid ys x IG ltac:(lia) i ltac:(lia) HB) as E. cbv beta in E. rewrite !G in E by lia. exact E. }
  split; [|split; [|split; [|split; [|split; [exact BT|]]]]].
  - intros j Hj. rewrite <- G by exact Hj. unfold sig. rewrite (nth_indep _ (rcx 0) (line energies sigma 0)) by (rewrite map_length; lia). rewrite map_nth. now apply line_between.
  - pose proof (band_lowpass n step cutoff (map re sig) ltac:(lia) PS LR) as B. intros k Hk. destruct (B k Hk) as [B1 B2].
    assert (E1 : forall h, rsum n (fun j => re (nth j ys (rcx 0)) * h j) = rsum n (fun j => nth j (band (fftfreq n step) cutoff (map re sig)) 0 * h j)) by (intros h; apply rsum_ext; intros j Hj; now rewrite (proj1 (YJ j Hj))).
    assert (E2 : forall h, rsum n (fun j => re (nth j sig (rcx 0)) * h j) = rsum n (fun j => nth j (map re sig) 0 * h j)) by (intros h; apply rsum_ext; intros j Hj; now rewrite (SJ re (or_introl eq_refl))).
    unfold cosamp, sinamp in *. rewrite !E1, !E2. split; assumption.
  - pose proof (band_lowpass n step cutoff (map im sig) ltac:(lia) PS LI) as B. intros k Hk. destruct (B k Hk) as [B1 B2].
    assert (E1 : forall h, rsum n (fun j => im (nth j ys (rcx 0)) * h j) = rsum n (fun j => nth j (band (fftfreq n step) cutoff (map im sig)) 0 * h j)) by (intros h; apply rsum_ext; intros j Hj; now rewrite (proj2 (YJ j Hj))).
    assert (E2 : forall h, rsum n (fun j => im (nth j sig (rcx 0)) * h j) = rsum n (fun j => nth j (map im sig) 0 * h j)) by (intros h; apply rsum_ext; intros j Hj; now rewrite (SJ im (or_intror eq_refl))).
    unfold cosamp, sinamp in *. rewrite !E1, !E2. split; assumption.
  - intros j Hj. apply (between_at (fun j => a + INR j * step) (fun j => nth j ys (rcx 0)) n j); auto.
    + apply BT. rewrite <- G by exact Hj. now apply linspace_range.
    + intros i Hi. rewrite S_INR. lra.
  - intros x Hx. unfold interp_zero. replace (outside grid x) with true; [reflexivity|]. symmetry. unfold outside. rewrite LG. unfold grid. rewrite linspace_last by exact Hn. rewrite linspace_nth by lia. cbn [INR]. rewrite Rmult_0_l, Rplus_0_r.
    destruct Hx as [Hx|Hx]; [now rewrite (proj2 (Rltb_true _ _) Hx)|rewrite (proj2 (Rltb_true _ _) Hx); apply orb_true_r].
Qed.
End Smooth.

(** Constants are kept. *)
Lemma lowpass_const n limit c : 0 <= limit -> lowpass n limit (fun _ => c) (fun _ => c).
Proof.
  intros Hl k Hk. split; [auto|]. intros S. assert (K : k <> 0%nat) by (intros ->; apply S; unfold slow; rewrite Nat.min_l by lia; exact Hl).
  assert (Hn : (0 < n)%nat) by lia. pose proof (w_orth n 0 k Hn Hk) as O. destruct (Nat.eqb_spec 0 k); [lia|].
  assert (C : coef n (fun _ => rcx c) k = rcx 0).
  { unfold coef. rewrite csum_scal_l. rewrite (csum_ext n _ (fun j => cxmul (w n 0 j) (w' n k j))); [rewrite O; apply cx_eq; cbn; ring|].
    intros j _. unfold w at 1. change (INR 0) with 0. rewrite Rmult_0_r, Rmult_0_l, cis_0. destruct (w' n k j). apply cx_eq; cbn; ring. }
  rewrite (coef_amp n (fun _ => c) k Hn) in C. injection C as C1 C2. split; [exact C1|lra].
Qed.
Lemma smooth_const energies cutoff c : increasing energies -> (2 <= length energies)%nat -> 0 <= cutoff ->
  let a := nth 0 energies 0 in let b := nth (length energies - 1) energies 0 in 1 / 100 <= b - a ->
  exists f, smooth energies (repeat c (length energies)) cutoff = Ok f /\ forall x, a <= x <= b -> f x = c.
Proof.
  intros I L2 HC a b H. destruct (smooth_ok energies (repeat c (length energies)) cutoff I ltac:(now rewrite repeat_length) L2 H) as (n & f & s & y & E & Hn & _ & SB & LR & LI & _ & BT & _).
  fold a b in SB, LR, LI, BT. set (step := (b - a) / INR (n - 1)) in *. assert (Q : a < b) by lra. assert (PS : 0 < step) by (apply Rdiv_lt_0_compat; [lra|apply lt_0_INR; lia]).
  exists f. split; [exact E|].
  assert (LIM : 0 <= cutoff * (INR n * step)) by (apply Rmult_le_pos; [exact HC|]; apply Rmult_le_pos; [apply pos_INR|lra]).
  assert (COV : forall x (g : nat -> R) m, (2 <= m)%nat -> g 0%nat <= x <= g (m - 1)%nat -> exists i, (S i < m)%nat /\ g i <= x <= g (S i)).
  { intros x g m. induction m as [|m IH]; intros Hm Hx; [lia|]. destruct (Nat.eq_dec m 1) as [->|Qm]; [exists 0%nat; split; [lia|exact Hx]|].
    destruct (Rle_dec x (g (m - 1)%nat)) as [R|R].
    - destruct IH as (i & Hi & B); [lia|lra|]. exists i. split; [lia|exact B].
    - exists (m - 1)%nat. replace (S (m - 1)) with m by lia. replace (S m - 1)%nat with m in Hx by lia. split; [lia|lra]. }
  assert (RANGE : forall j, (j < n)%nat -> a <= a + INR j * step <= b).
  { intros j Hj. pose proof (linspace_range a b n j Q Hj Hn) as G. rewrite linspace_nth in G by exact Hj. exact G. }
  assert (SC : forall j, (j < n)%nat -> s j = c).
  { intros j Hj. destruct (COV (a + INR j * step) (fun i => nth i energies 0) (length energies) L2 (RANGE j Hj)) as (i & Hi & B). rewrite (SB j Hj i Hi B).
    assert (R : forall i, (i < length energies)%nat -> nth i (repeat c (length energies)) (rcx 0) = c) by (intros i' Hi'; rewrite (nth_indep _ _ c) by (now rewrite repeat_length); apply nth_repeat).
    rewrite !R by lia. destruct c. apply cx_eq; cbn; ring. }
  assert (YC : forall j, (j < n)%nat -> y j = c).
  { intros j Hj. apply cx_eq.
    - apply (lowpass_unique n _ (fun j => re (s j)) (fun j => re (y j)) (fun _ => re c) LR); [|exact Hj].
      intros k Hk. destruct (lowpass_const n _ (re c) LIM k Hk) as [A B]. split; [|exact B]. intros _. unfold cosamp, sinamp. split; apply rsum_ext; intros i Hi; now rewrite SC.
    - apply (lowpass_unique n _ (fun j => im (s j)) (fun j => im (y j)) (fun _ => im c) LI); [|exact Hj].
      intros k Hk. destruct (lowpass_const n _ (im c) LIM k Hk) as [A B]. split; [|exact B]. intros _. unfold cosamp, sinamp. split; apply rsum_ext; intros i Hi; now rewrite SC. }
  intros x Hx. destruct (COV x (fun j => a + INR j * step) n Hn) as (i & Hi & B).
  { cbv beta. change (INR 0) with 0. replace (a + INR (n - 1) * step) with b; [lra|]. unfold step. field. apply not_0_INR. lia. }
  rewrite (BT x Hx i Hi B). rewrite !YC by lia. destruct c. apply cx_eq; cbn; ring.
Qed.

(** The result in closed form. *)
Lemma lowpass_value n limit x y j : lowpass n limit x y -> (j < n)%nat ->
  y j = / INR n * rsum n (fun k => if slow_dec n limit k then cosamp n k x * re (w n k j) + sinamp n k x * im (w n k j) else 0).
Proof.
  intros H Hj. assert (Hn : (0 < n)%nat) by lia. assert (E : rcx (y j) = synth n (coef n (fun j => rcx (y j))) j) by (symmetry; exact (synth_coef n (fun j => rcx (y j)) j Hj)).
  apply (f_equal re) in E. cbn [re fst rcx] in E. rewrite E. unfold synth. cbn [cxmul rcx re im fst snd]. rewrite csum_re, Rmult_0_l, Rminus_0_r. f_equal. apply rsum_ext. intros k Hk.
  rewrite (coef_amp n y k Hn). destruct (H k Hk) as [A B]. destruct (slow_dec n limit k) as [S|S].
  - destruct (A S) as [-> ->]. cbn. ring.
  - destruct (B S) as [-> ->]. cbn. ring.
Qed.
Definition spike : list cx := (0, -1) :: repeat (rcx 0) 50.
Definition fine : list R := linspace 0 (1 / 2) 51.
Lemma spike_amp k : cosamp 51 k (fun j => im (nth j spike (rcx 0))) = -1 /\ sinamp 51 k (fun j => im (nth j spike (rcx 0))) = 0.
Proof.
  assert (Z : forall j, (j < 51)%nat -> j <> 0%nat -> nth j spike (rcx 0) = rcx 0) by (intros [|j] Hj Q; [lia|]; cbn [nth spike]; apply nth_repeat).
  unfold cosamp, sinamp. split; rewrite (rsum_single 51 _ 0%nat ltac:(lia)); try (intros j Hj Q; rewrite Z by auto; cbn [im snd rcx]; ring);
    change (INR 0) with 0; rewrite Rmult_0_r; unfold Rdiv; rewrite Rmult_0_l, ?cos_0, ?sin_0; cbn [spike nth im snd]; ring.
Qed.
Lemma overshoot : exists f, smooth fine spike 2 = Ok f /\ (forall s, In s spike -> im s <= 0) /\ 0 < im (f (1 / 4)).
Proof.
  assert (LF : length fine = 51%nat) by apply linspace_length. assert (I : increasing fine) by (apply linspace_increasing; [lra|lia]).
  assert (A0 : nth 0 fine 0 = 0) by (unfold fine; rewrite linspace_nth by lia; change (INR 0) with 0; rewrite Rmult_0_l; ring). assert (B0 : nth (length fine - 1) fine 0 = 1 / 2) by (rewrite LF; unfold fine; apply linspace_last; lia).
  destruct (smooth_ok fine spike 2 I ltac:(rewrite LF; reflexivity) ltac:(rewrite LF; lia) ltac:(rewrite A0, B0; lra)) as (n & f & s & y & E & Hn & PN & SB & _ & LI & FY & _). rewrite A0, B0 in *.
  assert (N : n = 51%nat). { assert (H1 : INR n <= 51) by lra. assert (H2 : 50 < INR n) by lra. replace 51 with (INR 51) in H1 by (cbn; ring). replace 50 with (INR 50) in H2 by (cbn; ring). apply INR_le in H1. apply INR_lt in H2. lia. }
  subst n. replace (INR (51 - 1)) with 50 in * by (cbn; ring). replace (INR 51) with 51 in LI by (cbn; ring).
  exists f. split; [exact E|]. split.
  { intros z [<-|Hz]; [cbn; lra|]. apply repeat_spec in Hz. subst. cbn. lra. }
  assert (SV : forall j, (j < 51)%nat -> s j = nth j spike (rcx 0)).
  { intros j Hj. rewrite LF in SB. apply (between_at (fun i => nth i fine 0) (fun i => nth i spike (rcx 0)) 51 j); [|exact Hj|lia|intros i Hi; apply I; rewrite ?LF; lia].
    replace (nth j fine 0) with (0 + INR j * ((1 / 2 - 0) / 50)); [now apply SB|]. unfold fine. rewrite linspace_nth by exact Hj. replace (INR (51 - 1)) with 50 by (cbn; ring). reflexivity. }
  replace (1 / 4) with (0 + INR 25 * ((1 / 2 - 0) / 50)) by (cbn; field). rewrite FY by lia.
  rewrite (lowpass_value 51 _ _ _ 25 LI ltac:(lia)).
  assert (AMP : forall k, cosamp 51 k (fun j => im (s j)) = -1 /\ sinamp 51 k (fun j => im (s j)) = 0).
  { intros k. destruct (spike_amp k) as [C S]. split; [refine (eq_trans _ C)|refine (eq_trans _ S)]; unfold cosamp, sinamp; apply rsum_ext; intros j Hj; now rewrite SV. }
  set (limit := 2 * (51 * ((1 / 2 - 0) / 50))). rewrite (rsum_ext 51 _ (fun k => if slow_dec 51 limit k then - re (w 51 k 25) else 0)).
  2:{ intros k _. destruct (AMP k) as [-> ->]. destruct (slow_dec 51 limit k); ring. }
  assert (SL : forall k, (k < 51)%nat -> (slow 51 limit k <-> (k <= 1 \/ 50 <= k)%nat)).
  { intros k Hk. unfold slow, limit. split.
    - intros H. assert (Nat.min k (51 - k) < 2)%nat; [|lia]. apply INR_lt. cbn [INR]. lra.
    - intros H. assert (M : (Nat.min k (51 - k) <= 1)%nat) by lia. apply le_INR in M. cbn [INR] in M. lra. }
  rewrite rsum_S, rsum_S_l, rsum_S_l.
  rewrite (rsum_0 48); [|intros i Hi; destruct (slow_dec 51 limit (S (S i))) as [S|S]; [apply SL in S; lia|reflexivity]].
  destruct (slow_dec 51 limit 0) as [_|S]; [|exfalso; apply S, SL; lia]. destruct (slow_dec 51 limit 1) as [_|S]; [|exfalso; apply S, SL; lia]. destruct (slow_dec 51 limit 50) as [_|S]; [|exfalso; apply S, SL; lia].
  assert (W50 : w 51 50 25 = cxconj (w 51 1 25)) by (exact (w_reflect 51 1 25 ltac:(lia))). rewrite W50.
  assert (W0 : re (w 51 0 25) = 1) by (unfold w; change (INR 0) with 0; rewrite Rmult_0_r, Rmult_0_l, cis_0; reflexivity).
  assert (W1 : re (w 51 1 25) < - (1 / 2)).
  { unfold w, cis. cbn [re fst]. replace (2 * PI / INR 51 * INR 1 * INR 25) with (PI - PI / 51) by (cbn; field). rewrite <- (cos_neg (PI - PI / 51)). replace (- (PI - PI / 51)) with (PI / 51 - PI) by ring.
    rewrite cos_minus, cos_PI, sin_PI. assert (C : 1 / 2 < cos (PI / 51)); [|lra]. rewrite <- cos_PI3. pose proof PI_RGT_0. apply cos_decreasing_1; lra. }
  assert (RC : forall z, re (cxconj z) = re z) by reflexivity. rewrite RC, W0. apply Rmult_lt_0_compat; [apply Rinv_0_lt_compat; cbn; lra|]. lra.
Qed.
