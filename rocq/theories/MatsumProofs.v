(** matsum_gf: the Matsubara sum with a one-pole tail. *)
From Coq Require Import Reals List Arith ZArith Bool Lia Lra Psatz.
From Verif Require Import Base RBase RLin CBase FermiModel FermiSpec LambertProofs FermiMoreProofs.
Import ListNotations.
Local Open Scope R_scope.

Lemma last_of_map {A B} (f : A -> B) (g : nat -> A) n : last_of (map f (map g (seq 0 (S n)))) = Ok (f (g n)).
Proof.
  rewrite seq_S, !map_app. cbn [map Nat.add]. set (l := map f (map g (seq 0 n))). unfold last_of. destruct (l ++ [f (g n)]) eqn:E.
  - destruct l; discriminate.
  - rewrite <- E. now rewrite last_last.
Qed.
Lemma last_of_map1 {A} (g : nat -> A) n : last_of (map g (seq 0 (S n))) = Ok (g n).
Proof. rewrite <- (last_of_map (fun x => x) g n). now rewrite map_id. Qed.
Lemma elem_at_map {A} (g : nat -> A) n i : (i < n)%nat -> elem_at (map g (seq 0 n)) i = Ok (g i).
Proof. intros H. unfold elem_at. rewrite nth_error_map. rewrite (nth_error_nth' (seq 0 n) 0%nat) by now rewrite seq_length. rewrite seq_nth by auto. reflexivity. Qed.
Lemma foldM_sum (F : R -> nat -> res R) (f : nat -> R) n : forall s a, (forall acc i, (s <= i)%nat -> (i < s + n)%nat -> F acc i = Ok (acc + f i)) ->
  foldM F (seq s n) a = Ok (a + rsum n (fun i => f (s + i)%nat)).
Proof.
  induction n as [|n IH]; intros s a H; cbn [seq foldM].
  - change (rsum 0 _) with 0. now rewrite Rplus_0_r.
  - rewrite H by lia. cbn [bind]. rewrite IH by (intros; apply H; lia). f_equal. rewrite rsum_S_l, Nat.add_0_r, Rplus_assoc. do 2 f_equal. apply rsum_ext. intros i _. f_equal. lia.
Qed.
Lemma matsubara_pos beta i : 0 < beta -> 0 < matsubara beta i.
Proof. intros H. unfold matsubara. pose proof PI_RGT_0. pose proof (pos_INR i). apply Rdiv_lt_0_compat; auto. apply Rmult_lt_0_compat; lra. Qed.
Lemma z_point beta i : beta <> 0 -> cxdiv (cxmul (cxmul ci (rcx (2 * INR i + 1))) (rcx PI)) (rcx beta) = (0, matsubara beta i).
Proof. intros H. apply cx_eq; unfold cxdiv, cxinv, cxmul, cxn2, ci, rcx, re, im, matsubara; cbn [fst snd]; field; auto. Qed.

(** The closed form. *)
Definition tail_level (g : cx -> cx) beta L := - re (g (0, matsubara beta L)) * (matsubara beta L * matsubara beta L).
Definition matsum_value (g : cx -> cx) beta L :=
  2 / beta * rsum (S L) (fun i => re (g (0, matsubara beta i)) + tail_level g beta L / (tail_level g beta L * tail_level g beta L + matsubara beta i * matsubara beta i)) + fermi (beta * tail_level g beta L).
Lemma fermi_opp x : fermi x = 1 - fermi (- x).
Proof. unfold fermi. rewrite exp_Ropp. pose proof (exp_pos x). field. lra. Qed.
Theorem matsum_closed call g old mu L beta : 0 < beta -> (forall z, call mu z = Ok (map g z)) ->
  matsum_gf call old mu (S L) beta = (Ok (matsum_value g beta L), old).
Proof.
  intros Hb C. unfold matsum_gf. assert (E : matsum_body call mu (S L) beta = Ok (matsum_value g beta L)); [|now rewrite E].
  unfold matsum_body. rewrite (map_ext _ (fun i => (0, matsubara beta i) : cx)) by (intros i; apply z_point; lra). rewrite C. cbn [bind].
  rewrite last_of_map. cbn [bind]. rewrite last_of_map. cbn [bind]. fold (tail_level g beta L). change (im (0, matsubara beta L)) with (matsubara beta L). fold (tail_level g beta L). set (m := tail_level g beta L).
  rewrite map_length, seq_length. rewrite (foldM_sum _ (fun i => re (g (0, matsubara beta i)) + m / (m * m + matsubara beta i * matsubara beta i))).
  - cbn [bind]. f_equal. unfold matsum_value. fold m. rewrite (fermi_opp (beta * m)). unfold fermi. replace (- beta * m) with (- (beta * m)) by ring. cbn [Nat.add]. pose proof (exp_pos (- (beta * m))). field. lra.
  - intros acc i _ Hi. rewrite map_map, !map_map. rewrite (elem_at_map (fun x => g (0, matsubara beta x))), (elem_at_map (fun i => (0, matsubara beta i) : cx)), (elem_at_map (fun x => im (0, matsubara beta x) * im (0, matsubara beta x))) by lia. cbn [bind]. f_equal.
    pose proof (sqpp m (matsubara beta i) ltac:(pose proof (matsubara_pos beta i Hb); lra)). unfold cxsub, cxdiv, cxinv, cxmul, cxadd, cxopp, cxn2, rcx, re, im; cbn [fst snd]. field. lra.
Qed.
Theorem matsum_raises call old mu n beta x : (forall z, call mu z = Err x) -> matsum_gf call old mu n beta = (Err x, mu).
Proof. intros C. unfold matsum_gf, matsum_body. now rewrite C. Qed.
Theorem matsum_none call g old mu beta : (forall z, call mu z = Ok (map g z)) -> matsum_gf call old mu 0 beta = (Err IndexError, mu).
Proof. intros C. unfold matsum_gf, matsum_body. now rewrite C. Qed.

Theorem matsum_half g beta L : (forall i, re (g (0, matsubara beta i)) = 0) -> matsum_value g beta L = 1 / 2.
Proof.
  intros H. unfold matsum_value, tail_level. rewrite H. rewrite (rsum_0 (S L)). 
  - unfold fermi. replace (beta * (- 0 * (matsubara beta L * matsubara beta L))) with 0 by ring. rewrite exp_0, Rmult_0_r. lra.
  - intros i _. rewrite H. unfold Rdiv. ring.
Qed.
Theorem matsum_ph g g' beta L : (forall i, re (g' (0, matsubara beta i)) = - re (g (0, matsubara beta i))) -> matsum_value g beta L + matsum_value g' beta L = 1.
Proof.
  intros H. unfold matsum_value. assert (T : tail_level g' beta L = - tail_level g beta L) by (unfold tail_level; rewrite H; ring). rewrite T. set (m := tail_level g beta L).
  rewrite (fermi_opp (beta * m)). replace (beta * - m) with (- (beta * m)) by ring.
  rewrite (rsum_ext (S L) (fun i => re (g' _) + _) (fun i => -1 * (re (g (0, matsubara beta i)) + m / (m * m + matsubara beta i * matsubara beta i)))).
  - rewrite rsum_scal_l. ring.
  - intros i _. rewrite H. replace (- m * - m) with (m * m) by ring. unfold Rdiv. ring.
Qed.

(** ** One level: the tail makes the sum converge to the Fermi function *)
Lemma fermi_lip a b : Rabs (fermi a - fermi b) <= Rabs (a - b).
Proof.
  assert (W : forall a b, a <= b -> 0 <= fermi a - fermi b <= b - a).
  { clear. intros a b H. unfold fermi. pose proof (exp_pos a). pose proof (exp_pos b).
    assert (E : exp a <= exp b) by (destruct H as [H| ->]; [left; now apply exp_increasing|lra]).
    assert (G : exp a = exp (a - b) * exp b) by (rewrite <- exp_plus; f_equal; ring).
    assert (X : 1 - (b - a) <= exp (a - b)). { destruct (Req_dec (a - b) 0) as [Z|Z]; [rewrite Z, exp_0; lra|]. pose proof (exp_ineq1 (a - b) Z). lra. }
    replace (1 / (exp a + 1) - 1 / (exp b + 1)) with ((exp b - exp a) / ((exp a + 1) * (exp b + 1))) by (field; lra).
    assert (P : 0 < (exp a + 1) * (exp b + 1)) by (apply Rmult_lt_0_compat; lra).
    split; [apply Rmult_le_pos; [lra|left; now apply Rinv_0_lt_compat]|]. apply Rmult_le_reg_r with ((exp a + 1) * (exp b + 1)); auto. unfold Rdiv. rewrite Rmult_assoc, Rinv_l by lra.
    assert (Q : exp b - exp a <= (b - a) * exp b) by nra. assert (0 <= (b - a) * exp a * (exp b + 1)) by (apply Rmult_le_pos; [apply Rmult_le_pos|]; lra). nra. }
  destruct (Rle_dec a b) as [H|H].
  - specialize (W a b H). rewrite Rabs_right, Rabs_left1; lra.
  - specialize (W b a ltac:(lra)). rewrite Rabs_left1, Rabs_right; lra.
Qed.
Lemma inv_squares n : rsum (S n) (fun i => 1 / ((2 * INR i + 1) * (2 * INR i + 1))) <= 3 / 2 - 1 / (2 * (2 * INR n + 1)).
Proof.
  induction n as [|n IH].
  - rewrite rsum_S. change (rsum 0 _) with 0. cbn [INR]. lra.
  - rewrite rsum_S. eapply Rle_trans; [apply Rplus_le_compat_r, IH|]. rewrite S_INR. pose proof (pos_INR n). set (x := INR n) in *.
    assert (1 / ((2 * (x + 1) + 1) * (2 * (x + 1) + 1)) <= 1 / (2 * (2 * x + 1)) - 1 / (2 * (2 * (x + 1) + 1))); [|lra].
    replace (1 / (2 * (2 * x + 1)) - 1 / (2 * (2 * (x + 1) + 1))) with (1 / ((2 * x + 1) * (2 * (x + 1) + 1))) by (field; lra).
    unfold Rdiv. rewrite !Rmult_1_l. apply Rinv_le_contravar; nra.
Qed.
Lemma level_diff x m w2 : 0 < w2 -> Rabs (m / (m * m + w2) - x / (x * x + w2)) <= Rabs (m - x) / w2.
Proof.
  intros H. pose proof (Rle_0_sqr m) as M0. pose proof (Rle_0_sqr x) as X0. unfold Rsqr in *.
  replace (m / (m * m + w2) - x / (x * x + w2)) with ((m - x) * ((w2 - m * x) / ((m * m + w2) * (x * x + w2)))) by (field; lra).
  rewrite Rabs_mult. unfold Rdiv at 2. apply Rmult_le_compat_l; [apply Rabs_pos|].
  assert (D : 0 < (m * m + w2) * (x * x + w2)) by (apply Rmult_lt_0_compat; lra).
  unfold Rdiv. rewrite Rabs_mult, (Rabs_right (/ _)) by (left; now apply Rinv_0_lt_compat).
  apply Rmult_le_reg_r with ((m * m + w2) * (x * x + w2)); auto. rewrite Rmult_assoc, Rinv_l, Rmult_1_r by lra.
  apply Rmult_le_reg_l with w2; auto. rewrite <- Rmult_assoc, Rinv_r, Rmult_1_l by lra.
  assert (T : Rabs (w2 - m * x) <= w2 + (m * m + x * x) / 2).
  { apply Rabs_le. pose proof (Rle_0_sqr (m - x)). pose proof (Rle_0_sqr (m + x)). unfold Rsqr in *. split; lra. }
  apply Rle_trans with (w2 * (w2 + (m * m + x * x) / 2)); [apply Rmult_le_compat_l; lra|].
  assert (0 <= m * m * (x * x)) by (apply Rmult_le_pos; lra). assert (0 <= w2 * (m * m + x * x)) by (apply Rmult_le_pos; lra). lra.
Qed.
Theorem matsum_level g x beta L : 0 < beta -> (forall y, y <> 0 -> g (0, y) = cxdiv (rcx 1) (cxsub (0, y) (rcx x))) ->
  Rabs (matsum_value g beta L - fermi (beta * x)) <= Rabs (beta * x) ^ 3 / (2 * INR L + 1) ^ 2.
Proof.
  intros Hb G. set (w := matsubara beta L). assert (W : 0 < w) by now apply matsubara_pos.
  assert (RE : forall i, re (g (0, matsubara beta i)) = - (x / (x * x + matsubara beta i * matsubara beta i))).
  { intros i. pose proof (matsubara_pos beta i Hb). pose proof (sqpp x (matsubara beta i) ltac:(lra)). rewrite G by lra. rewrite re_pole by lra. replace ((0 - x) * (0 - x)) with (x * x) by ring. field. lra. }
  set (m := tail_level g beta L). pose proof (sqpp x w ltac:(lra)) as D.
  assert (MX : m - x = - (x * (x * x) / (x * x + w * w))) by (unfold m, tail_level; rewrite RE; fold w; field; lra).
  assert (ww : 0 < w * w) by nra.
  assert (MB : Rabs (m - x) <= Rabs x ^ 3 / (w * w)).
  { rewrite MX, Rabs_Ropp. unfold Rdiv. rewrite !Rabs_mult, (Rabs_right (/ (x * x + w * w))) by (left; now apply Rinv_0_lt_compat). replace (Rabs x ^ 3) with (Rabs x * (Rabs x * Rabs x)) by ring.
    apply Rmult_le_compat_l; [repeat apply Rmult_le_pos; apply Rabs_pos|]. apply Rinv_le_contravar; auto. pose proof (Rle_0_sqr x) as S0. unfold Rsqr in S0. lra. }
  pose proof PI_RGT_0 as P0. assert (P3 : 2 < PI) by (pose proof PI2_1; lra).
  unfold matsum_value. fold m. set (s := rsum (S L) _).
  assert (SB : Rabs s <= Rabs (m - x) * (beta * beta / (PI * PI) * (3 / 2))).
  { unfold s. eapply Rle_trans; [apply rsum_abs|]. apply Rle_trans with (rsum (S L) (fun i => Rabs (m - x) * (beta * beta / (PI * PI)) * (1 / ((2 * INR i + 1) * (2 * INR i + 1))))).
    - apply rsum_le. intros i _. rewrite RE. pose proof (matsubara_pos beta i Hb). set (f := matsubara beta i) in *. assert (F : 0 < f * f) by nra.
      replace (- (x / (x * x + f * f)) + m / (m * m + f * f)) with (m / (m * m + f * f) - x / (x * x + f * f)) by ring.
      eapply Rle_trans; [now apply level_diff|]. right. unfold f, matsubara. pose proof (pos_INR i). field. repeat split; lra.
    - rewrite rsum_scal_l, Rmult_assoc. apply Rmult_le_compat_l; [apply Rabs_pos|]. apply Rmult_le_compat_l; [left; apply Rdiv_lt_0_compat; nra|].
      eapply Rle_trans; [apply inv_squares|]. pose proof (pos_INR L). assert (0 < 1 / (2 * (2 * INR L + 1))) by (apply Rdiv_lt_0_compat; lra). lra. }
  replace (2 / beta * s + fermi (beta * m) - fermi (beta * x)) with (2 / beta * s + (fermi (beta * m) - fermi (beta * x))) by ring.
  eapply Rle_trans; [apply Rabs_triang|]. rewrite Rabs_mult, (Rabs_right (2 / beta)) by (left; apply Rdiv_lt_0_compat; lra).
  pose proof (fermi_lip (beta * m) (beta * x)) as FL. replace (beta * m - beta * x) with (beta * (m - x)) in FL by ring. rewrite Rabs_mult, (Rabs_right beta) in FL by lra.
  set (d := Rabs (m - x)) in *. assert (D0 : 0 <= d) by apply Rabs_pos.
  apply Rle_trans with (2 / beta * (d * (beta * beta / (PI * PI) * (3 / 2))) + beta * d).
  - apply Rplus_le_compat; auto. apply Rmult_le_compat_l; auto. left; apply Rdiv_lt_0_compat; lra.
  - replace (2 / beta * (d * (beta * beta / (PI * PI) * (3 / 2))) + beta * d) with (beta * d * (3 / (PI * PI) + 1)) by (field; lra).
    assert (PP : 4 < PI * PI) by nra. assert (C1 : 3 / (PI * PI) + 1 <= 2).
    { assert (3 / (PI * PI) <= 1); [|lra]. apply Rmult_le_reg_r with (PI * PI); [lra|]. unfold Rdiv. rewrite Rmult_assoc, Rinv_l by lra. lra. }
    assert (BD : 0 <= beta * d) by (apply Rmult_le_pos; lra).
    apply Rle_trans with (beta * d * 2); [apply Rmult_le_compat_l; auto|].
    apply Rle_trans with (beta * (Rabs x ^ 3 / (w * w)) * 2); [apply Rmult_le_compat_r; [lra|]; apply Rmult_le_compat_l; lra|].
    rewrite Rabs_mult, (Rabs_right beta) by lra. unfold w, matsubara. pose proof (pos_INR L). set (q := 2 * INR L + 1). assert (Q0 : 0 < q) by (unfold q; lra).
    assert (X3 : 0 <= Rabs x ^ 3) by (apply pow_le, Rabs_pos). assert (B3 : 0 <= beta ^ 3) by (apply pow_le; lra).
    replace (beta * (Rabs x ^ 3 / (q * PI / beta * (q * PI / beta))) * 2) with ((beta * Rabs x) ^ 3 / q ^ 2 * (2 / (PI * PI))) by (field; repeat split; lra).
    assert (C2 : 2 / (PI * PI) <= 1). { apply Rmult_le_reg_r with (PI * PI); [lra|]. unfold Rdiv. rewrite Rmult_assoc, Rinv_l by lra. lra. }
    assert (0 <= (beta * Rabs x) ^ 3 / q ^ 2) by (apply Rmult_le_pos; [apply pow_le, Rmult_le_pos; [lra|apply Rabs_pos]|left; apply Rinv_0_lt_compat, pow_lt; lra]).
    set (y := (beta * Rabs x) ^ 3 / q ^ 2) in *. nra.
Qed.
Theorem matsum_weight call w old mu L beta : 0 < beta -> (forall z, call mu z = Ok (map (fun z => cxdiv (rcx w) z) z)) ->
  matsum_gf call old mu (S L) beta = (Ok (1 / 2), old).
Proof.
  intros Hb C. rewrite (matsum_closed call (fun z => cxdiv (rcx w) z)) by auto. do 2 f_equal. apply matsum_half. intros i. pose proof (matsubara_pos beta i Hb) as P.
  unfold cxdiv, cxmul, cxinv, cxn2, rcx, re, im; cbn [fst snd]. field. nra.
Qed.
