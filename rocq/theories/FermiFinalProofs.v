(** Accuracy of integrate_gf, arrays of chemical potentials, matsum_gf, and an
    exact generalised eigensolver. *)
From Coq Require Import Reals List Arith ZArith Bool Lia Lra Psatz.
From Verif Require Import Base RBase RLin CBase FermiModel FermiSpec LambertProofs FermiProofs FermiMoreProofs SpectralProofs EighProofs.
Import ListNotations.
Local Open Scope R_scope.

(** ** The error term *)
Lemma cf_bound_S m : forall j t, cf_bound (S m) j t = cf_bound m j t * (t / (2 * INR (j + m) + 1) * (t / (2 * INR (j + m) + 1))).
Proof.
  induction m as [|m IH]; intros j t.
  - cbn [cf_bound]. rewrite Nat.add_0_r. ring.
  - change (cf_bound (S (S m)) j t) with (t / (2 * INR j + 1) * (t / (2 * INR j + 1)) * cf_bound (S m) (S j) t). rewrite IH. cbn [cf_bound]. replace (S j + m)%nat with (j + S m)%nat by lia. ring.
Qed.
Lemma cf_bound_odd m t : cf_bound m 0 t = odd_product m t.
Proof. induction m as [|m IH]; [reflexivity|]. rewrite cf_bound_S, IH, Nat.add_0_l. reflexivity. Qed.
Lemma odd_product_nonneg m t : 0 <= odd_product m t.
Proof. induction m as [|m IH]; cbn [odd_product]; [lra|]. apply Rmult_le_pos; auto. apply Rle_0_sqr. Qed.
Lemma odd_product_tail t n0 : 2 * Rabs t <= 2 * INR n0 + 1 -> forall k, odd_product (n0 + k) t <= odd_product n0 t * (1 / 4) ^ k.
Proof.
  intros H. induction k as [|k IH]; [rewrite Nat.add_0_r; cbn; lra|]. rewrite Nat.add_succ_r. cbn [odd_product pow].
  assert (D : 0 < 2 * INR (n0 + k) + 1) by (pose proof (pos_INR (n0 + k)); lra).
  assert (L : 2 * Rabs t <= 2 * INR (n0 + k) + 1) by (rewrite plus_INR; pose proof (pos_INR k); lra).
  assert (Q : t / (2 * INR (n0 + k) + 1) * (t / (2 * INR (n0 + k) + 1)) <= 1 / 4).
  { set (x := t / (2 * INR (n0 + k) + 1)). assert (X : Rabs x <= 1 / 2).
    { unfold x, Rdiv. rewrite Rabs_mult, Rabs_inv, (Rabs_right (2 * INR (n0 + k) + 1)) by lra. apply Rmult_le_reg_r with (2 * INR (n0 + k) + 1); auto. rewrite Rmult_assoc, Rinv_l by lra. lra. }
    pose proof (Rabs_pos x). assert (x * x = Rabs x * Rabs x) by (rewrite <- Rabs_mult; symmetry; apply Rabs_right, Rle_ge, Rle_0_sqr). nra. }
  pose proof (odd_product_nonneg (n0 + k) t). pose proof (odd_product_nonneg n0 t). pose proof (Rle_0_sqr (t / (2 * INR (n0 + k) + 1))) as S0. unfold Rsqr in S0.
  apply Rle_trans with (odd_product (n0 + k) t * (1 / 4)); [apply Rmult_le_compat_l; auto|]. rewrite (Rmult_comm (1 / 4)), <- Rmult_assoc. apply Rmult_le_compat_r; lra.
Qed.
Lemma above x : exists n, x < INR n.
Proof.
  destruct (archimed (Rabs x)) as [H _]. pose proof (Rabs_pos x). exists (Z.to_nat (up (Rabs x))). rewrite INR_IZR_INZ, Z2Nat.id; [pose proof (Rle_abs x); lra|]. apply le_IZR. lra.
Qed.
Lemma odd_product_lim t eps : 0 < eps -> exists n0, forall n, (n0 <= n)%nat -> odd_product n t <= eps.
Proof.
  intros He. destruct (above (Rabs t)) as [n0 H0].
  destruct (pow_lt_1_zero (1 / 4) ltac:(rewrite Rabs_right; lra) (eps / (odd_product n0 t + 1))) as [k0 Hk].
  { apply Rdiv_lt_0_compat; auto. pose proof (odd_product_nonneg n0 t). lra. }
  exists (n0 + k0)%nat. intros n Hn. replace n with (n0 + (n - n0))%nat by lia. pose proof (odd_product_nonneg n0 t) as P.
  eapply Rle_trans; [apply odd_product_tail; lra|]. specialize (Hk (n - n0)%nat ltac:(lia)). rewrite Rabs_right in Hk by (apply Rle_ge, pow_le; lra).
  apply Rle_trans with ((odd_product n0 t + 1) * (1 / 4) ^ (n - n0)); [apply Rmult_le_compat_r; [apply pow_le; lra|lra]|].
  apply Rmult_lt_compat_l with (r := odd_product n0 t + 1) in Hk; [|lra]. replace ((odd_product n0 t + 1) * (eps / (odd_product n0 t + 1))) with eps in Hk by (field; lra). lra.
Qed.

Lemma occ_error N e mu y : let t := (e - mu) / (2 * y) in y <> 0 ->
  Rabs ((radius * radius / (radius * radius + e * e) - tanh_cf (2 * N) t) / 2 - fermi ((e - mu) / y)) <= (e * e / (radius * radius + e * e) + Rabs t * odd_product (2 * N) t) / 2.
Proof.
  intros t Hy. rewrite fermi_tanh. replace ((e - mu) / y / 2) with t by (unfold t; field; auto).
  pose proof (sqpp e radius ltac:(unfold radius; lra)) as D. pose proof (Rle_0_sqr e) as E0. unfold Rsqr in E0.
  assert (Q : radius * radius / (radius * radius + e * e) = 1 - e * e / (radius * radius + e * e)) by (field; lra). rewrite Q.
  assert (F : 0 <= e * e / (radius * radius + e * e)) by (apply Rmult_le_pos; auto; left; apply Rinv_0_lt_compat; lra). set (d := e * e / (radius * radius + e * e)) in *.
  destruct (tanh_cf_spec (2 * N) t) as (_ & _ & B). rewrite cf_bound_odd in B.
  replace ((1 - d - tanh_cf (2 * N) t) / 2 - (1 - tanh t) / 2) with ((tanh t - tanh_cf (2 * N) t + - d) / 2) by field.
  unfold Rdiv at 1. rewrite Rabs_mult, (Rabs_right (/ 2)) by lra. pose proof (Rabs_triang (tanh t - tanh_cf (2 * N) t) (- d)) as T. rewrite Rabs_Ropp, (Rabs_right d) in T by lra. lra.
Qed.
Theorem integrate_accuracy geigh kB gf mu T N Rarg m w e : geigh_contract geigh -> (0 < N)%nat -> kB * T <> 0 -> pole_function m w e gf ->
  exists x, integrate_gf geigh kB gf mu T N Rarg = Ok x /\
    Rabs (x - rsum m (fun i => w i * fermi ((e i - mu) / (kB * T)))) <=
      rsum m (fun i => Rabs (w i) * ((e i * e i / (radius * radius + e i * e i) + Rabs ((e i - mu) / (2 * (kB * T))) * odd_product (2 * N) ((e i - mu) / (2 * (kB * T)))) / 2)).
Proof.
  intros GC HN HT PF. eexists. split; [apply (integrate_exact m w e gf PF); auto|]. rewrite <- rsum_sub. eapply Rle_trans; [apply rsum_abs|]. apply rsum_le. intros i _.
  rewrite <- Rmult_minus_distr_l, Rabs_mult. apply Rmult_le_compat_l; [apply Rabs_pos|]. now apply occ_error.
Qed.
Lemma common m : forall (P : nat -> nat -> Prop), (forall i, (i < m)%nat -> exists n0, forall n, (n0 <= n)%nat -> P i n) -> exists n0, forall n i, (n0 <= n)%nat -> (i < m)%nat -> P i n.
Proof.
  induction m as [|m IH]; intros P H; [exists 0%nat; intros; lia|]. destruct (IH P ltac:(intros; apply H; lia)) as [a Ha]. destruct (H m ltac:(lia)) as [b Hb].
  exists (Nat.max a b). intros n i Hn Hi. destruct (Nat.eq_dec i m) as [->|]; [apply Hb; lia|apply Ha; lia].
Qed.
Theorem integrate_limit geigh kB gf mu T m w e : geigh_contract geigh -> kB * T <> 0 -> pole_function m w e gf ->
  forall eps, 0 < eps -> exists n0, forall N Rarg, (n0 <= N)%nat -> exists x, integrate_gf geigh kB gf mu T N Rarg = Ok x /\
    Rabs (x - rsum m (fun i => w i * fermi ((e i - mu) / (kB * T)))) <= rsum m (fun i => Rabs (w i) * (e i * e i / (radius * radius + e i * e i) / 2)) + eps.
Proof.
  intros GC HT PF eps He. set (t := fun i => (e i - mu) / (2 * (kB * T))).
  assert (POS : forall i, 0 < (INR m + 1) * (Rabs (w i) * Rabs (t i) + 1)).
  { intros i. pose proof (pos_INR m). pose proof (Rmult_le_pos _ _ (Rabs_pos (w i)) (Rabs_pos (t i))). apply Rmult_lt_0_compat; lra. }
  destruct (common m (fun i n => odd_product n (t i) <= eps / ((INR m + 1) * (Rabs (w i) * Rabs (t i) + 1)))) as [n0 H0].
  { intros i _. apply odd_product_lim. apply Rdiv_lt_0_compat; auto. }
  exists (S n0). intros N Rarg Hn. destruct (integrate_accuracy geigh kB gf mu T N Rarg m w e GC ltac:(lia) HT PF) as (x & E & B). exists x. split; auto. eapply Rle_trans; [exact B|].
  apply Rle_trans with (rsum m (fun i => Rabs (w i) * (e i * e i / (radius * radius + e i * e i) / 2) + eps / (INR m + 1))).
  - apply rsum_le. intros i Hi. fold (t i). specialize (H0 (2 * N)%nat i ltac:(lia) Hi). specialize (POS i). set (a := Rabs (w i) * Rabs (t i)) in *.
    assert (A0 : 0 <= a) by (apply Rmult_le_pos; apply Rabs_pos). pose proof (odd_product_nonneg (2 * N) (t i)) as P0. pose proof (pos_INR m).
    assert (AA : a * odd_product (2 * N) (t i) <= eps / (INR m + 1)).
    { apply Rle_trans with ((a + 1) * (eps / ((INR m + 1) * (a + 1)))); [apply Rmult_le_compat; lra|]. right. field. split; lra. }
    assert (E0 : 0 < eps / (INR m + 1)) by (apply Rdiv_lt_0_compat; lra).
    replace (Rabs (w i) * ((e i * e i / (radius * radius + e i * e i) + Rabs (t i) * odd_product (2 * N) (t i)) / 2)) with (Rabs (w i) * (e i * e i / (radius * radius + e i * e i) / 2) + a * odd_product (2 * N) (t i) / 2) by (unfold a, Rdiv; ring).
    lra.
  - rewrite rsum_add, rsum_const. pose proof (pos_INR m). apply Rplus_le_compat_l. apply Rle_trans with ((INR m + 1) * (eps / (INR m + 1))); [|right; field; lra].
    apply Rmult_le_compat_r; [left; apply Rdiv_lt_0_compat; lra|lra].
Qed.
(** One level: between the Fermi function and one half. *)
Theorem integrate_biased geigh kB gf mu T N Rarg e : geigh_contract geigh -> (0 < N)%nat -> 0 < kB * T -> pole_function 1 (fun _ => 1) (fun _ => e) gf ->
  exists x, integrate_gf geigh kB gf mu T N Rarg = Ok x /\ let y := x + e * e / (radius * radius + e * e) / 2 in
    (mu <= e -> fermi ((e - mu) / (kB * T)) <= y <= 1 / 2) /\ (e <= mu -> 1 / 2 <= y <= fermi ((e - mu) / (kB * T))).
Proof.
  intros GC HN HT PF. eexists. split; [apply (integrate_exact 1 _ _ gf PF); auto; lra|]. cbv zeta. rewrite rsum_S. change (rsum 0 _) with 0. cbv beta.
  set (t := (e - mu) / (2 * (kB * T))). rewrite fermi_tanh. replace ((e - mu) / (kB * T) / 2) with t by (unfold t; field; split; intros Z0; rewrite Z0 in HT; lra).
  pose proof (sqpp e radius ltac:(unfold radius; lra)) as D.
  replace (radius * radius / (radius * radius + e * e)) with (1 - e * e / (radius * radius + e * e)) by (field; lra).
  destruct (tanh_cf_spec N t) as (P & Q & _). assert (I : 0 < / (2 * (kB * T))) by (apply Rinv_0_lt_compat; lra).
  split; intros L.
  - assert (T0 : 0 <= t) by (unfold t, Rdiv; apply Rmult_le_pos; lra). specialize (P T0). lra.
  - assert (T0 : t <= 0). { unfold t, Rdiv. replace ((e - mu) * / (2 * (kB * T))) with (- ((mu - e) * / (2 * (kB * T)))) by ring. assert (0 <= (mu - e) * / (2 * (kB * T))) by (apply Rmult_le_pos; lra). lra. }
    specialize (Q T0). lra.
Qed.

(** ** Poles and residues *)
Theorem poles_shape geigh N : geigh_contract geigh -> (0 < N)%nat ->
  exists zp Rp, zero_fermi geigh N = Ok (zp, Rp) /\ length zp = N /\ length Rp = N /\
    (forall k, (k < N)%nat -> 0 < nth k zp 0 /\ nth k Rp 0 < 0) /\
    (forall j k, (j < k)%nat -> (k < N)%nat -> nth j zp 0 < nth k zp 0) /\
    forall x, rsum N (fun k => - 4 * nth k Rp 0 / (x * x + nth k zp 0 * nth k zp 0)) * x = tanh_cf (2 * N) (x / 2).
Proof.
  intros GC HN. destruct (zero_fermi_data geigh N GC HN) as (lam & v & zp & Rp & FD & Z & LZ & LR & ZR). exists zp, Rp. do 3 (split; auto).
  assert (LN : forall k, (k < N)%nat -> lam k < 0) by (intros; eapply fd_neg; eauto).
  split; [|split].
  - intros k Hk. destruct (ZR k Hk) as [-> ->]. specialize (LN k Hk). pose proof (fd_v0 N lam v k HN FD Hk) as V0. pose proof (Rinv_lt_0_compat _ LN) as I. unfold Rdiv. rewrite !Rmult_1_l. split; [lra|].
    assert (0 < v k 0%nat * v k 0%nat * (/ lam k * / lam k)) by (apply Rmult_lt_0_compat; auto; nra). nra.
  - intros j k Hjk Hk. destruct (ZR k Hk) as [-> _], (ZR j ltac:(lia)) as [-> _]. pose proof (LN k Hk). pose proof (LN j ltac:(lia)). pose proof (fd_distinct N lam v j k HN FD Hjk ltac:(lia)) as L.
    unfold Rdiv. rewrite !Rmult_1_l. apply Ropp_lt_contravar. apply Rinv_lt_contravar; nra.
  - intros x. rewrite (rsum_ext N _ (fun i => v i 0%nat * v i 0%nat / (1 + x * x * (lam i * lam i)))).
    + destruct FD as [O E A]. rewrite (poles_cf N HN lam v O E A x). unfold tanh_cf. field.
    + intros i Hi. destruct (ZR i Hi) as [-> ->]. specialize (LN i Hi). assert (lam i <> 0) by lra. pose proof (sqpp (x * lam i) 1 ltac:(lra)). pose proof (sqpp x (/ lam i) ltac:(now apply Rinv_neq_0_compat)). field. repeat split; auto; lra.
Qed.

(** ** Arrays of chemical potentials *)
Lemma fold_ext {A B} (f g : A -> B -> A) l : (forall x a, In x l -> f a x = g a x) -> forall a, fold_left f l a = fold_left g l a.
Proof. induction l as [|x l IH]; intros H a; cbn; [reflexivity|]. rewrite H by now left. apply IH. intros; apply H; now right. Qed.
Lemma map_seq_nth (f : R -> R) mus : map f mus = map (fun j => f (nth j mus 0)) (seq 0 (length mus)).
Proof.
  apply (nth_ext _ _ (f 0) (f 0)); [now rewrite !map_length, seq_length|]. intros n Hn. rewrite map_length in Hn. rewrite map_nth.
  rewrite (nth_indep _ (f 0) ((fun j => f (nth j mus 0)) 0%nat)) by (rewrite map_length, seq_length; auto). rewrite (map_nth (fun j => f (nth j mus 0))), seq_nth by auto. reflexivity.
Qed.
Theorem array_single geigh kB gf mus T N Rarg : length mus = 1%nat \/ N = 1%nat -> mus <> [] ->
  integrate_gf_array geigh kB gf mus T N Rarg = mapM (fun mu => integrate_gf geigh kB gf mu T N Rarg) mus.
Proof.
  intros C NE. unfold integrate_gf_array, integrate_gf. destruct (zero_fermi geigh N) as [[zp Rp]|x]; cbn [bind fst snd].
  2:{ destruct mus; [congruence|reflexivity]. }
  assert (MM : forall (f : R -> R) (l : list R), mapM (fun mu => Ok (f mu)) l = Ok (map f l)) by (intros f l; induction l as [|a l IH]; cbn; [reflexivity|now rewrite IH]).
  rewrite MM. f_equal. rewrite map_seq_nth. apply map_ext_in. intros j Hj. apply in_seq in Hj. do 4 f_equal.
  apply fold_ext. intros i acc Hi. apply in_seq in Hi. do 7 f_equal.
  destruct C as [C|C]; rewrite C in *.
  - replace (i * 1 + j)%nat with i by lia. rewrite Nat.mod_small; [reflexivity|lia].
  - replace i with 0%nat by lia. reflexivity.
Qed.
Theorem array_wrong geigh kB gf mu T N Rarg e : geigh_contract geigh -> (2 <= N)%nat -> kB * T <> 0 -> e <> mu -> pole_function 1 (fun _ => 1) (fun _ => e) gf ->
  exists xs, integrate_gf_array geigh kB gf (repeat mu N) T N Rarg = Ok xs /\ length xs = N /\ nth 0 xs 0 <> nth 1 xs 0.
Proof.
  intros GC HN HT Ne PF. destruct (poles_shape geigh N GC ltac:(lia)) as (zp & Rp & Z & LZ & LR & SG & INC & _).
  unfold integrate_gf_array. rewrite Z. cbn [bind fst snd]. rewrite repeat_length. eexists. split; [reflexivity|]. split; [now rewrite map_length, seq_length|].
  rewrite !nth_mapseq by lia.
  assert (Hb : 1 / (kB * T) <> 0) by (unfold Rdiv; rewrite Rmult_1_l; now apply Rinv_neq_0_compat).
  assert (COL : forall j, (j < N)%nat -> forall i, ((i * N + j) mod N)%nat = j) by (intros j Hj i; rewrite Nat.add_comm, Nat.mod_add by lia; now apply Nat.mod_small).
  assert (NM : forall j, (j < N)%nat -> nth j (repeat mu N) 0 = mu) by (intros j Hj; rewrite nth_indep with (d' := mu) by (rewrite repeat_length; auto); apply nth_repeat).
  assert (F : forall j, (j < N)%nat ->
     im (cxmul (fold_left (fun acc i => cxadd acc (cxmul (gf (cxadd (rcx (nth j (repeat mu N) 0)) (cxdiv (cxmul ci (rcx (nth ((i * N + j) mod N) zp 0))) (rcx (1 / (kB * T)))))) (rcx (nth i Rp 0)))) (seq 0 N) (rcx 0)) (cxdiv (cxmul (cxopp ci) (rcx 4)) (rcx (1 / (kB * T)))))
     = (1 / (kB * T) * (mu - e)) * (- 4 * rsum N (fun i => nth i Rp 0)) / (1 / (kB * T) * (mu - e) * (1 / (kB * T) * (mu - e)) + nth j zp 0 * nth j zp 0)).
  { intros j Hj. pose proof (mu1_sum 1 (fun _ => 1) (fun _ => e) gf PF (1 / (kB * T)) mu (fun i => nth ((i * N + j) mod N) zp 0) (fun i => nth i Rp 0) N Hb) as Q. rewrite NM by auto. rewrite Q.
    - rewrite rsum_S. change (rsum 0 _) with 0. rewrite (rsum_ext N _ (fun i => - 4 / (1 / (kB * T) * (mu - e) * (1 / (kB * T) * (mu - e)) + nth j zp 0 * nth j zp 0) * nth i Rp 0)) by (intros i _; rewrite COL by auto; unfold Rdiv; ring).
      rewrite rsum_scal_l. unfold Rdiv. ring.
    - intros i _. rewrite COL by auto. destruct (SG j Hj). lra. }
  rewrite !F by lia. set (X := 1 / (kB * T) * (mu - e)) in *.
  assert (HX : X <> 0) by (apply Rmult_integral_contrapositive_currified; auto; lra).
  assert (S0 : rsum N (fun i => nth i Rp 0) < 0).
  { replace N with (S (N - 1)) by lia. rewrite rsum_S. destruct (SG (N - 1)%nat ltac:(lia)) as [_ G1]. assert (rsum (N - 1) (fun i => nth i Rp 0) <= rsum (N - 1) (fun _ => 0)).
    { apply rsum_le. intros i Hi. destruct (SG i ltac:(lia)). lra. } rewrite (rsum_0 (N - 1) (fun _ => 0)) in H by auto. lra. }
  destruct (SG 0%nat ltac:(lia)) as [Z0 _]. pose proof (INC 0%nat 1%nat ltac:(lia) ltac:(lia)) as Z1. set (a := nth 0 zp 0) in *. set (b := nth 1 zp 0) in *. set (s := rsum N (fun i => nth i Rp 0)) in *.
  assert (DA : 0 < X * X + a * a) by (apply sqpp; lra). assert (DB : 0 < X * X + b * b) by (apply sqpp; lra).
  intros Q.
  assert (Q2 : X * (- 4 * s) / (X * X + a * a) = X * (- 4 * s) / (X * X + b * b)).
  { match type of Q with (?A + ?B) / 2 = (_ + ?C) / 2 => assert (Q0 : B = C) by lra end. exact Q0. }
  assert (C0 : X * (- 4 * s) <> 0) by (apply Rmult_integral_contrapositive_currified; [auto|lra]). set (c := X * (- 4 * s)) in *.
  assert (Q3 : c * (X * X + b * b) = c * (X * X + a * a)).
  { transitivity (c / (X * X + a * a) * (X * X + a * a) * (X * X + b * b)); [field; lra|]. rewrite Q2. field. lra. }
  apply Rmult_eq_reg_l in Q3; auto. nra.
Qed.

(** ** An exact generalised eigensolver *)
Definition real_geigh (M : nat) (A B : nat -> nat -> R) : res (list R * list (list R)) :=
  let ps := pairs M (fun i j => A i j / (sqrt (B i i) * sqrt (B j j))) M in
  Ok (map fst ps, map (fun p => map (fun i => snd p i / sqrt (B i i)) (seq 0 M)) ps).
Theorem real_geigh_contract : geigh_contract real_geigh.
Proof.
  intros M A B SA PB _. unfold real_geigh. set (H := fun i j => A i j / (sqrt (B i i) * sqrt (B j j))).
  assert (SH : sym M H) by (intros i j Hi Hj; unfold H; rewrite (SA i j Hi Hj), (Rmult_comm (sqrt (B i i))); reflexivity).
  destruct (pairs_spec M H M SH (le_n M)) as (O & EV & AS). set (ps := pairs M H M) in *.
  assert (LP : length ps = M) by apply pairs_length.
  assert (VAL : forall k, nth k (map fst ps) 0 = val_of ps k).
  { intros k. unfold val_of. change 0 with (fst (0, fun _ : nat => 0)) at 1. now rewrite map_nth. }
  assert (ENT : forall k i, (k < M)%nat -> (i < M)%nat -> nth i (nth k (map (fun p => map (fun i => snd p i / sqrt (B i i)) (seq 0 M)) ps) []) 0 = vec_of ps k i / sqrt (B i i)).
  { intros k i Hk Hi. rewrite (nth_indep _ [] ((fun p => map (fun i => snd p i / sqrt (B i i)) (seq 0 M)) (0, fun _ : nat => 0))) by (rewrite map_length; lia).
    rewrite (map_nth (fun p : R * (nat -> R) => map (fun i => snd p i / sqrt (B i i)) (seq 0 M))). rewrite nth_mapseq by auto. reflexivity. }
  assert (SQ : forall i, (i < M)%nat -> 0 < sqrt (B i i) /\ sqrt (B i i) * sqrt (B i i) = B i i) by (intros i Hi; specialize (PB i Hi); split; [now apply sqrt_lt_R0|apply sqrt_sqrt; lra]).
  eexists. eexists. split; [reflexivity|]. split; [now rewrite map_length|]. split; [now rewrite map_length|]. split; [|split].
  - intros k l Hk Hl. rewrite <- (O k l Hk Hl). apply rsum_ext. intros i Hi. rewrite !ENT by auto. destruct (SQ i Hi) as [S1 S2]. rewrite <- S2 at 1. field. lra.
  - intros k i Hk Hi. rewrite VAL, ENT by auto. destruct (SQ i Hi) as [S1 S2].
    transitivity (sqrt (B i i) * mv M H (vec_of ps k) i).
    + unfold mv. rewrite <- rsum_scal_l. apply rsum_ext. intros j Hj. rewrite ENT by auto. destruct (SQ j Hj) as [S3 _]. unfold H. field. lra.
    + rewrite EV by auto. transitivity (val_of ps k * (sqrt (B i i) * sqrt (B i i) * (vec_of ps k i / sqrt (B i i)))); [field; lra|now rewrite S2].
  - intros j k L Hk. rewrite !VAL. now apply (ascending_le (val_of ps) M).
Qed.
