(** From the poles of zero_fermi to the integral over a Green's function. *)
From Coq Require Import Reals List Arith ZArith Bool Lia Lra Psatz.
From Verif Require Import Base RBase RLin CBase FermiModel FermiSpec LambertProofs FermiProofs.
Import ListNotations.
Local Open Scope R_scope.

(** ** The array loops *)
Lemma fold_shift n : forall z k, fold_left (fun zp i => set1 zp i (zp (i - 1)%nat)) (rev (seq 1 n)) z k = if ((1 <=? k) && (k <=? n))%nat then z (k - 1)%nat else z k.
Proof.
  induction n as [|n IH]; intros z k.
  - cbn [seq rev fold_left]. destruct (Nat.leb_spec 1 k), (Nat.leb_spec k 0); cbn [andb]; try reflexivity; lia.
  - rewrite seq_S, rev_app_distr. cbn [rev app fold_left]. rewrite IH. unfold set1. replace (1 + n)%nat with (S n) by lia.
    destruct (Nat.leb_spec 1 k), (Nat.leb_spec k n), (Nat.leb_spec k (S n)), (Nat.eqb_spec (k - 1) (S n)), (Nat.eqb_spec k (S n)); cbn [andb]; try lia; auto; subst; auto.
Qed.
Lemma fold_inv n : forall s z k, fold_left (fun zp i => set1 zp i (1 / zp i)) (seq s n) z k = if ((s <=? k) && (k <? s + n))%nat then 1 / z k else z k.
Proof.
  induction n as [|n IH]; intros s z k; cbn [seq fold_left].
  - destruct (Nat.leb_spec s k), (Nat.ltb_spec k (s + 0)); cbn [andb]; try reflexivity; lia.
  - rewrite IH. unfold set1. destruct (Nat.leb_spec (S s) k), (Nat.ltb_spec k (S s + n)), (Nat.leb_spec s k), (Nat.ltb_spec k (s + S n)), (Nat.eqb_spec k s); cbn [andb]; try lia; auto; subst; auto.
Qed.
Lemma fold_Rp (g : nat -> R) n : forall s z k, fold_left (fun Rp i => set1 Rp (S i) (g i)) (seq s n) z k = if ((s <? k) && (k <=? s + n))%nat then g (k - 1)%nat else z k.
Proof.
  induction n as [|n IH]; intros s z k; cbn [seq fold_left].
  - destruct (Nat.ltb_spec s k), (Nat.leb_spec k (s + 0)); cbn [andb]; try reflexivity; lia.
  - rewrite IH. unfold set1. destruct (Nat.ltb_spec (S s) k), (Nat.leb_spec k (S s + n)), (Nat.ltb_spec s k), (Nat.leb_spec k (s + S n)), (Nat.eqb_spec k (S s)); cbn [andb]; try lia; auto.
    subst. f_equal. lia.
Qed.

Lemma nth_mapseq (f : nat -> R) n : forall s k, (k < n)%nat -> nth k (map f (seq s n)) 0 = f (s + k)%nat.
Proof. intros s k Hk. rewrite (nth_indep _ 0 (f 0%nat)) by (rewrite map_length, seq_length; lia). rewrite map_nth, seq_nth by lia. reflexivity. Qed.
Lemma zero_fermi_closed geigh N vals cols : (0 < N)%nat -> geigh (2 * N)%nat (packed (fermi_A (2 * N))) (packed (fermi_B (2 * N))) = Ok (vals, cols) ->
  exists zp Rp, zero_fermi geigh N = Ok (zp, Rp) /\ length zp = N /\ length Rp = N /\
    forall k, (k < N)%nat -> nth k zp 0 = - (1 / nth k vals 0) /\
      nth k Rp 0 = - (nth 0 (nth k cols []) 0 * nth 0 (nth k cols []) 0 * (1 / nth k vals 0) * (1 / nth k vals 0) * (1 / 4)).
Proof.
  intros HN E. unfold zero_fermi. rewrite E. cbn [bind fst snd]. do 2 eexists. split; [reflexivity|].
  rewrite !map_length, seq_length. do 2 (split; [reflexivity|]). intros k Hk.
  assert (Z : forall i, (1 <= i)%nat -> (i <= 2 * N)%nat ->
     fold_left (fun zp i => set1 zp i (1 / zp i)) (seq 1 (2 * N)) (fold_left (fun zp i => set1 zp i (zp (i - 1)%nat)) (rev (seq 1 (2 * N))) (fun k => if (k <? 2 * N)%nat then nth k vals 0 else 0)) i = 1 / nth (i - 1) vals 0).
  { intros i H1 H2. rewrite fold_inv, fold_shift. destruct (Nat.leb_spec 1 i), (Nat.ltb_spec i (1 + 2 * N)), (Nat.leb_spec i (2 * N)), (Nat.ltb_spec (i - 1) (2 * N)); try lia. reflexivity. }
  rewrite !nth_mapseq by auto. rewrite fold_Rp. replace (1 + k - 1)%nat with k by lia. rewrite !Z by lia. replace (1 + k - 1)%nat with k by lia. replace (S k - 1)%nat with k by lia.
  destruct (Nat.ltb_spec 0 (1 + k)), (Nat.leb_spec (1 + k) (0 + 2 * N)); try lia. cbn [andb].
  split; [reflexivity|]. ring.
Qed.

(** ** The eigenvalue problem that the contract answers *)
Record fdata (N : nat) (lam : nat -> R) (v : nat -> nat -> R) : Prop := {
  fd_on : forall k l, (k < 2 * N)%nat -> (l < 2 * N)%nat -> rsum (2 * N) (fun i => (2 * INR i + 1) * v k i * v l i) = if (k =? l)%nat then 1 else 0;
  fd_ev : forall k i, (k < 2 * N)%nat -> (i < 2 * N)%nat -> rsum (2 * N) (fun j => adj i j * v k j) = lam k * ((2 * INR i + 1) * v k i);
  fd_as : forall j k, (j <= k)%nat -> (k < 2 * N)%nat -> lam j <= lam k }.
Lemma zero_fermi_data geigh N : geigh_contract geigh -> (0 < N)%nat ->
  exists lam v zp Rp, fdata N lam v /\ zero_fermi geigh N = Ok (zp, Rp) /\ length zp = N /\ length Rp = N /\
    forall k, (k < N)%nat -> nth k zp 0 = - (1 / lam k) /\ nth k Rp 0 = - (v k 0%nat * v k 0%nat * (1 / lam k) * (1 / lam k) * (1 / 4)).
Proof.
  intros GC HN. destruct (GC (2 * N)%nat (packed (fermi_A (2 * N))) (packed (fermi_B (2 * N)))) as (vals & cols & E & LV & LC & ON & EV & AS).
  - intros i j Hi Hj. rewrite !A_closed by auto. apply adj_sym.
  - intros i Hi. rewrite B_diag by auto. pose proof (pos_INR i). lra.
  - intros i j _ _ Nij. now apply B_off.
  - destruct (zero_fermi_closed geigh N vals cols HN E) as (zp & Rp & Z & LZ & LR & H).
    exists (fun k => nth k vals 0), (fun k i => nth i (nth k cols []) 0), zp, Rp. split; [|auto]. constructor; auto.
    + intros k l Hk Hl. rewrite <- (ON k l Hk Hl). apply rsum_ext. intros i Hi. now rewrite B_diag.
    + intros k i Hk Hi. rewrite <- B_diag with (M := (2 * N)%nat) by auto. rewrite <- (EV k i Hk Hi). apply rsum_ext. intros j Hj. now rewrite A_closed.
Qed.
Lemma fd_neg N lam v k : (0 < N)%nat -> fdata N lam v -> (k < N)%nat -> lam k < 0.
Proof. intros HN [O E A] Hk. eapply lam_neg; eauto. Qed.
Lemma fd_v0 N lam v k : (0 < N)%nat -> fdata N lam v -> (k < N)%nat -> 0 < v k 0%nat * v k 0%nat.
Proof.
  intros HN [O E A] Hk. pose proof (norm_pol N HN lam v O E A k ltac:(lia)) as Q. destruct (Req_dec (v k 0%nat) 0) as [Z|Z]; [rewrite Z in Q; lra|]. nra.
Qed.
Lemma fd_distinct N lam v j k : (0 < N)%nat -> fdata N lam v -> (j < k)%nat -> (k < 2 * N)%nat -> lam j < lam k.
Proof.
  intros HN [O E A] Hjk Hk. destruct (A j k ltac:(lia) Hk) as [L|L]; auto. exfalso.
  pose proof (O j k ltac:(lia) Hk) as Z. destruct (Nat.eqb_spec j k); [lia|].
  rewrite (rsum_ext _ _ (fun i => v j 0%nat * v k 0%nat * ((2 * INR i + 1) * (pol i (lam k) * pol i (lam k))))) in Z.
  2:{ intros i Hi. rewrite (comp_pol N HN lam v O E A j i), (comp_pol N HN lam v O E A k i), L by lia. ring. }
  rewrite rsum_scal_l in Z. pose proof (norm_pol N HN lam v O E A k Hk) as Qk. pose proof (norm_pol N HN lam v O E A j ltac:(lia)) as Qj. rewrite L in Qj.
  set (s := rsum (2 * N) (fun i => (2 * INR i + 1) * (pol i (lam k) * pol i (lam k)))) in *.
  assert (s <> 0) by (intros Z0; rewrite Z0 in Qk; lra). assert (v j 0%nat <> 0) by (intros Z0; rewrite Z0 in Qj; lra). assert (v k 0%nat <> 0) by (intros Z0; rewrite Z0 in Qk; lra).
  apply Rmult_integral in Z. destruct Z as [Z|Z]; [|lra]. apply Rmult_integral in Z. lra.
Qed.

(** ** Sums of complex numbers *)
Lemma cfold_sum f n : fold_left (fun acc i => cxadd acc (f i)) (seq 0 n) (rcx 0) = csum n f.
Proof.
  assert (G : forall m s a, fold_left (fun acc i => cxadd acc (f i)) (seq s m) a = (re a + rsum m (fun i => re (f (s + i)%nat)), im a + rsum m (fun i => im (f (s + i)%nat)))).
  { induction m as [|m IH]; intros s a.
    - cbn [seq fold_left]. apply cx_eq; cbn; symmetry; apply Rplus_0_r.
    - cbn [seq fold_left]. rewrite IH. cbn [re im cxadd fst snd]. rewrite !rsum_S_l, !Nat.add_0_r. apply cx_eq; cbn [re im fst snd]; rewrite Rplus_assoc; do 2 f_equal; apply rsum_ext; intros i _; do 2 f_equal; lia. }
  rewrite G. apply cx_eq; rewrite ?csum_re, ?csum_im; cbn [re im rcx fst snd]; apply Rplus_0_l.
Qed.
Lemma sqp b : b <> 0 -> 0 < b * b.
Proof. exact (Rlt_0_sqr b). Qed.
Lemma sqpp a b : b <> 0 -> 0 < a * a + b * b.
Proof. intros H. apply sqp in H. pose proof (Rle_0_sqr a) as Q. unfold Rsqr in Q. lra. Qed.
Lemma re_pole w e a b : b <> 0 -> re (cxdiv (rcx w) (cxsub (a, b) (rcx e))) = w * (a - e) / ((a - e) * (a - e) + b * b).
Proof. intros Hb. unfold cxdiv, cxinv, cxmul, cxsub, cxadd, cxopp, cxn2, rcx, re, im; cbn [fst snd]. pose proof (sqpp (a - e) b Hb). assert ((a - e) * (a - e) + b * b <> 0) by lra. field. repeat split; auto; intros Z; apply H0; rewrite <- Z; ring. Qed.
Lemma im_pole w e a b : b <> 0 -> im (cxdiv (rcx w) (cxsub (a, b) (rcx e))) = - (w * b) / ((a - e) * (a - e) + b * b).
Proof. intros Hb. unfold cxdiv, cxinv, cxmul, cxsub, cxadd, cxopp, cxn2, rcx, re, im; cbn [fst snd]. pose proof (sqpp (a - e) b Hb). assert ((a - e) * (a - e) + b * b <> 0) by lra. field. repeat split; auto; intros Z; apply H0; rewrite <- Z; ring. Qed.

(** ** The integral over a sum of poles *)
Section Integral.
Variables (m : nat) (w e : nat -> R) (gf : cx -> cx).
Hypothesis PF : pole_function m w e gf.
Lemma mu0_sum R : R <> 0 -> re (cxmul (cxmul ci (rcx R)) (gf (cxmul ci (rcx R)))) = rsum m (fun i => w i * (R * R / (R * R + e i * e i))).
Proof.
  intros HR. replace (cxmul ci (rcx R)) with ((0, R) : cx) by (apply cx_eq; unfold cxmul, ci, rcx, re, im; cbn [fst snd]; ring).
  rewrite PF by exact HR. set (c := csum m _). transitivity (- R * im c); [unfold cxmul, re, im; cbn [fst snd]; ring|]. unfold c. rewrite csum_im, <- rsum_scal_l. apply rsum_ext. intros i _.
  rewrite im_pole by auto. pose proof (sqpp (e i) R HR). field. lra.
Qed.
Lemma re_gf a b : b <> 0 -> re (gf (a, b)) = rsum m (fun i => w i * (a - e i) / ((a - e i) * (a - e i) + b * b)).
Proof. intros Hb. rewrite PF by exact Hb. rewrite csum_re. apply rsum_ext. intros i _. now rewrite re_pole. Qed.
(** The weight of one pole at distance [y] = e - mu with the i-th Fermi pole. *)
Lemma mu1_sum beta mu (z r : nat -> R) n : beta <> 0 -> (forall i, (i < n)%nat -> z i <> 0) ->
  im (cxmul (fold_left (fun acc i => cxadd acc (cxmul (gf (cxadd (rcx mu) (cxdiv (cxmul ci (rcx (z i))) (rcx beta)))) (rcx (r i)))) (seq 0 n) (rcx 0)) (cxdiv (cxmul (cxopp ci) (rcx 4)) (rcx beta)))
  = rsum m (fun a => w a * (beta * (mu - e a)) * rsum n (fun i => - 4 * r i / (beta * (mu - e a) * (beta * (mu - e a)) + z i * z i))).
Proof.
  intros Hb Hz. pose proof (sqp beta Hb) as Hb2. rewrite cfold_sum. set (c := csum n _). transitivity (- (4 / beta) * re c).
  { unfold cxmul, cxdiv, cxinv, cxmul, cxopp, cxn2, ci, rcx, re, im; cbn [fst snd]. field; auto. }
  unfold c. rewrite csum_re.
  rewrite (rsum_ext n _ (fun i => rsum m (fun a => w a * (mu - e a) / ((mu - e a) * (mu - e a) + z i / beta * (z i / beta)) * r i))).
  - rewrite rsum_swap, <- rsum_scal_l. apply rsum_ext. intros a _. rewrite <- !rsum_scal_l. apply rsum_ext. intros i Hi. specialize (Hz i Hi).
    pose proof (sqp (z i) Hz). pose proof (sqpp (beta * (mu - e a)) (z i) Hz). field. repeat split; lra.
  - intros i Hi. specialize (Hz i Hi). replace (cxadd (rcx mu) (cxdiv (cxmul ci (rcx (z i))) (rcx beta))) with ((mu, z i / beta) : cx).
    2:{ apply cx_eq; unfold cxadd, cxdiv, cxinv, cxmul, cxn2, ci, rcx, re, im; cbn [fst snd]; field; nra. }
    transitivity (re (gf (mu, z i / beta)) * r i); [unfold cxmul, rcx, re, im; cbn [fst snd]; ring|].
    assert (z i / beta <> 0) by (apply Rmult_integral_contrapositive_currified; auto; now apply Rinv_neq_0_compat). rewrite re_gf by auto. now rewrite rsum_scal_r.
Qed.
Theorem integrate_exact geigh N kB mu T Rarg : geigh_contract geigh -> (0 < N)%nat -> kB * T <> 0 ->
  integrate_gf geigh kB gf mu T N Rarg = Ok (rsum m (fun i => w i * ((radius * radius / (radius * radius + e i * e i) - tanh_cf (2 * N) ((e i - mu) / (2 * (kB * T)))) / 2))).
Proof.
  intros GC HN HT. destruct (zero_fermi_data geigh N GC HN) as (lam & v & zp & Rp & FD & Z & LZ & LR & ZR).
  assert (LN : forall k, (k < N)%nat -> lam k < 0) by (intros; eapply fd_neg; eauto).
  unfold integrate_gf. rewrite Z. cbn [bind fst snd]. f_equal.
  assert (Hb : 1 / (kB * T) <> 0) by (unfold Rdiv; rewrite Rmult_1_l; now apply Rinv_neq_0_compat).
  rewrite mu0_sum by (unfold radius; lra). rewrite mu1_sum; auto.
  2:{ intros i Hi. destruct (ZR i Hi) as [-> _]. specialize (LN i Hi). unfold Rdiv. rewrite Rmult_1_l. apply Ropp_neq_0_compat, Rinv_neq_0_compat. lra. }
  rewrite <- rsum_add. unfold Rdiv at 1. rewrite <- rsum_scal_r. apply rsum_ext. intros a _.
  set (x := 1 / (kB * T) * (mu - e a)).
  rewrite (rsum_ext N _ (fun i => v i 0%nat * v i 0%nat / (1 + x * x * (lam i * lam i)))).
  - destruct FD as [O E A]. rewrite (poles_cf N HN lam v O E A x). unfold tanh_cf. replace ((e a - mu) / (2 * (kB * T))) with (- (x / 2)) by (unfold x; field; split; intros Z0; apply HT; rewrite Z0; ring). rewrite lambert_even.
    assert (radius * radius + e a * e a <> 0) by (pose proof (sqpp (e a) radius ltac:(unfold radius; lra)); lra). field. auto.
  - intros i Hi. destruct (ZR i Hi) as [-> ->]. specialize (LN i Hi). assert (0 <= x * x * (lam i * lam i)) by (apply Rmult_le_pos; apply Rle_0_sqr). assert (lam i <> 0) by lra. pose proof (sqpp (x * lam i) 1 ltac:(lra)). pose proof (sqpp x (/ lam i) ltac:(now apply Rinv_neq_0_compat)). field. repeat split; auto; lra.
Qed.
End Integral.
