(** Lemmas about sectors and their states. *)
From Coq Require Import List Arith NArith ZArith Lia Bool Sorted Factorial ZifyBool ZifyNat ZifyN Permutation.
From Verif Require Import Base OperatorsModel OperatorsSpec OperatorsProofs LookupModel LookupSpec
  LookupProofs SectorModel SectorSpec.
Import ListNotations.

(** ** Binomial coefficients *)

Lemma binom_0_r n : binom n 0 = 1.
Proof. now destruct n. Qed.

Lemma binom_gt n : forall k, n < k -> binom n k = 0.
Proof.
  induction n; intros [|k] H; simpl; try lia. rewrite !IHn; lia.
Qed.

Lemma binom_pos n : forall k, k <= n -> 0 < binom n k.
Proof.
  induction n; intros [|k] H; simpl; try lia.
  pose proof (IHn k ltac:(lia)). lia.
Qed.

Lemma binom_nn n : binom n n = 1.
Proof. induction n; simpl; auto. rewrite IHn, binom_gt; lia. Qed.

Lemma binom_fact n : forall k, k <= n -> binom n k * (fact k * fact (n - k)) = fact n.
Proof.
  induction n; intros k Hk.
  - assert (k = 0) by lia. now subst.
  - destruct k as [|k].
    + cbn [fact binom]. rewrite Nat.sub_0_r. simpl. lia.
    + cbn [binom]. replace (S n - S k) with (n - k) by lia.
      destruct (Nat.eq_dec k n) as [->|Hne].
      * rewrite binom_nn, (binom_gt n (S n)), Nat.sub_diag by lia. simpl. lia.
      * pose proof (IHn k ltac:(lia)) as H1. pose proof (IHn (S k) ltac:(lia)) as H2.
        replace (n - k) with (S (n - S k)) in * by lia.
        change (fact (S (n - S k))) with (S (n - S k) * fact (n - S k)) in *.
        change (fact (S k)) with (S k * fact k) in *.
        change (fact (S n)) with (S n * fact n). rewrite <- H2 at 1.
        set (f := fact k) in *. set (g := fact (n - S k)) in *.
        set (a := binom n k) in *. set (b := binom n (S k)) in *.
        assert (E : fact n = a * (f * (S (n - S k) * g))) by congruence.
        transitivity (S k * fact n + (n - k) * fact n); [|rewrite <- Nat.mul_add_distr_r; f_equal; lia].
        rewrite E at 1. rewrite <- H2.
        replace (n - k) with (S (n - S k)) by lia. ring.
Qed.

Lemma binom_is_binomial n k : is_binomial (binom n k) n k.
Proof.
  unfold is_binomial. destruct (Nat.leb_spec k n).
  - now apply binom_fact.
  - now apply binom_gt.
Qed.

(** ** Population count and binary splitting *)

Lemma popcount_split m : forall a r, (r < 2 ^ N.of_nat m)%N ->
  popcount (a * 2 ^ N.of_nat m + r) = popcount a + popcount r.
Proof.
  induction m; intros a r Hr.
  - simpl in *. assert (r = 0%N) by lia. subst. now rewrite N.mul_1_r, N.add_0_r, Nat.add_0_r.
  - rewrite pow2_S in *. destruct (N_parity r) as [q [-> | ->]].
    + replace (a * (2 * 2 ^ N.of_nat m) + 2 * q)%N with (2 * (a * 2 ^ N.of_nat m + q))%N by lia.
      rewrite !popcount_double. apply IHm. lia.
    + replace (a * (2 * 2 ^ N.of_nat m) + (2 * q + 1))%N
        with (2 * (a * 2 ^ N.of_nat m + q) + 1)%N by lia.
      rewrite !popcount_succ_double, IHm by lia. lia.
Qed.

Lemma popcount_mul_pow2 m a : popcount (a * 2 ^ N.of_nat m) = popcount a.
Proof.
  rewrite <- (N.add_0_r (a * _)). rewrite popcount_split.
  - rewrite popcount_0. lia.
  - pose proof (pow2_nz (N.of_nat m)). lia.
Qed.

Lemma popcount_ones k : popcount (2 ^ N.of_nat k - 1) = k.
Proof.
  induction k; [reflexivity|]. rewrite pow2_S.
  pose proof (pow2_nz (N.of_nat k)).
  replace (2 * 2 ^ N.of_nat k - 1)%N with (2 * (2 ^ N.of_nat k - 1) + 1)%N by lia.
  now rewrite popcount_succ_double, IHk.
Qed.

Lemma popcount_lower t : (2 ^ N.of_nat (popcount t) - 1 <= t)%N.
Proof.
  induction t as [|t IH|t IH] using N.binary_ind.
  - simpl; lia.
  - rewrite N.double_spec, popcount_double. lia.
  - rewrite N.succ_double_spec, popcount_succ_double, pow2_S. lia.
Qed.

Lemma popcount_upper t n : (t < 2 ^ N.of_nat n)%N -> popcount t <= n.
Proof.
  revert t; induction n; intros t H.
  - simpl in H. assert (t = 0)%N by lia. subst. auto.
  - rewrite pow2_S in H. destruct (N_parity t) as [a [-> | ->]].
    + rewrite popcount_double. pose proof (IHn a ltac:(lia)). lia.
    + rewrite popcount_succ_double. pose proof (IHn a ltac:(lia)). lia.
Qed.

Lemma popcount_pos t : (0 < t)%N -> 0 < popcount t.
Proof.
  intros H. destruct (Nat.eq_dec (popcount t) 0) as [E|]; [|lia]. exfalso.
  destruct t as [|p]; [lia|]. cbn [popcount] in E. clear H.
  induction p; cbn [pos_popcount] in E; lia.
Qed.

(** ** The successor of a bit pattern *)

(** Shape [a 0 1^k 0^m]. *)
Definition shape (a : N) (k m : nat) : N :=
  (a * 2 ^ N.of_nat (k + m + 1) + (2 ^ N.of_nat k - 1) * 2 ^ N.of_nat m)%N.

Definition shape_next (a : N) (k m : nat) : N :=
  (a * 2 ^ N.of_nat (k + m + 1) + 2 ^ N.of_nat (k + m) + (2 ^ N.of_nat (k - 1) - 1))%N.

Lemma pow2_add a b : (2 ^ N.of_nat (a + b) = 2 ^ N.of_nat a * 2 ^ N.of_nat b)%N.
Proof. rewrite Nat2N.inj_add. apply N.pow_add_r. Qed.

Lemma pow2_pos n : (0 < 2 ^ N.of_nat n)%N.
Proof. pose proof (pow2_nz (N.of_nat n)). lia. Qed.

Lemma pow2_0 : (2 ^ N.of_nat 0 = 1)%N. Proof. reflexivity. Qed.
Lemma pow2_1 : (2 ^ N.of_nat 1 = 2)%N. Proof. reflexivity. Qed.

Lemma shape_exists x : (0 < x)%N -> exists a k m, 1 <= k /\ x = shape a k m.
Proof.
  induction x as [|x IH|x IH] using N.binary_ind; intros H; [lia| |].
  - rewrite N.double_spec in *. destruct IH as [a [k [m [Hk E]]]]; [lia|].
    exists a, k, (S m). split; auto. rewrite E. unfold shape.
    replace (k + S m + 1) with (S (k + m + 1)) by lia. rewrite !pow2_S. lia.
  - rewrite N.succ_double_spec. destruct (N.eq_dec x 0) as [->|Hx].
    + exists 0%N, 1, 0. split; auto.
    + destruct IH as [a [k [m [Hk E]]]]; [lia|].
      destruct m as [|m].
      * exists a, (S k), 0. split; [lia|]. rewrite E. unfold shape.
        rewrite !Nat.add_0_r, !pow2_0.
        replace (S k + 1) with (S (k + 1)) by lia. rewrite !pow2_S.
        pose proof (pow2_pos k). lia.
      * exists (shape a k m), 1, 0. split; auto. rewrite E.
        unfold shape. replace (k + S m + 1) with (S (k + m + 1)) by lia.
        rewrite !pow2_S. change (N.of_nat (1 + 0 + 1)) with 2%N. change (2^2)%N with 4%N.
        change (2 ^ N.of_nat 1)%N with 2%N. change (2 ^ N.of_nat 0)%N with 1%N. lia.
Qed.

Lemma shape_parts_lt k m : 1 <= k ->
  ((2 ^ N.of_nat k - 1) * 2 ^ N.of_nat m < 2 ^ N.of_nat (k + m + 1))%N.
Proof.
  intros Hk. rewrite !pow2_add, pow2_1. pose proof (pow2_pos k). pose proof (pow2_pos m). nia.
Qed.

Lemma shape_popcount a k m : 1 <= k -> popcount (shape a k m) = popcount a + k.
Proof.
  intros Hk. unfold shape. rewrite popcount_split by now apply shape_parts_lt.
  rewrite popcount_mul_pow2, popcount_ones. lia.
Qed.

Lemma shape_next_popcount a k m : 1 <= k -> popcount (shape_next a k m) = popcount a + k.
Proof.
  intros Hk. unfold shape_next. pose proof (pow2_pos (k - 1)). pose proof (pow2_pos k). pose proof (pow2_pos m).
  assert (Hlt : (2 ^ N.of_nat (k - 1) - 1 < 2 ^ N.of_nat (k + m))%N).
  { assert (2 ^ N.of_nat (k-1) <= 2 ^ N.of_nat (k+m))%N by (apply N.pow_le_mono_r; lia). lia. }
  rewrite Nat.add_1_r, pow2_S.
  replace (a * (2 * 2 ^ N.of_nat (k + m)) + 2 ^ N.of_nat (k + m) + (2 ^ N.of_nat (k - 1) - 1))%N
    with ((2 * a + 1) * 2 ^ N.of_nat (k + m) + (2 ^ N.of_nat (k - 1) - 1))%N by lia.
  rewrite popcount_split by auto. rewrite popcount_succ_double, popcount_ones. lia.
Qed.

Lemma shape_lt_next a k m : 1 <= k -> (shape a k m < shape_next a k m)%N.
Proof.
  intros Hk. unfold shape, shape_next. rewrite (pow2_add k m).
  pose proof (pow2_pos k). pose proof (pow2_pos m). nia.
Qed.

Lemma shape_next_minimal a k m y : 1 <= k ->
  (shape a k m < y)%N -> (y < shape_next a k m)%N -> popcount y <> popcount a + k.
Proof.
  intros Hk H1 H2. unfold shape, shape_next in *.
  destruct (N.lt_ge_cases y (a * 2 ^ N.of_nat (k + m + 1) + 2 ^ N.of_nat (k + m))) as [L|L].
  - (* same top part, extra low bits *)
    set (t := (y - (a * 2 ^ N.of_nat (k + m + 1) + (2 ^ N.of_nat k - 1) * 2 ^ N.of_nat m))%N).
    pose proof (pow2_pos k). pose proof (pow2_pos m).
    assert (Ht : (0 < t < 2 ^ N.of_nat m)%N).
    { unfold t. rewrite (pow2_add k m) in L. nia. }
    assert (E : y = ((a * 2 ^ N.of_nat (k + 1) + (2 ^ N.of_nat k - 1)) * 2 ^ N.of_nat m + t)%N).
    { unfold t. replace (k + m + 1) with ((k + 1) + m) in * by lia.
      rewrite (pow2_add (k+1) m) in *. lia. }
    rewrite E, popcount_split by lia.
    rewrite popcount_split, popcount_ones.
    + pose proof (popcount_pos t ltac:(lia)). lia.
    + rewrite pow2_add, pow2_1. lia.
  - set (t := (y - (a * 2 ^ N.of_nat (k + m + 1) + 2 ^ N.of_nat (k + m)))%N).
    assert (Ht : (t < 2 ^ N.of_nat (k - 1) - 1)%N) by (unfold t; lia).
    assert (Hlt : (t < 2 ^ N.of_nat (k + m))%N).
    { assert (2 ^ N.of_nat (k-1) <= 2 ^ N.of_nat (k+m))%N by (apply N.pow_le_mono_r; lia). lia. }
    assert (E : y = ((2 * a + 1) * 2 ^ N.of_nat (k + m) + t)%N).
    { unfold t. rewrite Nat.add_1_r, pow2_S in *. lia. }
    rewrite E, popcount_split by auto. rewrite popcount_succ_double.
    intros C. assert (Hp : popcount t = k - 1) by lia.
    pose proof (popcount_lower t) as Hl. rewrite Hp in Hl. lia.
Qed.

(** ** The machine computation of the successor *)

Lemma lxor_common a m r1 r2 : (r1 < 2 ^ N.of_nat m)%N -> (r2 < 2 ^ N.of_nat m)%N ->
  N.lxor (a * 2 ^ N.of_nat m + r1) (a * 2 ^ N.of_nat m + r2) = N.lxor r1 r2.
Proof.
  intros H1 H2.
  assert (S : forall r, (r < 2 ^ N.of_nat m)%N ->
     (a * 2 ^ N.of_nat m + r = N.lxor (N.shiftl a (N.of_nat m)) r)%N).
  { intros r Hr. rewrite N.shiftl_mul_pow2. apply N.add_nocarry_lxor.
    rewrite <- N.shiftl_mul_pow2. apply N.bits_inj_0. intros q. rewrite N.land_spec.
    destruct (N.lt_ge_cases q (N.of_nat m)).
    - now rewrite N.shiftl_spec_low.
    - rewrite andb_comm. replace (N.testbit r q) with false; auto.
      symmetry. rewrite <- (N2Nat.id q). apply (occ_high r m); auto. lia. }
  rewrite (S r1), (S r2) by auto.
  rewrite N.lxor_assoc, (N.lxor_comm r1), <- !N.lxor_assoc, N.lxor_nilpotent, N.lxor_0_l.
  apply N.lxor_comm.
Qed.

Lemma land_2b1 b c : N.land (2 * b + 1) (2 * c + 1) = (2 * N.land b c + 1)%N.
Proof. rewrite <- !N.succ_double_spec. destruct b, c; reflexivity. Qed.

Lemma land_neg x b m w : x = ((2 * b + 1) * 2 ^ N.of_nat m)%N -> (x < 2 ^ N.of_nat w)%N ->
  N.land x (2 ^ N.of_nat w - x) = (2 ^ N.of_nat m)%N.
Proof.
  intros Hx Hw.
  assert (Hm : m < w).
  { destruct (Nat.lt_ge_cases m w); auto. exfalso.
    assert (2 ^ N.of_nat w <= 2 ^ N.of_nat m)%N by (apply N.pow_le_mono_r; lia). nia. }
  assert (Ew : (2 ^ N.of_nat w = 2 * 2 ^ N.of_nat (w - 1 - m) * 2 ^ N.of_nat m)%N).
  { replace w with (S ((w - 1 - m) + m)) at 1 by lia. rewrite pow2_S, pow2_add. lia. }
  pose proof (pow2_pos m). pose proof (pow2_pos (w-1-m)).
  assert (Hb : (b < 2 ^ N.of_nat (w - 1 - m))%N) by nia.
  set (d := N.lnot b (N.of_nat (w - 1 - m))).
  assert (Hlog : b = 0%N \/ (N.log2 b < N.of_nat (w - 1 - m))%N).
  { destruct (N.eq_dec b 0); auto. right. apply N.log2_lt_pow2; lia. }
  assert (Hd : d = (2 ^ N.of_nat (w - 1 - m) - 1 - b)%N).
  { unfold d. destruct Hlog as [->|Hlog].
    - rewrite N.lnot_0_l, N.ones_equiv. lia.
    - rewrite N.lnot_sub_low by auto. rewrite N.ones_equiv. lia. }
  assert (Hl : N.land b d = 0%N).
  { unfold d. destruct Hlog as [->|Hlog]; [apply N.land_0_l|]. now apply N.land_lnot_diag_low. }
  assert (En : (2 ^ N.of_nat w - x = (2 * d + 1) * 2 ^ N.of_nat m)%N) by nia.
  rewrite En, Hx, <- !N.shiftl_mul_pow2, <- N.shiftl_land, land_2b1, Hl.
  rewrite N.shiftl_mul_pow2. lia.
Qed.

Lemma u64_small x : (x < 2^64)%N -> u64 x = x.
Proof. intros; unfold u64; now apply N.mod_small. Qed.

Lemma shape_odd a k m : 1 <= k ->
  shape a k m = ((2 * (a * 2 ^ N.of_nat k + (2 ^ N.of_nat (k - 1) - 1)) + 1) * 2 ^ N.of_nat m)%N.
Proof.
  intros Hk. unfold shape. replace (k + m + 1) with (S k + m) by lia.
  rewrite pow2_add, pow2_S.
  assert (E : (2 ^ N.of_nat k = 2 * 2 ^ N.of_nat (k - 1))%N).
  { replace k with (S (k - 1)) at 1 by lia. apply pow2_S. }
  rewrite E. pose proof (pow2_pos (k - 1)). nia.
Qed.

Lemma perm_step_shape a k m : 1 <= k -> (shape_next a k m < 2^32)%N ->
  perm_step (shape a k m) = Ok (shape_next a k m).
Proof.
  intros Hk Hlt. pose proof (shape_lt_next a k m Hk) as Hx.
  set (x := shape a k m) in *.
  assert (Hkm : k + m < 32).
  { destruct (Nat.lt_ge_cases (k + m) 32); auto. exfalso. unfold shape_next in Hlt.
    assert (2 ^ 32 <= 2 ^ N.of_nat (k + m))%N by (apply N.pow_le_mono_r; lia). lia. }
  unfold perm_step.
  assert (Hx32 : (x < 2^32)%N) by lia.
  assert (Hx64 : (x < 2^64)%N) by (eapply N.lt_trans; [exact Hx32|reflexivity]).
  assert (Hx0 : (0 < x)%N).
  { unfold x, shape. pose proof (pow2_pos m).
    assert (2 ^ N.of_nat 1 <= 2 ^ N.of_nat k)%N by (apply N.pow_le_mono_r; lia).
    rewrite pow2_1 in *. nia. }
  rewrite (u64_small (2^64 - x)) by lia.
  change (2^64)%N with (2 ^ N.of_nat 64)%N.
  erewrite (land_neg x _ m 64) by
    (unfold x; first [exact (shape_odd a k m Hk) | exact Hx64]).
  assert (Hv : (2 ^ N.of_nat m + x = a * 2 ^ N.of_nat (k + m + 1) + 2 ^ N.of_nat (k + m))%N).
  { unfold x, shape. rewrite (pow2_add k m). pose proof (pow2_pos k). nia. }
  rewrite Hv.
  rewrite (u64_small (a * 2 ^ N.of_nat (k + m + 1) + 2 ^ N.of_nat (k + m))) by
    (unfold shape_next in Hlt; eapply N.le_lt_trans with (m := (2^32)%N); [lia|reflexivity]).
  replace (2 ^ N.of_nat m =? 0)%N with false by (symmetry; apply N.eqb_neq; auto).
  assert (Hxor : (N.lxor (a * 2 ^ N.of_nat (k + m + 1) + 2 ^ N.of_nat (k + m)) x
                 = (2 ^ N.of_nat (k + 1) - 1) * 2 ^ N.of_nat m)%N).
  { unfold x, shape. rewrite lxor_common.
    - assert (L : ((2 ^ N.of_nat k - 1) * 2 ^ N.of_nat m < 2 ^ N.of_nat (k + m))%N).
      { rewrite (pow2_add k m). pose proof (pow2_pos k). pose proof (pow2_pos m). nia. }
      rewrite <- N.add_nocarry_lxor.
      + rewrite !pow2_add, pow2_1. pose proof (pow2_pos k). pose proof (pow2_pos m). nia.
      + apply N.bits_inj_0. intros q. rewrite N.land_spec, N.pow2_bits_eqb.
        destruct (N.eqb_spec (N.of_nat (k + m)) q) as [<-|]; auto. cbn [andb].
        apply (occ_high _ (k + m)); auto.
    - rewrite !pow2_add, pow2_1. pose proof (pow2_pos k). pose proof (pow2_pos m). nia.
    - now apply shape_parts_lt. }
  rewrite Hxor, N.div_mul by auto.
  rewrite u32_small.
  2:{ assert (2 ^ N.of_nat (k + 1) <= 2 ^ 32)%N by (apply N.pow_le_mono_r; lia).
      pose proof (pow2_pos (k+1)). lia. }
  assert (Hs : N.shiftr (2 ^ N.of_nat (k + 1) - 1) 2 = (2 ^ N.of_nat (k - 1) - 1)%N).
  { rewrite N.shiftr_div_pow2. change (2^2)%N with 4%N.
    assert (E : (2 ^ N.of_nat (k + 1) = 4 * 2 ^ N.of_nat (k - 1))%N).
    { replace (k + 1) with (S (S (k - 1))) by lia. rewrite !pow2_S. lia. }
    rewrite E. pose proof (pow2_pos (k - 1)).
    symmetry. apply (N.div_unique _ 4 _ 3); lia. }
  rewrite Hs. rewrite u64_small.
  - reflexivity.
  - unfold shape_next in Hlt. eapply N.lt_trans; [exact Hlt|reflexivity].
Qed.

(** ** All states of a sector, by recursion on the top orbital *)

Fixpoint cand (n p : nat) : list N :=
  match n with
  | O => match p with O => [0%N] | S _ => [] end
  | S n => cand n p ++
           match p with O => [] | S p => map (fun s => (2 ^ N.of_nat n + s)%N) (cand n p) end
  end.

Lemma cand_length n : forall p, length (cand n p) = binom n p.
Proof.
  induction n; intros p; simpl.
  - now destruct p.
  - rewrite app_length, IHn. destruct p; simpl; [rewrite binom_0_r; lia|].
    rewrite map_length, IHn. lia.
Qed.

Lemma popcount_top n s : (s < 2 ^ N.of_nat n)%N ->
  popcount (2 ^ N.of_nat n + s) = S (popcount s).
Proof.
  intros H. replace (2 ^ N.of_nat n + s)%N with (1 * 2 ^ N.of_nat n + s)%N by lia.
  now rewrite popcount_split.
Qed.

Lemma cand_In n : forall p s, In s (cand n p) <-> in_sector n p s.
Proof.
  unfold in_sector. induction n; intros p s; cbn [cand].
  - simpl. destruct p; simpl.
    + split; [intros [<-|[]]; simpl; lia|]. intros [H _]. left. lia.
    + split; [tauto|]. intros [H H2]. assert (s = 0%N) by lia. subst. discriminate.
  - rewrite in_app_iff, IHn, pow2_S. split.
    + intros [[H1 H2]|H]; [split; auto; lia|].
      destruct p as [|p]; [destruct H|]. apply in_map_iff in H.
      destruct H as [t [<- Ht]]. apply IHn in Ht. destruct Ht as [Ht1 Ht2].
      rewrite popcount_top by auto. split; [lia|now f_equal].
    + intros [H1 H2]. destruct (N.lt_ge_cases s (2 ^ N.of_nat n)) as [L|L]; [auto|right].
      assert (E : s = (2 ^ N.of_nat n + (s - 2 ^ N.of_nat n))%N) by lia.
      assert (Hlt : (s - 2 ^ N.of_nat n < 2 ^ N.of_nat n)%N) by lia.
      rewrite E, popcount_top in H2 by auto. destruct p as [|p]; [discriminate|].
      apply in_map_iff. exists (s - 2 ^ N.of_nat n)%N. split; [lia|].
      apply IHn. split; auto.
Qed.

Lemma StronglySorted_app (l1 l2 : list N) : increasing l1 -> increasing l2 ->
  (forall x y, In x l1 -> In y l2 -> (x < y)%N) -> increasing (l1 ++ l2).
Proof.
  intros H1 H2 H. induction H1; simpl; auto. constructor.
  - apply IHStronglySorted. intros; apply H; simpl; auto.
  - rewrite Forall_forall in *. intros y Hy. apply in_app_iff in Hy. destruct Hy; auto.
    apply H; simpl; auto.
Qed.

Lemma increasing_map_add c l : increasing l -> increasing (map (fun s => (c + s)%N) l).
Proof.
  intros H. induction H; simpl; constructor; auto.
  rewrite Forall_forall in *. intros y Hy. apply in_map_iff in Hy. destruct Hy as [t [<- Ht]].
  specialize (H0 _ Ht). lia.
Qed.

Lemma cand_increasing n : forall p, increasing (cand n p).
Proof.
  induction n; intros p; cbn [cand].
  - destruct p; repeat constructor.
  - destruct p as [|p]; [rewrite app_nil_r; apply IHn|].
    apply StronglySorted_app; auto using increasing_map_add.
    intros x y Hx Hy. apply cand_In in Hx. apply in_map_iff in Hy. destruct Hy as [t [<- _]].
    destruct Hx. lia.
Qed.

Lemma increasing_ext l1 l2 : increasing l1 -> increasing l2 ->
  (forall x, In x l1 <-> In x l2) -> l1 = l2.
Proof.
  intros H1. revert l2. induction H1 as [|a l HS IH HF]; intros l2 H2 E.
  - destruct l2 as [|b l2]; auto. exfalso. apply (proj2 (E b)). simpl; auto.
  - destruct H2 as [|b l2 HS2 HF2].
    + exfalso. apply (proj1 (E a)). simpl; auto.
    + rewrite Forall_forall in HF, HF2.
      assert (a = b).
      { destruct (proj1 (E a) ltac:(simpl; auto)) as [|Ha]; auto.
        destruct (proj2 (E b) ltac:(simpl; auto)) as [|Hb]; auto.
        specialize (HF _ Hb). specialize (HF2 _ Ha). lia. }
      subst b. f_equal. apply IH; auto. intros x. split; intros Hx.
      * destruct (proj1 (E x) ltac:(simpl; auto)) as [->|]; auto.
        specialize (HF _ Hx). lia.
      * destruct (proj2 (E x) ltac:(simpl; auto)) as [->|]; auto.
        specialize (HF2 _ Hx). lia.
Qed.

(** ** The generated list *)

(** [l] (written backwards) is a gap-free increasing run of states with [p]
    particles, from the smallest one up to [x]. *)
Definition run (p : nat) (l : list N) (x : N) : Prop :=
  In x l /\ NoDup l /\ forall y, In y l <-> ((y <= x)%N /\ popcount y = p).

Lemma run_start p : run p [(2 ^ N.of_nat p - 1)%N] (2 ^ N.of_nat p - 1).
Proof.
  split; [simpl; auto|]. split; [repeat constructor; simpl; tauto|].
  intros y. simpl. split.
  - intros [<-|[]]. split; [lia|apply popcount_ones].
  - intros [H1 H2]. left. pose proof (popcount_lower y) as H. rewrite H2 in H. lia.
Qed.

Lemma run_bound n p l x : run p l x -> length l < binom n p -> (x < 2 ^ N.of_nat n)%N.
Proof.
  intros [H1 [H2 H3]] HL. destruct (N.lt_ge_cases x (2 ^ N.of_nat n)) as [|G]; auto.
  exfalso.
  assert (I : incl (cand n p) l).
  { intros y Hy. apply cand_In in Hy. destruct Hy. apply H3. split; auto. lia. }
  pose proof (NoDup_incl_length (increasing_NoDup _ (cand_increasing n p)) I) as L.
  rewrite cand_length in L. lia.
Qed.

Lemma run_exceeds n p l x : run p l x -> length l > binom n p -> (2 ^ N.of_nat n <= x)%N.
Proof.
  intros [H1 [H2 H3]] HL. destruct (N.lt_ge_cases x (2 ^ N.of_nat n)) as [G|]; auto.
  exfalso.
  assert (I : incl l (cand n p)).
  { intros y Hy. apply cand_In. apply H3 in Hy. destruct Hy. split; auto. lia. }
  pose proof (NoDup_incl_length H2 I) as L.
  rewrite cand_length in L. lia.
Qed.

(** Any strictly larger state with as many particles bounds the successor. *)
Lemma perm_step_run p l x n : 1 <= p -> n <= 32 -> run p l x -> length l < binom n p ->
  exists x', perm_step x = Ok x' /\ run p (x' :: l) x' /\ (x < x')%N /\ (x' < 2 ^ N.of_nat n)%N.
Proof.
  intros Hp Hn R HL.
  pose proof R as [H1 [H2 H3]].
  assert (Hpx : popcount x = p) by (apply H3; auto).
  assert (Hx0 : (0 < x)%N).
  { destruct (N.eq_dec x 0) as [->|]; [|lia]. simpl in Hpx. lia. }
  destruct (shape_exists x Hx0) as [a [k [m [Hk Ex]]]].
  assert (Hpa : popcount a + k = p) by (rewrite <- Hpx, Ex; symmetry; now apply shape_popcount).
  assert (Hex : exists y, In y (cand n p) /\ ~ In y l).
  { destruct (Exists_dec (fun y => ~ In y l) (cand n p)) as [E|E].
    - intros y. destruct (in_dec N.eq_dec y l); [right; tauto|left; auto].
    - apply Exists_exists in E. auto.
    - exfalso. assert (I : incl (cand n p) l).
      { intros y Hy. destruct (in_dec N.eq_dec y l); auto. exfalso. apply E.
        apply Exists_exists. eauto. }
      pose proof (NoDup_incl_length (increasing_NoDup _ (cand_increasing n p)) I) as L.
      rewrite cand_length in L. lia. }
  destruct Hex as [y [Hy Hyl]]. apply cand_In in Hy. destruct Hy as [Hyn Hyp].
  assert (Hxy : (x < y)%N).
  { destruct (N.lt_ge_cases x y); auto. exfalso. apply Hyl. apply H3. auto. }
  assert (Hny : (shape_next a k m <= y)%N).
  { destruct (N.lt_ge_cases y (shape_next a k m)); auto. exfalso.
    apply (shape_next_minimal a k m y); auto; congruence. }
  assert (Hn32 : (2 ^ N.of_nat n <= 2^32)%N) by (apply N.pow_le_mono_r; lia).
  exists (shape_next a k m). rewrite Ex.
  assert (Hgt : (x < shape_next a k m)%N) by (rewrite Ex; now apply shape_lt_next).
  repeat split.
  - apply perm_step_shape; auto. lia.
  - simpl; auto.
  - constructor; auto. intros Hin. apply H3 in Hin. lia.
  - destruct H as [<-|H]; [lia|]. apply H3 in H. lia.
  - destruct H as [<-|H]; [rewrite shape_next_popcount; auto|]. now apply H3 in H.
  - intros [G1 G2]. destruct (N.eq_dec y0 (shape_next a k m)) as [->|]; [left; auto|right].
    apply H3. split; auto. destruct (N.le_gt_cases y0 x); auto. exfalso.
    apply (shape_next_minimal a k m y0); auto; [congruence|lia|congruence].
  - congruence.
  - lia.
Qed.

Lemma permutations_run n p : 1 <= p -> n <= 32 -> forall k x l,
  run p l x -> length l + k <= binom n p ->
  exists l', permutations x k = Ok l' /\ length l' = k /\ increasing l' /\
    (forall y, In y l' -> (x < y)%N /\ (y < 2 ^ N.of_nat n)%N /\ popcount y = p).
Proof.
  intros Hp Hn. induction k as [|k IH]; intros x l R HL; cbn [permutations].
  - exists []. repeat split; try constructor; destruct H.
  - destruct (perm_step_run p l x n Hp Hn R ltac:(lia)) as [x' [E [R' [Hlt Hb]]]].
    rewrite E. cbn [bind].
    destruct (IH x' (x' :: l) R' ltac:(simpl; lia)) as [l' [E' [L' [S' P']]]].
    rewrite E'. cbn [bind].
    assert (Hn32 : (2 ^ N.of_nat n <= 2^32)%N) by (apply N.pow_le_mono_r; lia).
    rewrite u32_small by lia.
    exists (x' :: l'). split; auto. split; [simpl; auto|]. split.
    + constructor; auto. apply Forall_forall. intros y Hy. apply P' in Hy. tauto.
    + intros y [<-|Hy].
      * split; auto. split; auto. destruct R' as [R1 [_ R3]]. now apply R3 in R1.
      * apply P' in Hy. destruct Hy as [? [? ?]]. split; [lia|auto].
Qed.

Lemma generate_states_cand n p : p <= n -> n <= 32 -> generate_states n p = Ok (cand n p).
Proof.
  intros Hp Hn. unfold generate_states.
  pose proof (binom_pos n p Hp) as Hb. destruct (binom n p) as [|k] eqn:Eb; [lia|].
  assert (Ei : u32 (N.shiftl 1 (N.of_nat p) - 1) = (2 ^ N.of_nat p - 1)%N).
  { rewrite N.shiftl_1_l. apply u32_small.
    assert (2 ^ N.of_nat p <= 2^32)%N by (apply N.pow_le_mono_r; lia).
    pose proof (pow2_pos p). lia. }
  rewrite Ei.
  assert (Hin : forall y, In y [(2 ^ N.of_nat p - 1)%N] -> in_sector n p y).
  { intros y [<-|[]]. split; [|apply popcount_ones].
    assert (2 ^ N.of_nat p <= 2 ^ N.of_nat n)%N by (apply N.pow_le_mono_r; lia).
    pose proof (pow2_pos p). lia. }
  destruct (Nat.eq_dec p 0) as [->|Hp0].
  - rewrite binom_0_r in Eb. inversion Eb; subst k. cbn [permutations bind].
    f_equal. apply increasing_ext.
    + repeat constructor.
    + apply cand_increasing.
    + intros x. rewrite cand_In. split; auto.
      intros [H1 H2]. left. destruct (N.eq_dec x 0) as [->|Hne]; [reflexivity|].
      pose proof (popcount_pos x ltac:(lia)). lia.
  - destruct (permutations_run n p ltac:(lia) Hn k _ _ (run_start p) ltac:(simpl; lia))
      as [l [E [L [S P]]]].
    rewrite E. cbn [bind]. f_equal. set (x0 := (2 ^ N.of_nat p - 1)%N) in *.
    assert (Hinc : increasing (x0 :: l)).
    { constructor; auto. apply Forall_forall. intros y Hy. now apply P. }
    apply increasing_ext; auto using cand_increasing.
    assert (I : incl (x0 :: l) (cand n p)).
    { intros y [<-|Hy]; apply cand_In; [apply Hin; simpl; auto|].
      apply P in Hy. split; tauto. }
    intros x. split; [apply I|].
    apply (NoDup_length_incl (increasing_NoDup _ Hinc)); auto.
    rewrite cand_length, Eb. simpl. lia.
Qed.

Lemma generate_states_spec n p : p <= n -> n <= 32 -> exists l,
  generate_states n p = Ok l /\ increasing l /\ length l = binom n p /\
  forall s, In s l <-> in_sector n p s.
Proof.
  intros Hp Hn. exists (cand n p).
  split; [now apply generate_states_cand|]. split; [apply cand_increasing|].
  split; [apply cand_length|]. intros s; apply cand_In.
Qed.

Lemma generate_states_empty n p : n < p -> generate_states n p = Err IndexError.
Proof. intros H. unfold generate_states. now rewrite binom_gt. Qed.

(** ** Dimensions *)

Lemma fold_sum_app (l1 l2 : list nat) : list_sum (l1 ++ l2) = list_sum l1 + list_sum l2.
Proof. apply list_sum_app. Qed.

Lemma list_sum_map_add {A} (f g : A -> nat) l :
  list_sum (map (fun x => f x + g x) l) = list_sum (map f l) + list_sum (map g l).
Proof. induction l; simpl; auto. lia. Qed.

Lemma list_sum_map_mul {A} c (f : A -> nat) l :
  list_sum (map (fun x => c * f x) l) = c * list_sum (map f l).
Proof. induction l; simpl; lia. Qed.

Lemma row_sum_shift n m :
  list_sum (map (binom n) (seq 0 (S m))) = 1 + list_sum (map (fun k => binom n (S k)) (seq 0 m)).
Proof.
  cbn [seq]. rewrite map_cons, <- seq_shift, map_map, binom_0_r. reflexivity.
Qed.

Lemma binom_row_sum n : forall m, n <= m -> list_sum (map (binom n) (seq 0 (S m))) = 2 ^ n.
Proof.
  induction n; intros m Hm; rewrite row_sum_shift.
  - replace (list_sum _) with 0; auto.
    symmetry. clear Hm. induction (seq 0 m); simpl; auto.
  - destruct m as [|m]; [lia|].
    rewrite (map_ext _ (fun k => binom n k + binom n (S k))) by reflexivity.
    rewrite list_sum_map_add, (IHn m) by lia.
    pose proof (IHn (S m) ltac:(lia)) as H2. rewrite row_sum_shift in H2.
    cbn [Nat.pow]. lia.
Qed.

Lemma sector_dims_sum n :
  list_sum (flat_map (fun nup => map (fun ndw => get_sector_dim n nup ndw) (seq 0 (n + 1)))
                     (seq 0 (n + 1))) = 4 ^ n.
Proof.
  unfold get_sector_dim. rewrite Nat.add_1_r.
  assert (E : forall l, list_sum (flat_map (fun nup => map (fun ndw => binom n nup * binom n ndw)
      (seq 0 (S n))) l) = list_sum (map (binom n) l) * 2 ^ n).
  { induction l; auto. cbn [flat_map map]. rewrite fold_sum_app, IHl.
    rewrite list_sum_map_mul, binom_row_sum by auto.
    change (list_sum (binom n a :: ?l)) with (binom n a + list_sum l). lia. }
  rewrite E, binom_row_sum by auto. rewrite <- Nat.pow_mul_l. reflexivity.
Qed.

Lemma sector_dims_sum_N n :
  list_sum (map (fun p => binom (2 * n) p) (seq 0 (2 * n + 1))) = 4 ^ n.
Proof.
  rewrite Nat.add_1_r, binom_row_sum by auto. rewrite Nat.pow_mul_r. reflexivity.
Qed.

Lemma sector_unique n sup sdw : (sup < 2 ^ N.of_nat n)%N -> (sdw < 2 ^ N.of_nat n)%N -> n <= 32 ->
  exists nup ndw, nup <= n /\ ndw <= n /\
    (exists lu ld, generate_states n nup = Ok lu /\ generate_states n ndw = Ok ld /\
       In sup lu /\ In sdw ld) /\
    forall nup' ndw' lu ld, nup' <= n -> ndw' <= n ->
      generate_states n nup' = Ok lu -> generate_states n ndw' = Ok ld ->
      In sup lu -> In sdw ld -> nup' = nup /\ ndw' = ndw.
Proof.
  intros H1 H2 Hn. exists (popcount sup), (popcount sdw).
  pose proof (popcount_upper _ _ H1). pose proof (popcount_upper _ _ H2).
  repeat split; auto.
  - exists (cand n (popcount sup)), (cand n (popcount sdw)).
    rewrite !generate_states_cand by auto. repeat split; auto; apply cand_In; split; auto.
  - rewrite !generate_states_cand in * by auto.
    match goal with H : Ok (cand _ nup') = Ok _ |- _ => inversion H; subst end.
    match goal with H : In sup _ |- _ => apply cand_In in H; destruct H; auto end.
  - rewrite !generate_states_cand in * by auto.
    match goal with H : Ok (cand _ ndw') = Ok _ |- _ => inversion H; subst end.
    match goal with H : In sdw _ |- _ => apply cand_In in H; destruct H; auto end.
Qed.

Lemma sector_dim_lists n nup ndw : nup <= n -> ndw <= n -> n <= 32 ->
  exists lu ld, generate_states n nup = Ok lu /\ generate_states n ndw = Ok ld /\
    get_sector_dim n nup ndw = length lu * length ld.
Proof.
  intros. exists (cand n nup), (cand n ndw). rewrite !generate_states_cand by auto.
  rewrite !cand_length. auto.
Qed.

(** ** Ladder moves *)

Lemma cdg_sector_spec n nup ndw ispin : (0 <= nup <= n)%Z -> (0 <= ndw <= n)%Z ->
  (ispin = 0%Z -> nup = n -> get_cdg_sector n nup ndw ispin = Err OutOfHilbertError) /\
  (ispin = 0%Z -> (nup < n)%Z -> get_cdg_sector n nup ndw ispin = Ok (nup + 1, ndw)%Z /\
      get_c_sector (nup + 1) ndw ispin = Ok (nup, ndw)) /\
  (ispin = 1%Z -> ndw = n -> get_cdg_sector n nup ndw ispin = Err OutOfHilbertError) /\
  (ispin = 1%Z -> (ndw < n)%Z -> get_cdg_sector n nup ndw ispin = Ok (nup, ndw + 1)%Z /\
      get_c_sector nup (ndw + 1) ispin = Ok (nup, ndw)) /\
  (ispin <> 0%Z -> ispin <> 1%Z -> get_cdg_sector n nup ndw ispin = Err RuntimeError).
Proof.
  intros H1 H2. unfold get_cdg_sector, get_c_sector. cbv zeta.
  repeat split; intros; subst; cbn [Z.eqb];
    repeat match goal with |- context [if ?b then _ else _] =>
      (replace b with true by lia) || (replace b with false by lia) end; auto.
  - f_equal. f_equal. lia.
  - f_equal. f_equal. lia.
Qed.

Lemma c_sector_spec n nup ndw ispin : (0 <= nup <= n)%Z -> (0 <= ndw <= n)%Z ->
  (ispin = 0%Z -> nup = 0%Z -> get_c_sector nup ndw ispin = Err OutOfHilbertError) /\
  (ispin = 0%Z -> (0 < nup)%Z -> get_c_sector nup ndw ispin = Ok (nup - 1, ndw)%Z /\
      get_cdg_sector n (nup - 1) ndw ispin = Ok (nup, ndw)) /\
  (ispin = 1%Z -> ndw = 0%Z -> get_c_sector nup ndw ispin = Err OutOfHilbertError) /\
  (ispin = 1%Z -> (0 < ndw)%Z -> get_c_sector nup ndw ispin = Ok (nup, ndw - 1)%Z /\
      get_cdg_sector n nup (ndw - 1) ispin = Ok (nup, ndw)) /\
  (ispin <> 0%Z -> ispin <> 1%Z -> get_c_sector nup ndw ispin = Err RuntimeError).
Proof.
  intros H1 H2. unfold get_cdg_sector, get_c_sector. cbv zeta.
  repeat split; intros; subst; cbn [Z.eqb];
    repeat match goal with |- context [if ?b then _ else _] =>
      (replace b with true by lia) || (replace b with false by lia) end; auto.
  - f_equal. f_equal. lia.
  - f_equal. f_equal. lia.
Qed.
