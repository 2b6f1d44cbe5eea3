(** Lemmas about state lookup. *)
From Coq Require Import List Arith NArith ZArith Lia Bool Sorted ZifyBool ZifyNat ZifyN.
From Verif Require Import Base OperatorsModel OperatorsSpec OperatorsProofs LookupModel LookupSpec.
Import ListNotations.

(** ** binsearch *)

Lemma bs_loop_inv a s : forall fuel lo hi,
  (-1 <= lo)%Z -> (lo < hi)%Z -> (hi <= Z.of_nat (length a))%Z ->
  (hi - lo - 1 <= Z.of_nat fuel)%Z ->
  (lo = -1 \/ exists x, nth_error a (Z.to_nat lo) = Some x /\ (x <= s)%N)%Z ->
  (hi = Z.of_nat (length a) \/ exists x, nth_error a (Z.to_nat hi) = Some x /\ (s < x)%N)%Z ->
  exists lo', bs_loop fuel a s lo hi = Ok lo' /\
    (-1 <= lo')%Z /\ (lo' < Z.of_nat (length a))%Z /\
    (lo' = -1 \/ exists x, nth_error a (Z.to_nat lo') = Some x /\ (x <= s)%N)%Z /\
    (lo' + 1 = Z.of_nat (length a) \/
     exists x, nth_error a (Z.to_nat (lo' + 1)) = Some x /\ (s < x)%N)%Z.
Proof.
  induction fuel as [|fuel IH]; intros lo hi H1 H2 H3 Hf Hlo Hhi; simpl.
  - assert (hi = lo + 1)%Z by lia. subst hi.
    replace (1 <? lo + 1 - lo)%Z with false by lia.
    exists lo. repeat split; auto; lia.
  - destruct (1 <? hi - lo)%Z eqn:E.
    + assert (Hm : (lo < Z.shiftr (lo + hi) 1 < hi)%Z).
      { rewrite Z.shiftr_div_pow2 by lia. change (2^1)%Z with 2%Z.
        pose proof (Z.div_mod (lo + hi) 2 ltac:(lia)).
        pose proof (Z.mod_pos_bound (lo + hi) 2 ltac:(lia)). lia. }
      set (m := Z.shiftr (lo + hi) 1) in *.
      replace (m <? 0)%Z with false by lia.
      destruct (nth_error a (Z.to_nat m)) as [x|] eqn:En.
      * destruct (N.leb_spec x s).
        -- apply IH; try lia; auto. right; eauto.
        -- apply IH; try lia; auto. right; eauto.
      * apply nth_error_None in En. lia.
    + assert (hi = lo + 1)%Z by lia. subst hi.
      exists lo. repeat split; auto; lia.
Qed.

Lemma binsearch_char a s : exists r, binsearch a s = Ok r /\
  (r = -1 \/ (0 <= r)%Z /\ nth_error a (Z.to_nat r) = Some s)%Z /\
  exists lo, (-1 <= lo)%Z /\
    (lo = -1 \/ exists x, nth_error a (Z.to_nat lo) = Some x /\ (x <= s)%N /\
       r = (if N.eqb x s then lo else -1))%Z /\
    (lo = -1 -> r = -1)%Z /\
    (lo + 1 = Z.of_nat (length a) \/
     exists x, nth_error a (Z.to_nat (lo + 1)) = Some x /\ (s < x)%N)%Z.
Proof.
  destruct (bs_loop_inv a s (length a) (-1) (Z.of_nat (length a)))
    as [lo [E [G1 [G2 [G3 G4]]]]]; try lia; auto.
  unfold binsearch. rewrite E. simpl.
  destruct (Z.eqb_spec lo (-1)) as [->|Hne].
  - exists (-1)%Z. split; auto. split; auto. exists (-1)%Z. repeat split; auto; lia.
  - destruct G3 as [G3|[x [Hx Hle]]]; [lia|].
    replace (lo <? 0)%Z with false by lia. rewrite Hx.
    destruct (N.eqb_spec x s) as [->|Hxs].
    + exists lo. split; auto. split; [right; split; auto; lia|].
      exists lo. repeat split; auto; try lia. right. exists s. rewrite N.eqb_refl. auto.
    + exists (-1)%Z. split; auto. split; auto.
      exists lo. repeat split; auto; try lia. right. exists x.
      replace (x =? s)%N with false by (symmetry; now apply N.eqb_neq). auto.
Qed.

Lemma binsearch_total a s : exists r, binsearch a s = Ok r /\
  (r = -1 \/ (0 <= r)%Z /\ nth_error a (Z.to_nat r) = Some s)%Z.
Proof.
  destruct (binsearch_char a s) as [r [E [H _]]]. eauto.
Qed.

Lemma increasing_nth a : increasing a -> forall i j x y, i < j ->
  nth_error a i = Some x -> nth_error a j = Some y -> (x < y)%N.
Proof.
  intros H. induction H as [|a l HS IH HF]; intros i j x y Hij Hi Hj.
  - destruct i; discriminate.
  - destruct j as [|j]; [lia|]. destruct i as [|i]; simpl in *.
    + inversion Hi; subst. rewrite Forall_forall in HF. apply HF.
      eapply nth_error_In; eauto.
    + apply (IH i j); auto. lia.
Qed.

Lemma increasing_nth_inj a i j x : increasing a ->
  nth_error a i = Some x -> nth_error a j = Some x -> i = j.
Proof.
  intros H Hi Hj. destruct (Nat.lt_trichotomy i j) as [L|[L|L]]; auto.
  - pose proof (increasing_nth a H i j x x L Hi Hj). lia.
  - pose proof (increasing_nth a H j i x x L Hj Hi). lia.
Qed.

Lemma increasing_NoDup a : increasing a -> NoDup a.
Proof.
  intros H. apply NoDup_nth_error. intros i j Hi E.
  destruct (nth_error a i) as [x|] eqn:Ei.
  - apply (increasing_nth_inj a i j x); auto.
  - apply nth_error_None in Ei; lia.
Qed.

Lemma binsearch_found a s k : increasing a -> nth_error a k = Some s ->
  binsearch a s = Ok (Z.of_nat k).
Proof.
  intros Ha Hk. destruct (binsearch_char a s) as [r [E [_ [lo [H1 [H2 [H3 H4]]]]]]].
  rewrite E. f_equal.
  assert (Hkl : k < length a) by (apply nth_error_Some; congruence).
  assert (Hle : (Z.of_nat k <= lo)%Z).
  { destruct H4 as [H4|[x [Hx Hlt]]]; [lia|].
    destruct (Z.le_gt_cases (Z.of_nat k) lo) as [|G]; auto. exfalso.
    destruct (Nat.eq_dec (Z.to_nat (lo + 1)) k) as [Eq|Ne].
    - rewrite Eq in Hx. rewrite Hk in Hx. inversion Hx; lia.
    - pose proof (increasing_nth a Ha (Z.to_nat (lo+1)) k x s ltac:(lia) Hx Hk). lia. }
  destruct H2 as [H2|[x [Hx [Hxs Hr]]]]; [lia|].
  destruct (Nat.eq_dec (Z.to_nat lo) k) as [Eq|Ne].
  - rewrite Eq, Hk in Hx. assert (x = s) as -> by congruence. rewrite N.eqb_refl in Hr. lia.
  - pose proof (increasing_nth a Ha k (Z.to_nat lo) s x ltac:(lia) Hk Hx). lia.
Qed.

Lemma binsearch_absent a s : ~ In s a -> binsearch a s = Ok (-1)%Z.
Proof.
  intros Ha. destruct (binsearch_total a s) as [r [E [->|[_ H]]]]; auto.
  exfalso. apply Ha. eapply nth_error_In; eauto.
Qed.

(** ** Index maps *)

Lemma spin_index_inverse dup dwn i : (0 < dup)%Z -> (0 <= i < dup * dwn)%Z ->
  exists iup idw, get_spin_indices i dup dwn = Ok (iup, idw) /\
    (0 <= iup < dup)%Z /\ (0 <= idw < dwn)%Z /\ get_state_index iup idw dup = i.
Proof.
  intros Hd Hi. unfold get_spin_indices, get_state_index.
  replace (dup =? 0)%Z with false by lia.
  exists (i mod dup)%Z, (i / dup)%Z. split; auto.
  pose proof (Z.mod_pos_bound i dup Hd). pose proof (Z.div_mod i dup ltac:(lia)).
  repeat split; try nia.
Qed.

Lemma state_index_inverse dup dwn iup idw : (0 <= iup < dup)%Z -> (0 <= idw < dwn)%Z ->
  (0 <= get_state_index iup idw dup < dup * dwn)%Z /\
  get_spin_indices (get_state_index iup idw dup) dup dwn = Ok (iup, idw).
Proof.
  intros H1 H2. unfold get_spin_indices, get_state_index. split; [nia|].
  replace (dup =? 0)%Z with false by lia. repeat f_equal.
  - rewrite Z.mod_add by lia. apply Z.mod_small; lia.
  - rewrite Z.div_add by lia. rewrite Z.div_small; lia.
Qed.

Lemma sector_index_inverse n nup ndw : (0 <= nup <= n)%Z -> (0 <= ndw <= n)%Z ->
  exists i, get_sector_index n nup ndw = Ok i /\ (0 <= i < (n+1)*(n+1))%Z /\
            get_num_spins i n = Ok (nup, ndw).
Proof.
  intros H1 H2. unfold get_sector_index, get_num_spins.
  replace (_ && _ && _ && _)%bool with true by lia.
  exists (nup * (n + 1) + ndw)%Z. split; auto. split; [nia|].
  replace ((0 <=? nup * (n + 1) + ndw) && (nup * (n + 1) + ndw <? (n + 1) * (n + 1)))%Z
    with true by nia.
  rewrite Z.add_comm. rewrite Z.div_add, Z.mod_add by lia.
  rewrite Z.div_small, Z.mod_small by lia. reflexivity.
Qed.

Lemma num_spins_inverse n i : (0 <= i < (n+1)*(n+1))%Z -> (0 <= n)%Z ->
  exists nup ndw, get_num_spins i n = Ok (nup, ndw) /\ (0 <= nup <= n)%Z /\ (0 <= ndw <= n)%Z /\
    get_sector_index n nup ndw = Ok i.
Proof.
  intros Hi Hn. unfold get_sector_index, get_num_spins.
  replace ((0 <=? i) && (i <? (n + 1) * (n + 1)))%Z with true by lia.
  exists (i / (n+1))%Z, (i mod (n+1))%Z. split; auto.
  pose proof (Z.mod_pos_bound i (n+1) ltac:(lia)). pose proof (Z.div_mod i (n+1) ltac:(lia)).
  assert (0 <= i / (n+1) <= n)%Z by nia.
  repeat split; try lia.
  replace (_ && _ && _ && _)%bool with true by lia.
  f_equal. lia.
Qed.

Lemma sector_index_rejects n nup ndw :
  ~ ((0 <= nup <= n)%Z /\ (0 <= ndw <= n)%Z) -> get_sector_index n nup ndw = Err ValueError.
Proof.
  intros H. unfold get_sector_index.
  replace (_ && _ && _ && _)%bool with false by lia. reflexivity.
Qed.

Lemma num_spins_rejects n i :
  ~ (0 <= i < (n+1)*(n+1))%Z -> get_num_spins i n = Err ValueError.
Proof.
  intros H. unfold get_num_spins.
  replace ((0 <=? i) && (i <? (n + 1) * (n + 1)))%Z with false by lia. reflexivity.
Qed.

(** ** Population count *)

Lemma popcount_double a : popcount (2 * a) = popcount a.
Proof. now destruct a. Qed.
Lemma popcount_succ_double a : popcount (2 * a + 1) = S (popcount a).
Proof. now destruct a. Qed.
Lemma popcount_0 : popcount 0 = 0. Proof. reflexivity. Qed.

Lemma occ_double_0 a : occ (2 * a) 0 = false.
Proof. unfold occ. apply N.testbit_even_0. Qed.
Lemma occ_sdouble_0 a : occ (2 * a + 1) 0 = true.
Proof. unfold occ. apply N.testbit_odd_0. Qed.
Lemma occ_double_S a k : occ (2 * a) (S k) = occ a k.
Proof. unfold occ. rewrite Nat2N.inj_succ. apply N.testbit_even_succ. lia. Qed.
Lemma occ_sdouble_S a k : occ (2 * a + 1) (S k) = occ a k.
Proof. unfold occ. rewrite Nat2N.inj_succ. apply N.testbit_odd_succ. lia. Qed.

Lemma N_parity s : exists a, s = (2 * a)%N \/ s = (2 * a + 1)%N.
Proof. exists (N.div2 s). destruct s as [|[p|p|]]; simpl; auto. Qed.

Lemma pow2_S n : (2 ^ N.of_nat (S n) = 2 * 2 ^ N.of_nat n)%N.
Proof. rewrite Nat2N.inj_succ, N.pow_succ_r'. reflexivity. Qed.

Lemma filter_S_count (f g : nat -> bool) a m :
  (forall k, f (S k) = g k) ->
  length (filter f (seq (S a) m)) = length (filter g (seq a m)).
Proof.
  intros H. revert a; induction m; intros a; simpl; auto.
  rewrite (H a). destruct (g a); simpl; now rewrite IHm.
Qed.

Lemma nocc_popcount n : forall s, (s < 2 ^ N.of_nat n)%N -> nocc s 0 n = popcount s.
Proof.
  unfold nocc. setoid_rewrite Nat.sub_0_r.
  induction n; intros s Hs.
  - simpl in Hs. assert (s = 0)%N by lia. now subst.
  - rewrite pow2_S in Hs. destruct (N_parity s) as [a [-> | ->]].
    + rewrite popcount_double. cbn [seq filter]. rewrite occ_double_0.
      rewrite (filter_S_count _ (occ a)) by apply occ_double_S. apply IHn; lia.
    + rewrite popcount_succ_double. cbn [seq filter]. rewrite occ_sdouble_0. cbn [length].
      rewrite (filter_S_count _ (occ a)) by apply occ_sdouble_S. rewrite IHn; lia.
Qed.

Lemma count_bits_nocc s n : count_bits s n = N.of_nat (nocc s 0 n).
Proof.
  unfold count_bits, nocc. rewrite fold_bits_count, Nat.sub_0_r. lia.
Qed.

Lemma count_bits_popcount s n : (s < 2 ^ N.of_nat n)%N -> count_bits s n = N.of_nat (popcount s).
Proof. intros H. now rewrite count_bits_nocc, nocc_popcount. Qed.

(** ** binrep / intrep *)

Lemma pos_digits_nth p k : nth k (pos_digits p) false = occ (Npos p) k.
Proof.
  revert k; induction p; intros k; cbn [pos_digits].
  - replace (Npos p~1) with (2 * Npos p + 1)%N by reflexivity.
    destruct k; cbn [nth]; [now rewrite occ_sdouble_0|]. now rewrite occ_sdouble_S.
  - replace (Npos p~0) with (2 * Npos p)%N by reflexivity.
    destruct k; cbn [nth]; [now rewrite occ_double_0|]. now rewrite occ_double_S.
  - destruct k; [reflexivity|]. cbn [nth]. destruct k; reflexivity.
Qed.

Lemma pos_digits_length p n : (Npos p < 2 ^ N.of_nat n)%N -> length (pos_digits p) <= n.
Proof.
  revert n; induction p; intros [|n] H; try (simpl in H; lia);
    rewrite ?pow2_S in H; cbn [pos_digits length].
  - apply le_n_S, IHp. lia.
  - apply le_n_S, IHp. lia.
  - lia.
Qed.

Lemma rev_repeat {A} (x : A) m : rev (repeat x m) = repeat x m.
Proof.
  induction m; auto. cbn [repeat rev]. rewrite IHm.
  clear IHm. induction m; simpl; auto. now rewrite IHm.
Qed.

Lemma binrep_spec i n : (i < 2 ^ N.of_nat n)%N -> 1 <= n ->
  binrep i n = map (occ i) (seq 0 n).
Proof.
  intros Hi Hn. unfold binrep, binary_repr. apply (nth_ext _ _ false (occ i 0)).
  - rewrite rev_length, map_length, seq_length. destruct i.
    + rewrite repeat_length. destruct (Nat.eqb_spec n 0); lia.
    + rewrite app_length, repeat_length, rev_length.
      pose proof (pos_digits_length p n Hi). lia.
  - intros k Hk. destruct i as [|p].
    + rewrite rev_repeat, repeat_length in *. replace (n =? 0) with false in * by (symmetry; apply Nat.eqb_neq; lia).
      rewrite map_nth, seq_nth by auto. rewrite occ_0. apply nth_repeat.
    + rewrite rev_length, app_length, repeat_length, rev_length in Hk.
      pose proof (pos_digits_length p n Hi).
      rewrite map_nth, seq_nth by lia. rewrite rev_app_distr, rev_involutive, rev_repeat.
      rewrite Nat.add_0_l, <- pos_digits_nth.
      destruct (Nat.lt_ge_cases k (length (pos_digits p))).
      * now rewrite app_nth1.
      * rewrite app_nth2 by auto. rewrite nth_repeat. symmetry. now apply nth_overflow.
Qed.

Lemma intrep_loop_spec l : forall shift i, (i < 2 ^ N.of_nat shift)%N ->
  forall k, occ (intrep_loop l shift i) k =
    if k <? shift then occ i k else nth (k - shift) l false.
Proof.
  induction l as [|b l IH]; intros shift i Hi k; cbn [intrep_loop].
  - destruct (Nat.ltb_spec k shift); auto.
    rewrite (occ_high i shift) by auto. now destruct (k - shift).
  - set (i' := if b then _ else i).
    assert (Hocc : forall m, occ i' m = if m =? shift then b else occ i m).
    { intros m. unfold i'. destruct b.
      - assert (L : N.land i (N.shiftl 1 (N.of_nat shift)) = 0%N).
        { apply occ_ext. intros q. rewrite occ_0. unfold occ at 1. rewrite N.land_spec.
          fold (occ i q) (occ (N.shiftl 1 (N.of_nat shift)) q). rewrite occ_shiftl1.
          destruct (Nat.eqb_spec q shift); [subst|apply andb_false_r].
          rewrite (occ_high i shift); auto. }
        rewrite N.add_nocarry_lxor by auto. rewrite occ_lxor, occ_shiftl1.
        destruct (Nat.eqb_spec m shift); [subst|now rewrite xorb_false_r].
        rewrite (occ_high i shift); auto.
      - destruct (Nat.eqb_spec m shift); auto. subst. apply (occ_high i shift); auto. }
    assert (Hi' : (i' < 2 ^ N.of_nat (S shift))%N).
    { apply occ_lt_pow2. intros m Hm. rewrite Hocc.
      destruct (Nat.eqb_spec m shift); [lia|]. apply (occ_high i shift); auto; lia. }
    rewrite IH by auto. rewrite Hocc.
    destruct (Nat.ltb_spec k shift), (Nat.ltb_spec k (S shift)), (Nat.eqb_spec k shift); try lia; auto.
    + subst. now rewrite Nat.sub_diag.
    + replace (k - shift) with (S (k - S shift)) by lia. reflexivity.
Qed.

Lemma intrep_spec l k : occ (intrep l) k = nth k (rev l) false.
Proof.
  unfold intrep. rewrite intrep_loop_spec by (simpl; lia).
  simpl. now rewrite Nat.sub_0_r.
Qed.

Lemma intrep_binrep i n : (i < 2 ^ N.of_nat n)%N -> 1 <= n -> bit_reversal n i (intrep (binrep i n)).
Proof.
  intros Hi Hn k. rewrite intrep_spec, binrep_spec by auto.
  destruct (Nat.ltb_spec k n).
  - rewrite rev_nth by (now rewrite map_length, seq_length).
    rewrite map_length, seq_length. simpl.
    rewrite (nth_indep _ false (occ i 0)) by (rewrite map_length, seq_length; lia).
    rewrite map_nth, seq_nth by lia. f_equal. lia.
  - simpl. apply nth_overflow. rewrite rev_length, map_length, seq_length. auto.
Qed.

Lemma intrep_rev_binrep i n : (i < 2 ^ N.of_nat n)%N -> 1 <= n -> intrep (rev (binrep i n)) = i.
Proof.
  intros Hi Hn. apply occ_ext. intros k. rewrite intrep_spec, rev_involutive, binrep_spec by auto.
  destruct (Nat.lt_ge_cases k n).
  - rewrite (nth_indep _ false (occ i 0)) by (rewrite map_length, seq_length; lia).
    rewrite map_nth, seq_nth by lia. reflexivity.
  - rewrite nth_overflow by (rewrite map_length, seq_length; auto).
    symmetry; now apply (occ_high i n).
Qed.

Lemma intrep_str_fold l : forall acc,
  fold_left (fun acc d => (2 * acc + (if d : bool then 1 else 0))%N) l acc =
  (acc * 2 ^ N.of_nat (length l) + intrep l)%N.
Proof.
  induction l as [|b l IH] using rev_ind; intros acc.
  - simpl. unfold intrep. simpl. lia.
  - rewrite fold_left_app, IH. cbn [fold_left]. rewrite app_length. cbn [length].
    rewrite Nat.add_1_r, pow2_S.
    assert (E : intrep (l ++ [b]) = (2 * intrep l + (if b then 1 else 0))%N).
    { apply occ_ext. intros k. rewrite intrep_spec, rev_app_distr. cbn [rev app].
      destruct b, k; cbn [nth]; rewrite ?N.add_0_r, ?occ_double_0, ?occ_sdouble_0,
        ?occ_double_S, ?occ_sdouble_S, ?intrep_spec; auto. }
    rewrite E. lia.
Qed.

Lemma intrep_lt l : (intrep l < 2 ^ N.of_nat (length l))%N.
Proof.
  apply occ_lt_pow2. intros k Hk. rewrite intrep_spec. apply nth_overflow. now rewrite rev_length.
Qed.

Lemma intrep_str_eq l : length l <= 32 -> intrep_str l = intrep l.
Proof.
  intros H. unfold intrep_str. rewrite intrep_str_fold, N.mul_0_l, N.add_0_l.
  apply u32_small. eapply N.lt_le_trans; [apply intrep_lt|].
  apply N.pow_le_mono_r; lia.
Qed.

Lemma binrep_length i n : (i < 2 ^ N.of_nat n)%N -> 1 <= n -> length (binrep i n) = n.
Proof. intros. rewrite binrep_spec by auto. now rewrite map_length, seq_length. Qed.

Lemma count_occ_filter (f : nat -> bool) l :
  length (filter (fun b : bool => b) (map f l)) = length (filter f l).
Proof. induction l; simpl; auto. destruct (f a); simpl; auto. Qed.

Lemma binrep_ones i n : (i < 2 ^ N.of_nat n)%N -> 1 <= n ->
  N.of_nat (length (filter (fun b : bool => b) (binrep i n))) = count_bits i n.
Proof.
  intros Hi Hn. rewrite binrep_spec, count_occ_filter, count_bits_nocc by auto.
  unfold nocc. now rewrite Nat.sub_0_r.
Qed.

Lemma intrep_binrep_twice i n : (i < 2 ^ N.of_nat n)%N -> 1 <= n ->
  intrep (binrep (intrep (binrep i n)) n) = i.
Proof.
  intros Hi Hn. set (j := intrep (binrep i n)).
  assert (Hj : (j < 2 ^ N.of_nat n)%N).
  { eapply N.lt_le_trans; [apply intrep_lt|]. now rewrite binrep_length. }
  apply occ_ext. intros k. rewrite (intrep_binrep j n Hj Hn k).
  unfold j. destruct (Nat.ltb_spec k n); cbn [andb].
  - rewrite (intrep_binrep i n Hi Hn (n - 1 - k)).
    replace (n - 1 - k <? n) with true by (symmetry; apply Nat.ltb_lt; lia). cbn [andb].
    f_equal. lia.
  - symmetry. now apply (occ_high i n).
Qed.

Lemma intrep_binrep_wrong :
  exists i n, (i < 2 ^ N.of_nat n)%N /\ intrep (binrep i n) <> i /\ intrep_str (binrep i n) <> i.
Proof. exists 1%N, 2. split; [reflexivity|]. split; vm_compute; discriminate. Qed.
