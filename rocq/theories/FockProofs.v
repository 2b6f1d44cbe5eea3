(** Lemmas about second-quantised words and their relation to the model's
    operators. *)
From Coq Require Import List Arith NArith ZArith Lia Bool.
From Verif Require Import Base OperatorsModel OperatorsSpec OperatorsProofs LookupModel LookupSpec
  LookupProofs SectorProofs FockSpec.
Import ListNotations.

Lemma occ_setbit s i k : occ (N.setbit s (N.of_nat i)) k = (k =? i) || occ s k.
Proof.
  unfold occ. rewrite N.setbit_eqb. f_equal.
  apply Bool.eq_iff_eq_true. rewrite N.eqb_eq, Nat.eqb_eq. lia.
Qed.

Lemma occ_clearbit s i k : occ (N.clearbit s (N.of_nat i)) k = negb (k =? i) && occ s k.
Proof.
  unfold occ. rewrite N.clearbit_eqb, andb_comm. f_equal. f_equal.
  apply Bool.eq_iff_eq_true. rewrite N.eqb_eq, Nat.eqb_eq. lia.
Qed.

(** [t] differs from [s] exactly in orbital [i]. *)
Definition toggles (s t : N) (i : nat) : Prop :=
  forall k, occ t k = if k =? i then negb (occ s k) else occ s k.

Lemma toggles_flip s i : (s < 2^32)%N -> i < 32 -> toggles s (flip s i) i.
Proof. intros Hs Hi k. now apply occ_flip. Qed.

Lemma toggles_setbit s i : occ s i = false -> toggles s (N.setbit s (N.of_nat i)) i.
Proof.
  intros O k. rewrite occ_setbit. destruct (Nat.eqb_spec k i); [subst|]; auto. now rewrite O.
Qed.

Lemma toggles_clearbit s i : occ s i = true -> toggles s (N.clearbit s (N.of_nat i)) i.
Proof.
  intros O k. rewrite occ_clearbit. destruct (Nat.eqb_spec k i); [subst|]; auto. now rewrite O.
Qed.

Lemma toggles_unique s t t' i : toggles s t i -> toggles s t' i -> t = t'.
Proof. intros H H'. apply occ_ext. intros k. now rewrite H, H'. Qed.

Lemma parity_toggle s t i a b : toggles s t i ->
  parity_sign (nocc t a b) =
  if (a <=? i) && (i <? b) then (- parity_sign (nocc s a b))%Z else parity_sign (nocc s a b).
Proof.
  intros H. unfold nocc. rewrite (filter_count_flip (occ s) _ _ i); [|apply seq_NoDup|exact H].
  rewrite existsb_seq. destruct (a <=? i) eqn:E; simpl; auto.
  apply Nat.leb_le in E. destruct (Nat.ltb_spec i b); destruct (Nat.ltb_spec i (a + (b - a))); auto; lia.
Qed.

Lemma parity_toggle_out s t i a b : toggles s t i -> i < a \/ b <= i ->
  parity_sign (nocc t a b) = parity_sign (nocc s a b).
Proof.
  intros H Hi. rewrite (parity_toggle s t i) by auto.
  destruct (Nat.leb_spec a i), (Nat.ltb_spec i b); simpl; auto; lia.
Qed.

(** ** Model operators and the specification *)

Definition to_opt {A} (r : res A) : option A := match r with Ok a => Some a | Err _ => None end.

Lemma app1_ladder cr s i n : (s < 2^32)%N -> i < 32 ->
  to_opt (ladder cr s i n) = app1 n (if cr then Cr i else An i) s.
Proof.
  intros Hs Hi. rewrite ladder_closed by auto. rewrite fsgn_spec, Nat.add_1_r.
  destruct cr; cbn [app1]; destruct (occ s i) eqn:O; cbn [Bool.eqb to_opt]; auto; do 2 f_equal.
  - apply (toggles_unique s _ _ i); auto using toggles_flip, toggles_setbit.
  - apply (toggles_unique s _ _ i); auto using toggles_flip, toggles_clearbit.
Qed.

Lemma app1_cdg s i n : (s < 2^32)%N -> i < 32 -> app1 n (Cr i) s = to_opt (cdg s i n).
Proof. intros. symmetry. exact (app1_ladder true s i n H H0). Qed.
Lemma app1_c s i n : (s < 2^32)%N -> i < 32 -> app1 n (An i) s = to_opt (c s i n).
Proof. intros. symmetry. exact (app1_ladder false s i n H H0). Qed.

(** The hop [c+_i c_j], i<>j. *)
Lemma word_hop s i j n : (s < 2^32)%N -> i < n -> j < n -> n <= 32 -> i <> j ->
  word n [Cr i; An j] s = if occ s j && negb (occ s i) then Some (cdgc s i j) else None.
Proof.
  intros Hs Hi Hj Hn Hij. cbn [word].
  rewrite app1_c by (auto; lia). rewrite c_closed by auto.
  destruct (occ s j) eqn:Oj; cbn [to_opt andb]; auto.
  rewrite app1_cdg by (try apply flip_lt; lia).
  rewrite cdg_closed by apply flip_lt. rewrite occ_flip by (auto; lia).
  replace (i =? j) with false by (symmetry; now apply Nat.eqb_neq).
  replace (i <? 32) with true by (symmetry; apply Nat.ltb_lt; lia).
  destruct (occ s i) eqn:Oi; cbn [negb andb to_opt]; auto.
  f_equal. rewrite (surjective_pairing (cdgc s i j)). f_equal.
  - unfold cdgc. cbn [fst]. rewrite (cdgc_sign s i j n) by auto. lia.
  - symmetry. apply cdgc_state; auto; lia.
Qed.

Lemma elem_hop s t i j n : (s < 2^32)%N -> i < n -> j < n -> n <= 32 -> i <> j ->
  elem n [Cr i; An j] t s =
  if occ s j && negb (occ s i) then (if N.eqb (snd (cdgc s i j)) t then fst (cdgc s i j) else 0%Z)
  else 0%Z.
Proof.
  intros. unfold elem. rewrite word_hop by auto.
  destruct (occ s j && negb (occ s i)); [destruct (cdgc s i j)|]; reflexivity.
Qed.

(** A hop stays in the sector. *)
Lemma popcount_toggle s t i n : (s < 2 ^ N.of_nat n)%N -> i < n -> toggles s t i ->
  (t < 2 ^ N.of_nat n)%N /\
  popcount t = if occ s i then popcount s - 1 else popcount s + 1.
Proof.
  intros Hs Hi Ht.
  assert (Hlt : (t < 2 ^ N.of_nat n)%N).
  { apply occ_lt_pow2. intros k Hk. rewrite Ht.
    replace (k =? i) with false by (symmetry; apply Nat.eqb_neq; lia). now apply (occ_high s n). }
  split; auto. rewrite <- (nocc_popcount n t), <- (nocc_popcount n s) by auto.
  rewrite (nocc_split t 0 i n), (nocc_split s 0 i n), (nocc_step t i n), (nocc_step s i n) by lia.
  assert (E : forall a b, (b <= i \/ i < a) -> nocc t a b = nocc s a b).
  { intros a b Hab. unfold nocc. f_equal. apply filter_ext_in. intros k Hk. apply in_seq in Hk.
    rewrite Ht. replace (k =? i) with false; auto. symmetry. apply Nat.eqb_neq. lia. }
  rewrite !E by lia. rewrite (Ht i), Nat.eqb_refl.
  destruct (occ s i); simpl; lia.
Qed.

Lemma cdgc_toggles s i j : (s < 2^32)%N -> i < 32 -> j < 32 -> i <> j ->
  exists u, toggles s u j /\ toggles u (snd (cdgc s i j)) i /\ (u < 2^32)%N.
Proof.
  intros Hs Hi Hj Hij. exists (flip s j). split; [now apply toggles_flip|].
  split; [|apply flip_lt]. rewrite cdgc_state by auto. apply toggles_flip; auto. apply flip_lt.
Qed.

Lemma cdgc_in_sector s i j n p : (s < 2 ^ N.of_nat n)%N -> popcount s = p -> n <= 32 ->
  i < n -> j < n -> i <> j -> occ s j = true -> occ s i = false ->
  (snd (cdgc s i j) < 2 ^ N.of_nat n)%N /\ popcount (snd (cdgc s i j)) = p.
Proof.
  intros Hs Hp Hn Hi Hj Hij Oj Oi.
  assert (Hs32 : (s < 2^32)%N).
  { eapply N.lt_le_trans; [exact Hs|]. apply N.pow_le_mono_r; lia. }
  destruct (cdgc_toggles s i j Hs32 ltac:(lia) ltac:(lia) Hij) as [u [T1 [T2 _]]].
  destruct (popcount_toggle s u j n Hs Hj T1) as [Hu Pu]. rewrite Oj in Pu.
  destruct (popcount_toggle u _ i n Hu Hi T2) as [Hf Pf].
  split; auto. rewrite Pf, (T1 i).
  replace (i =? j) with false by (symmetry; now apply Nat.eqb_neq). rewrite Oi.
  assert (0 < popcount s).
  { apply popcount_pos. destruct (N.eq_dec s 0) as [->|]; [|lia]. rewrite occ_0 in Oj. discriminate. }
  lia.
Qed.

(** ** Two spin species *)

Lemma occ_combine n sup sdw k : (sup < 2 ^ N.of_nat n)%N ->
  occ (combine n sup sdw) k = if k <? n then occ sup k else occ sdw (k - n).
Proof.
  intros Hu. unfold combine, occ. destruct (Nat.ltb_spec k n).
  - rewrite <- (N.mod_pow2_bits_low _ (N.of_nat n)) by lia.
    rewrite N.mod_add by auto. rewrite N.mod_small by auto. reflexivity.
  - replace (N.of_nat k) with (N.of_nat (k - n) + N.of_nat n)%N by lia.
    rewrite <- N.div_pow2_bits. rewrite N.div_add by auto. rewrite N.div_small by auto.
    rewrite N.add_0_l. reflexivity.
Qed.

Lemma combine_inj n u d u' d' : (u < 2 ^ N.of_nat n)%N -> (u' < 2 ^ N.of_nat n)%N ->
  combine n u d = combine n u' d' -> u = u' /\ d = d'.
Proof.
  unfold combine. intros H1 H2 E.
  assert (d = d').
  { apply (f_equal (fun x => (x / 2 ^ N.of_nat n)%N)) in E.
    rewrite !N.div_add, !N.div_small in E by auto. lia. }
  subst. split; auto. lia.
Qed.

Lemma filter_shift_count (f g : nat -> bool) c a m :
  (forall k, f (k + c) = g k) ->
  length (filter f (seq (a + c) m)) = length (filter g (seq a m)).
Proof.
  intros H. revert a; induction m; intros a; simpl; auto.
  rewrite (H a). specialize (IHm (S a)). simpl in IHm. destruct (g a); simpl; now rewrite IHm.
Qed.

Lemma nocc_combine_dw n sup sdw a b : (sup < 2 ^ N.of_nat n)%N ->
  nocc (combine n sup sdw) (a + n) (b + n) = nocc sdw a b.
Proof.
  intros Hu. unfold nocc. replace (b + n - (a + n)) with (b - a) by lia.
  apply filter_shift_count. intros k. rewrite occ_combine by auto.
  replace (k + n <? n) with false by (symmetry; apply Nat.ltb_ge; lia).
  f_equal; lia.
Qed.

Lemma nocc_combine_up n sup sdw a : (sup < 2 ^ N.of_nat n)%N -> a <= n ->
  nocc (combine n sup sdw) a (2 * n) = nocc sup a n + nocc sdw 0 n.
Proof.
  intros Hu Ha. rewrite (nocc_split _ a n (2 * n)) by lia. f_equal.
  - unfold nocc. f_equal. apply filter_ext_in. intros k Hk. apply in_seq in Hk.
    rewrite occ_combine by auto. replace (k <? n) with true; auto. symmetry; apply Nat.ltb_lt. lia.
  - replace (2 * n) with (n + n) by lia. rewrite <- (Nat.add_0_l n) at 2.
    now rewrite nocc_combine_dw.
Qed.

Lemma setbit_lt s i n : (s < 2 ^ N.of_nat n)%N -> i < n -> (N.setbit s (N.of_nat i) < 2 ^ N.of_nat n)%N.
Proof.
  intros Hs Hi. apply occ_lt_pow2. intros k Hk. rewrite occ_setbit.
  replace (k =? i) with false by (symmetry; apply Nat.eqb_neq; lia). now apply (occ_high s n).
Qed.
Lemma clearbit_lt s i n : (s < 2 ^ N.of_nat n)%N -> (N.clearbit s (N.of_nat i) < 2 ^ N.of_nat n)%N.
Proof.
  intros Hs. apply occ_lt_pow2. intros k Hk. rewrite occ_clearbit.
  rewrite (occ_high s n) by auto. apply andb_false_r.
Qed.

Lemma app1_lt n o s z t : (s < 2 ^ N.of_nat n)%N ->
  (match o with Cr i => i < n | An i => True end) ->
  app1 n o s = Some (z, t) -> (t < 2 ^ N.of_nat n)%N.
Proof.
  intros Hs Ho. destruct o; cbn [app1]; destruct (occ s i); intros E; inversion E; subst.
  - now apply setbit_lt.
  - now apply clearbit_lt.
Qed.

Lemma combine_set_up n i u d : (u < 2 ^ N.of_nat n)%N -> i < n ->
  N.setbit (combine n u d) (N.of_nat i) = combine n (N.setbit u (N.of_nat i)) d.
Proof.
  intros Hu Hi. apply occ_ext. intros k. rewrite occ_setbit, !occ_combine by auto using setbit_lt.
  rewrite occ_setbit. destruct (Nat.ltb_spec k n); auto.
  replace (k =? i) with false by (symmetry; apply Nat.eqb_neq; lia). auto.
Qed.
Lemma combine_clear_up n i u d : (u < 2 ^ N.of_nat n)%N -> i < n ->
  N.clearbit (combine n u d) (N.of_nat i) = combine n (N.clearbit u (N.of_nat i)) d.
Proof.
  intros Hu Hi. apply occ_ext. intros k. rewrite occ_clearbit, !occ_combine by auto using clearbit_lt.
  rewrite occ_clearbit. destruct (Nat.ltb_spec k n); auto.
  replace (k =? i) with false by (symmetry; apply Nat.eqb_neq; lia). auto.
Qed.
Lemma combine_set_dw n i u d : (u < 2 ^ N.of_nat n)%N ->
  N.setbit (combine n u d) (N.of_nat (i + n)) = combine n u (N.setbit d (N.of_nat i)).
Proof.
  intros Hu. apply occ_ext. intros k. rewrite occ_setbit, !occ_combine by auto.
  rewrite occ_setbit. destruct (Nat.ltb_spec k n).
  - replace (k =? i + n) with false by (symmetry; apply Nat.eqb_neq; lia). auto.
  - f_equal. apply Bool.eq_iff_eq_true. rewrite !Nat.eqb_eq. lia.
Qed.
Lemma combine_clear_dw n i u d : (u < 2 ^ N.of_nat n)%N ->
  N.clearbit (combine n u d) (N.of_nat (i + n)) = combine n u (N.clearbit d (N.of_nat i)).
Proof.
  intros Hu. apply occ_ext. intros k. rewrite occ_clearbit, !occ_combine by auto.
  rewrite occ_clearbit. destruct (Nat.ltb_spec k n).
  - replace (k =? i + n) with false by (symmetry; apply Nat.eqb_neq; lia). auto.
  - f_equal. f_equal. apply Bool.eq_iff_eq_true. rewrite !Nat.eqb_eq. lia.
Qed.

(** Acting on the up (resp. down) species of a combined state. *)
Definition up_op (o : ladder_op) : ladder_op := o.
Definition dw_op (n : nat) (o : ladder_op) : ladder_op :=
  match o with Cr i => Cr (i + n) | An i => An (i + n) end.
Definition op_lt (n : nat) (o : ladder_op) : Prop := match o with Cr i | An i => i < n end.

Lemma app1_up n o u d : (u < 2 ^ N.of_nat n)%N -> op_lt n o ->
  app1 (2 * n) o (combine n u d) =
  match app1 n o u with
  | Some (z, u') => Some ((z * parity_sign (nocc d 0 n))%Z, combine n u' d)
  | None => None
  end.
Proof.
  intros Hu Ho. destruct o as [i|i]; cbn [app1 op_lt] in *;
    rewrite occ_combine by auto;
    replace (i <? n) with true by (symmetry; now apply Nat.ltb_lt);
    destruct (occ u i); auto; f_equal; f_equal;
    rewrite ?nocc_combine_up, ?parity_sign_add by (auto; lia); auto.
  - now apply combine_set_up.
  - now apply combine_clear_up.
Qed.

Lemma app1_dw n o u d : (u < 2 ^ N.of_nat n)%N ->
  app1 (2 * n) (dw_op n o) (combine n u d) =
  match app1 n o d with
  | Some (z, d') => Some (z, combine n u d')
  | None => None
  end.
Proof.
  intros Hu. destruct o as [i|i]; cbn [app1 dw_op];
    rewrite occ_combine by auto;
    replace (i + n <? n) with false by (symmetry; apply Nat.ltb_ge; lia);
    replace (i + n - n) with i by lia;
    destruct (occ d i); auto; f_equal; f_equal.
  - replace (S (i + n)) with (S i + n) by lia. replace (2 * n) with (n + n) by lia.
    now rewrite nocc_combine_dw.
  - now apply combine_set_dw.
  - replace (S (i + n)) with (S i + n) by lia. replace (2 * n) with (n + n) by lia.
    now rewrite nocc_combine_dw.
  - now apply combine_clear_dw.
Qed.

Lemma app1_toggles n o s z t : app1 n o s = Some (z, t) ->
  toggles s t (match o with Cr i | An i => i end).
Proof.
  destruct o; cbn [app1]; destruct (occ s i) eqn:O; intros E; inversion E; subst.
  - now apply toggles_setbit.
  - now apply toggles_clearbit.
Qed.

Lemma app1_parity n o d z d' : op_lt n o -> app1 n o d = Some (z, d') ->
  parity_sign (nocc d' 0 n) = (- parity_sign (nocc d 0 n))%Z.
Proof.
  intros Ho E. rewrite (parity_toggle d d' _ 0 n (app1_toggles _ _ _ _ _ E)).
  destruct o; cbn [op_lt] in Ho; replace (i <? n) with true by (symmetry; now apply Nat.ltb_lt); auto.
Qed.

(** ** Adjoints *)

Definition adj (o : ladder_op) : ladder_op := match o with Cr i => An i | An i => Cr i end.

Lemma app1_adj n o s z t : app1 n o s = Some (z, t) -> app1 n (adj o) t = Some (z, s).
Proof.
  intros E. pose proof (app1_toggles _ _ _ _ _ E) as T.
  destruct o as [i|i]; cbn [app1 adj] in *; destruct (occ s i) eqn:O; inversion E; subst; clear E.
  - assert (Ot : occ (N.setbit s (N.of_nat i)) i = true) by (rewrite occ_setbit, Nat.eqb_refl; auto).
    rewrite Ot. rewrite (parity_toggle_out _ _ _ (S i) n T) by lia. f_equal. f_equal.
    apply occ_ext. intros k. rewrite occ_clearbit, occ_setbit.
    destruct (Nat.eqb_spec k i); subst; auto.
  - assert (Ot : occ (N.clearbit s (N.of_nat i)) i = false) by (rewrite occ_clearbit, Nat.eqb_refl; auto).
    rewrite Ot. rewrite (parity_toggle_out _ _ _ (S i) n T) by lia. f_equal. f_equal.
    apply occ_ext. intros k. rewrite occ_setbit, occ_clearbit.
    destruct (Nat.eqb_spec k i); subst; auto.
Qed.

Lemma word_app n l1 l2 s : word n (l1 ++ l2) s =
  match word n l2 s with
  | None => None
  | Some (z, u) => match word n l1 u with None => None | Some (z', v) => Some ((z' * z)%Z, v) end
  end.
Proof.
  induction l1 as [|o l1 IH]; cbn [app word].
  - destruct (word n l2 s) as [[z u]|]; auto. do 2 f_equal. lia.
  - rewrite IH. destruct (word n l2 s) as [[z u]|]; auto.
    destruct (word n l1 u) as [[z' v]|]; auto. destruct (app1 n o v) as [[z'' w]|]; auto.
    do 2 f_equal. lia.
Qed.

Lemma word_adj n l : forall s z t, word n l s = Some (z, t) ->
  word n (rev (map adj l)) t = Some (z, s).
Proof.
  induction l as [|o l IH]; intros s z t; cbn [word map rev].
  - intros E; inversion E; subst. reflexivity.
  - destruct (word n l s) as [[z1 u]|] eqn:E1; [|discriminate].
    destruct (app1 n o u) as [[z2 v]|] eqn:E2; [|discriminate].
    intros E; inversion E; subst; clear E. rewrite word_app. cbn [word].
    rewrite (app1_adj _ _ _ _ _ E2). rewrite (IH _ _ _ E1). f_equal. f_equal. lia.
Qed.

Lemma adj_invol l : rev (map adj (rev (map adj l))) = l.
Proof.
  rewrite map_rev, rev_involutive, map_map. rewrite <- (map_id l) at 2. apply map_ext.
  now intros [].
Qed.

(** <t|W|s> = <s|W^+|t> *)
Lemma elem_adj n l s t : elem n l t s = elem n (rev (map adj l)) s t.
Proof.
  unfold elem. destruct (word n l s) as [[z u]|] eqn:E.
  - apply word_adj in E. destruct (N.eqb_spec u t) as [->|Hne].
    + now rewrite E, N.eqb_refl.
    + destruct (word n (rev (map adj l)) t) as [[z' u']|] eqn:E'; auto.
      destruct (N.eqb_spec u' s) as [->|]; auto.
      apply word_adj in E'. rewrite adj_invol in E'. apply word_adj in E. rewrite adj_invol in E. congruence.
  - destruct (word n (rev (map adj l)) t) as [[z' u']|] eqn:E'; auto.
    destruct (N.eqb_spec u' s) as [->|]; auto.
    apply word_adj in E'. rewrite adj_invol in E'. congruence.
Qed.
