(** Lemmas about the Fock-state operators. *)
From Coq Require Import List Arith NArith ZArith Lia Bool.
From Verif Require Import Base OperatorsModel OperatorsSpec.
Import ListNotations.

Lemma occ_ext s t : (forall k, occ s k = occ t k) -> s = t.
Proof.
  intros H. apply N.bits_inj. intros k. specialize (H (N.to_nat k)).
  unfold occ in H. now rewrite N2Nat.id in H.
Qed.

Lemma pow2_nz n : (2 ^ n)%N <> 0%N.
Proof. apply N.pow_nonzero; discriminate. Qed.
#[global] Hint Resolve pow2_nz : core.

Lemma occ_high s n k : (s < 2 ^ N.of_nat n)%N -> n <= k -> occ s k = false.
Proof.
  intros Hs Hk. unfold occ. destruct (N.eq_dec s 0) as [->|Hz]; [apply N.bits_0|].
  apply N.bits_above_log2. apply N.log2_lt_pow2 in Hs; lia.
Qed.

Lemma occ_lt_pow2 s n : (forall k, n <= k -> occ s k = false) -> (s < 2 ^ N.of_nat n)%N.
Proof.
  intros H. destruct (N.eq_dec s 0) as [->|Hz]; [pose proof (pow2_nz (N.of_nat n)); lia|].
  apply N.log2_lt_pow2; [lia|].
  destruct (N.lt_ge_cases (N.log2 s) (N.of_nat n)) as [|Hge]; auto.
  exfalso. specialize (H (N.to_nat (N.log2 s)) ltac:(lia)). unfold occ in H.
  rewrite N2Nat.id, N.bit_log2 in H by auto. discriminate.
Qed.

Lemma occ_0 k : occ 0 k = false.
Proof. apply N.bits_0. Qed.

Lemma occ_u32 s k : occ (u32 s) k = (k <? 32) && occ s k.
Proof.
  unfold occ, u32. destruct (k <? 32) eqn:E.
  - apply Nat.ltb_lt in E. rewrite N.mod_pow2_bits_low; auto. lia.
  - apply Nat.ltb_ge in E. rewrite N.mod_pow2_bits_high; auto. lia.
Qed.

Lemma u32_small s : (s < 2^32)%N -> u32 s = s.
Proof. intros; unfold u32; now apply N.mod_small. Qed.

Lemma u32_lt s : (u32 s < 2^32)%N.
Proof. unfold u32. apply N.mod_lt. auto. Qed.

Lemma occ_shiftl1 pos k : occ (N.shiftl 1 (N.of_nat pos)) k = (k =? pos).
Proof.
  unfold occ. rewrite N.shiftl_1_l, N.pow2_bits_eqb.
  apply Bool.eq_iff_eq_true. rewrite N.eqb_eq, Nat.eqb_eq. lia.
Qed.

Lemma occ_lxor a b k : occ (N.lxor a b) k = xorb (occ a k) (occ b k).
Proof. apply N.lxor_spec. Qed.

Lemma occ_flip s pos k : (s < 2^32)%N -> pos < 32 ->
  occ (flip s pos) k = if k =? pos then negb (occ s k) else occ s k.
Proof.
  intros Hs Hp. unfold flip. rewrite occ_u32, occ_lxor, occ_shiftl1.
  destruct (k =? pos) eqn:E.
  - apply Nat.eqb_eq in E; subst. assert (pos <? 32 = true) as -> by now apply Nat.ltb_lt.
    now destruct (occ s pos).
  - rewrite xorb_false_l. destruct (k <? 32) eqn:E2; auto.
    apply Nat.ltb_ge in E2. simpl. symmetry. now apply (occ_high s 32).
Qed.

Lemma flip_lt s pos : (flip s pos < 2^32)%N.
Proof. apply u32_lt. Qed.

Lemma flip_ge s pos : (s < 2^32)%N -> 32 <= pos -> flip s pos = s.
Proof.
  intros Hs Hp. apply occ_ext; intros k. unfold flip.
  rewrite occ_u32, occ_lxor, occ_shiftl1.
  destruct (k <? 32) eqn:E; simpl.
  - apply Nat.ltb_lt in E. replace (k =? pos) with false by (symmetry; apply Nat.eqb_neq; lia).
    apply xorb_false_l.
  - apply Nat.ltb_ge in E. symmetry; now apply (occ_high s 32).
Qed.

Lemma flip_invol s pos : (s < 2^32)%N -> flip (flip s pos) pos = s.
Proof.
  intros Hs. destruct (Nat.lt_ge_cases pos 32) as [Hp|Hp].
  - apply occ_ext; intros k. rewrite !occ_flip; auto using flip_lt.
    destruct (k =? pos); auto using negb_involutive.
  - now rewrite !(flip_ge _ _) by (rewrite ?flip_ge; auto).
Qed.

Lemma flip_comm s i j : (s < 2^32)%N -> i < 32 -> j < 32 ->
  flip (flip s i) j = flip (flip s j) i.
Proof.
  intros Hs Hi Hj. apply occ_ext; intros k. rewrite !occ_flip; auto using flip_lt.
  destruct (k =? i), (k =? j); auto.
Qed.

(** Filling an empty orbital adds 2^i. *)
Lemma flip_empty_add s i : (s < 2^32)%N -> i < 32 -> occ s i = false ->
  flip s i = (s + 2 ^ N.of_nat i)%N.
Proof.
  intros Hs Hi Ho.
  assert (E : N.land (N.shiftl 1 (N.of_nat i)) s = 0%N).
  { apply occ_ext; intros k. rewrite occ_0. unfold occ. rewrite N.land_spec.
    fold (occ (N.shiftl 1 (N.of_nat i)) k) (occ s k). rewrite occ_shiftl1.
    destruct (k =? i) eqn:E; auto. apply Nat.eqb_eq in E; subst. now rewrite Ho. }
  assert (F : N.lxor (N.shiftl 1 (N.of_nat i)) s = (s + 2 ^ N.of_nat i)%N).
  { rewrite <- N.add_nocarry_lxor by auto. rewrite N.shiftl_1_l. lia. }
  unfold flip. rewrite F. apply u32_small.
  rewrite <- F. apply (occ_lt_pow2 _ 32). intros k Hk.
  rewrite occ_lxor, occ_shiftl1, (occ_high s 32) by auto.
  replace (k =? i) with false by (symmetry; apply Nat.eqb_neq; lia). reflexivity.
Qed.

Lemma flip_gt s i : (s < 2^32)%N -> i < 32 -> occ s i = false -> (s < flip s i)%N.
Proof.
  intros. rewrite flip_empty_add by auto. pose proof (pow2_nz (N.of_nat i)). lia.
Qed.

Lemma flip_smaller s i : (s < 2^32)%N -> i < 32 -> occ s i = true -> (flip s i < s)%N.
Proof.
  intros Hs Hi Ho. rewrite <- (flip_invol s i) at 2 by auto.
  apply flip_gt; auto using flip_lt. rewrite occ_flip, Nat.eqb_refl, Ho; auto.
Qed.

(** ** Bit counting *)

Lemma bitval_spec s k : bitval s k = if occ s k then 1%N else 0%N.
Proof.
  unfold bitval. apply N.bits_inj; intros i. rewrite N.land_spec, N.shiftr_spec by lia.
  destruct (N.eq_dec i 0) as [->|Hi].
  - rewrite N.add_0_l. fold (occ s k). destruct (occ s k); reflexivity.
  - replace (N.testbit 1 i) with false.
    + rewrite andb_false_r. destruct (occ s k); [|now rewrite N.bits_0].
      destruct i; [lia|]. now destruct p.
    + destruct i; [lia|]. now destruct p.
Qed.

Lemma fold_bits_count (s : N) l acc :
  fold_left (fun bits k => (bits + bitval s k)%N) l acc
  = (acc + N.of_nat (length (filter (occ s) l)))%N.
Proof.
  revert acc; induction l as [|a l IH]; intros acc; simpl; [lia|].
  rewrite IH, bitval_spec. destruct (occ s a); simpl; lia.
Qed.

Lemma bits_in_range_spec s a b : bits_in_range s a b = N.of_nat (nocc s a b).
Proof. unfold bits_in_range, nocc. rewrite fold_bits_count. lia. Qed.

Lemma sgn_of_bits_spec m : sgn_of_bits (N.of_nat m) = parity_sign m.
Proof.
  unfold sgn_of_bits, parity_sign.
  assert (E : (N.of_nat m mod 2 = if Nat.even m then 0 else 1)%N).
  { destruct (Nat.even m) eqn:Ev.
    - apply Nat.even_spec in Ev. destruct Ev as [q ->].
      replace (N.of_nat (2 * q)) with (N.of_nat q * 2)%N by lia. apply N.mod_mul; lia.
    - assert (Nat.odd m = true) as Od by (unfold Nat.odd; now rewrite Ev).
      apply Nat.odd_spec in Od. destruct Od as [q ->].
      replace (N.of_nat (2 * q + 1)) with (1 + N.of_nat q * 2)%N by lia.
      rewrite N.mod_add by lia. reflexivity. }
  rewrite E. destruct (Nat.even m); reflexivity.
Qed.

Lemma fsgn_spec s pos n : fsgn s pos n = parity_sign (nocc s (pos + 1) n).
Proof. unfold fsgn. now rewrite bits_in_range_spec, sgn_of_bits_spec. Qed.

Lemma get_parity_spec s i j :
  get_parity s i j = parity_sign (nocc s (Nat.min i j + 1) (Nat.max i j)).
Proof.
  unfold get_parity. destruct (i <=? j) eqn:E.
  - apply Nat.leb_le in E. rewrite Nat.min_l, Nat.max_r by auto.
    now rewrite bits_in_range_spec, sgn_of_bits_spec.
  - apply Nat.leb_gt in E. rewrite Nat.min_r, Nat.max_l by lia.
    now rewrite bits_in_range_spec, sgn_of_bits_spec.
Qed.

Lemma parity_sign_S m : parity_sign (S m) = (- parity_sign m)%Z.
Proof. unfold parity_sign. rewrite Nat.even_succ, <- Nat.negb_even. now destruct (Nat.even m). Qed.

Lemma parity_sign_add a b : parity_sign (a + b) = (parity_sign a * parity_sign b)%Z.
Proof.
  induction a.
  - unfold parity_sign at 2. simpl Nat.even. cbn iota. rewrite Z.mul_1_l. reflexivity.
  - simpl Nat.add. rewrite !parity_sign_S, IHa. lia.
Qed.

Lemma parity_sign_sq a : (parity_sign a * parity_sign a)%Z = 1%Z.
Proof. unfold parity_sign; destruct (Nat.even a); reflexivity. Qed.

Lemma parity_sign_cases a : parity_sign a = 1%Z \/ parity_sign a = (-1)%Z.
Proof. unfold parity_sign; destruct (Nat.even a); auto. Qed.

Lemma filter_count_flip (f g : nat -> bool) l i :
  NoDup l -> (forall k, g k = if k =? i then negb (f k) else f k) ->
  parity_sign (length (filter g l)) =
  if existsb (Nat.eqb i) l then (- parity_sign (length (filter f l)))%Z
  else parity_sign (length (filter f l)).
Proof.
  intros ND H. induction l as [|a l IH]; [reflexivity|].
  inversion ND as [|? ? Hni ND']; subst. specialize (IH ND').
  simpl. rewrite (H a). destruct (Nat.eqb_spec i a) as [->|Hne].
  - rewrite Nat.eqb_refl. simpl.
    assert (E : existsb (Nat.eqb a) l = false).
    { apply not_true_iff_false. intros Ht. apply existsb_exists in Ht.
      destruct Ht as [x [Hx Hx2]]. apply Nat.eqb_eq in Hx2; subst; tauto. }
    rewrite E in IH. destruct (f a); simpl; rewrite ?parity_sign_S, IH; lia.
  - replace (a =? i) with false by (symmetry; apply Nat.eqb_neq; lia). simpl.
    destruct (f a); simpl; rewrite ?parity_sign_S, IH; destruct (existsb _ _); lia.
Qed.

Lemma existsb_seq i a m : existsb (Nat.eqb i) (seq a m) = (a <=? i) && (i <? a + m).
Proof.
  apply Bool.eq_iff_eq_true. rewrite existsb_exists, andb_true_iff, Nat.leb_le, Nat.ltb_lt.
  split.
  - intros [x [Hx E]]. apply Nat.eqb_eq in E; subst. apply in_seq in Hx. lia.
  - intros H. exists i. rewrite in_seq, Nat.eqb_eq. lia.
Qed.

(** How flipping orbital [i] changes the sign of the count over [a..b-1]. *)
Lemma parity_flip s i a b : (s < 2^32)%N -> i < 32 ->
  parity_sign (nocc (flip s i) a b) =
  if (a <=? i) && (i <? b) then (- parity_sign (nocc s a b))%Z else parity_sign (nocc s a b).
Proof.
  intros Hs Hi. unfold nocc.
  rewrite (filter_count_flip (occ s) _ _ i).
  - rewrite existsb_seq. destruct (a <=? i) eqn:E; simpl; auto.
    apply Nat.leb_le in E. destruct (i <? b) eqn:E2.
    + apply Nat.ltb_lt in E2. replace (i <? a + (b - a)) with true; auto.
      symmetry; apply Nat.ltb_lt; lia.
    + apply Nat.ltb_ge in E2. replace (i <? a + (b - a)) with false; auto.
      symmetry; apply Nat.ltb_ge; lia.
  - apply seq_NoDup.
  - intros k. now apply occ_flip.
Qed.

Lemma fsgn_flip_above s i pos n : (s < 2^32)%N -> i < 32 -> pos < i -> i < n ->
  fsgn (flip s i) pos n = (- fsgn s pos n)%Z.
Proof.
  intros. rewrite !fsgn_spec, parity_flip by auto.
  replace (pos + 1 <=? i) with true by (symmetry; apply Nat.leb_le; lia).
  replace (i <? n) with true by (symmetry; apply Nat.ltb_lt; lia). reflexivity.
Qed.

Lemma fsgn_flip_below s i pos n : (s < 2^32)%N -> i < 32 -> i <= pos ->
  fsgn (flip s i) pos n = fsgn s pos n.
Proof.
  intros. rewrite !fsgn_spec, parity_flip by auto.
  replace (pos + 1 <=? i) with false by (symmetry; apply Nat.leb_gt; lia). reflexivity.
Qed.

(** ** Closed forms *)

(** Unified ladder operator: [true] creates, [false] annihilates. *)
Definition ladder (cr : bool) (s : N) (pos n : nat) : res (Z * N) :=
  if cr then cdg s pos n else c s pos n.

Arguments ladder : simpl never.

Lemma cdg_closed s pos n : (s < 2^32)%N ->
  cdg s pos n = if (pos <? 32) && negb (occ s pos)
                then Ok (fsgn s pos n, flip s pos) else Err AssertionError.
Proof.
  intros Hs. unfold cdg. destruct (pos <? 32) eqn:E; simpl.
  - apply Nat.ltb_lt in E. destruct (occ s pos) eqn:O; simpl.
    + pose proof (flip_smaller s pos Hs E O).
      replace (s <? flip s pos)%N with false; auto. symmetry; apply N.ltb_ge; lia.
    + pose proof (flip_gt s pos Hs E O).
      replace (s <? flip s pos)%N with true; auto. symmetry; apply N.ltb_lt; lia.
  - apply Nat.ltb_ge in E. rewrite flip_ge by auto. now rewrite N.ltb_irrefl.
Qed.

Lemma c_closed s pos n : (s < 2^32)%N ->
  c s pos n = if occ s pos then Ok (fsgn s pos n, flip s pos) else Err AssertionError.
Proof.
  intros Hs. unfold c. destruct (Nat.lt_ge_cases pos 32) as [E|E].
  - destruct (occ s pos) eqn:O.
    + pose proof (flip_smaller s pos Hs E O).
      replace (flip s pos <? s)%N with true; auto. symmetry; apply N.ltb_lt; lia.
    + pose proof (flip_gt s pos Hs E O).
      replace (flip s pos <? s)%N with false; auto. symmetry; apply N.ltb_ge; lia.
  - rewrite flip_ge by auto. rewrite N.ltb_irrefl. now rewrite (occ_high s 32).
Qed.

Lemma ladder_closed cr s pos n : (s < 2^32)%N -> pos < 32 ->
  ladder cr s pos n = if Bool.eqb (occ s pos) cr then Err AssertionError
                      else Ok (fsgn s pos n, flip s pos).
Proof.
  intros Hs Hp. unfold ladder. destruct cr.
  - rewrite cdg_closed by auto.
    replace (pos <? 32) with true by (symmetry; apply Nat.ltb_lt; auto).
    now destruct (occ s pos).
  - rewrite c_closed by auto. now destruct (occ s pos).
Qed.

Lemma ladder_out_lt cr s pos n sg t : ladder cr s pos n = Ok (sg, t) -> (t < 2^32)%N.
Proof.
  unfold ladder, cdg, c. destruct cr; destruct (_ <? _)%N; intros H; inversion H; apply flip_lt.
Qed.

(** ** C01 *)

Lemma cdg_success s pos n : (s < 2^32)%N ->
  (forall sg t, cdg s pos n = Ok (sg, t) ->
     occ s pos = false /\ pos < 32 /\ (t < 2^32)%N /\ sets_orbital s t pos true) /\
  (pos < 32 -> occ s pos = false -> exists sg t, cdg s pos n = Ok (sg, t)) /\
  (pos >= 32 \/ occ s pos = true -> cdg s pos n = Err AssertionError).
Proof.
  intros Hs. rewrite cdg_closed by auto. repeat split.
  - destruct (pos <? 32) eqn:E, (occ s pos) eqn:O; simpl in *; congruence.
  - destruct (pos <? 32) eqn:E; [now apply Nat.ltb_lt|discriminate].
  - destruct (_ && _); inversion H. apply flip_lt.
  - intros k. destruct (pos <? 32) eqn:E, (occ s pos) eqn:O; simpl in *; try discriminate.
    apply Nat.ltb_lt in E. inversion H; subst. rewrite occ_flip by auto.
    destruct (k =? pos) eqn:E2; auto. apply Nat.eqb_eq in E2; subst. now rewrite O.
  - intros Hp O. rewrite O. replace (pos <? 32) with true by (symmetry; apply Nat.ltb_lt; auto).
    simpl. eauto.
  - intros [H|H].
    + now replace (pos <? 32) with false by (symmetry; apply Nat.ltb_ge; auto).
    + rewrite H. now rewrite andb_false_r.
Qed.

Lemma c_success s pos n : (s < 2^32)%N ->
  (forall sg t, c s pos n = Ok (sg, t) ->
     occ s pos = true /\ (t < 2^32)%N /\ sets_orbital s t pos false) /\
  (occ s pos = true -> exists sg t, c s pos n = Ok (sg, t)) /\
  (occ s pos = false -> c s pos n = Err AssertionError).
Proof.
  intros Hs. rewrite c_closed by auto. destruct (occ s pos) eqn:O; repeat split; intros; try discriminate.
  - inversion H; apply flip_lt.
  - intros k. inversion H; subst.
    assert (pos < 32).
    { destruct (Nat.lt_ge_cases pos 32); auto. rewrite (occ_high s 32) in O; auto; discriminate. }
    rewrite occ_flip by auto. destruct (k =? pos) eqn:E2; auto.
    apply Nat.eqb_eq in E2; subst. now rewrite O.
  - eauto.
Qed.

(** ** C02 *)

Lemma cdg_sign s pos n sg t : cdg s pos n = Ok (sg, t) ->
  sg = parity_sign (nocc s (S pos) n).
Proof.
  unfold cdg. destruct (_ <? _)%N; intros H; inversion H. rewrite fsgn_spec.
  now rewrite Nat.add_1_r.
Qed.

Lemma c_sign s pos n sg t : c s pos n = Ok (sg, t) ->
  sg = parity_sign (nocc s (S pos) n).
Proof.
  unfold c. destruct (_ <? _)%N; intros H; inversion H. rewrite fsgn_spec.
  now rewrite Nat.add_1_r.
Qed.

(** ** C03 *)

Lemma after_ladder a b s i j n : (s < 2^32)%N -> i < n -> j < n -> n <= 32 -> i <> j ->
  after (fun u => ladder a u i n) (fun u => ladder b u j n) s =
  if Bool.eqb (occ s i) a || Bool.eqb (occ s j) b then Err AssertionError
  else Ok ((fsgn s j n * fsgn (flip s j) i n)%Z, flip (flip s j) i).
Proof.
  intros Hs Hi Hj Hn Hij. unfold after. rewrite (ladder_closed b) by (auto; lia).
  destruct (Bool.eqb (occ s j) b).
  - now rewrite orb_true_r.
  - rewrite (ladder_closed a) by (auto using flip_lt; lia).
    rewrite occ_flip by (auto; lia).
    replace (i =? j) with false by (symmetry; apply Nat.eqb_neq; auto).
    rewrite orb_false_r. now destruct (Bool.eqb (occ s i) a).
Qed.

Lemma anticomm_neq a b s t i j n : (s < 2^32)%N -> i < n -> j < n -> n <= 32 -> i <> j ->
  anticomm (fun u => ladder a u i n) (fun u => ladder b u j n) s t = 0%Z.
Proof.
  intros Hs Hi Hj Hn Hij. unfold anticomm.
  rewrite after_ladder, (after_ladder b a s j i n) by auto.
  rewrite (orb_comm (Bool.eqb (occ s j) b)).
  destruct (Bool.eqb (occ s i) a || Bool.eqb (occ s j) b); [reflexivity|].
  simpl. rewrite (flip_comm s i j) by (auto; lia).
  destruct (N.eqb _ _); [|reflexivity].
  destruct (Nat.lt_trichotomy i j) as [H|[H|H]]; [|lia|].
  - rewrite (fsgn_flip_above s j i n) by (auto; lia).
    rewrite (fsgn_flip_below s i j n) by (auto; lia). lia.
  - rewrite (fsgn_flip_below s j i n) by (auto; lia).
    rewrite (fsgn_flip_above s i j n) by (auto; lia). lia.
Qed.

Lemma fsgn_sq s i n : (fsgn s i n * fsgn s i n)%Z = 1%Z.
Proof. rewrite fsgn_spec. apply parity_sign_sq. Qed.

Lemma anticomm_same s t i n : (s < 2^32)%N -> i < n -> n <= 32 ->
  anticomm (fun u => ladder false u i n) (fun u => ladder true u i n) s t
  = if N.eqb s t then 1%Z else 0%Z.
Proof.
  intros Hs Hi Hn. unfold anticomm, after.
  rewrite !(ladder_closed _ s) by (auto; lia).
  destruct (occ s i) eqn:O; simpl;
    rewrite ladder_closed by (auto using flip_lt; lia);
    rewrite occ_flip, Nat.eqb_refl, O by (auto; lia); simpl;
    rewrite flip_invol, fsgn_flip_below, fsgn_sq by (auto; lia);
    destruct (N.eqb s t); reflexivity.
Qed.

Lemma after_same_zero a s i n : (s < 2^32)%N -> i < n -> n <= 32 ->
  after (fun u => ladder a u i n) (fun u => ladder a u i n) s = Err AssertionError.
Proof.
  intros Hs Hi Hn. unfold after. rewrite ladder_closed by (auto; lia).
  destruct (Bool.eqb (occ s i) a) eqn:E; [reflexivity|].
  rewrite ladder_closed by (auto using flip_lt; lia).
  rewrite occ_flip, Nat.eqb_refl by (auto; lia).
  destruct (occ s i), a; simpl in *; congruence.
Qed.

Lemma anticomm_cc s t i j n : (s < 2^32)%N -> i < n -> j < n -> n <= 32 ->
  forall a, anticomm (fun u => ladder a u i n) (fun u => ladder a u j n) s t = 0%Z.
Proof.
  intros Hs Hi Hj Hn a. destruct (Nat.eq_dec i j) as [<-|Hne].
  - unfold anticomm. rewrite after_same_zero by auto. reflexivity.
  - now apply anticomm_neq.
Qed.

Lemma anticomm_c_cdg s t i j n : (s < 2^32)%N -> i < n -> j < n -> n <= 32 ->
  anticomm (fun u => c u i n) (fun u => cdg u j n) s t
  = if (i =? j) && N.eqb s t then 1%Z else 0%Z.
Proof.
  intros Hs Hi Hj Hn. destruct (Nat.eqb_spec i j) as [<-|Hne].
  - exact (anticomm_same s t i n Hs Hi Hn).
  - exact (anticomm_neq false true s t i j n Hs Hi Hj Hn Hne).
Qed.

(** ** C04 *)

Lemma nocc_split s a b d : a <= b -> b <= d -> nocc s a d = nocc s a b + nocc s b d.
Proof.
  intros H1 H2. unfold nocc. replace (d - a) with ((b - a) + (d - b)) by lia.
  rewrite seq_app, filter_app, app_length. repeat f_equal. lia.
Qed.

Lemma nocc_step s a b : a < b -> nocc s a b = (if occ s a then 1 else 0) + nocc s (S a) b.
Proof.
  intros H. rewrite (nocc_split s a (S a) b) by lia. f_equal.
  unfold nocc. replace (S a - a) with 1 by lia. simpl. now destruct (occ s a).
Qed.

Lemma nocc_empty s a : nocc s a a = 0.
Proof. unfold nocc. now rewrite Nat.sub_diag. Qed.

Lemma cdgc_state s i j : (s < 2^32)%N -> i < 32 -> j < 32 ->
  snd (cdgc s i j) = flip (flip s j) i.
Proof.
  intros Hs Hi Hj. apply occ_ext; intros k. unfold cdgc; cbv zeta; cbn [snd].
  rewrite occ_u32, !occ_lxor, !occ_shiftl1, !occ_flip by (auto using flip_lt).
  destruct (k <? 32) eqn:E; simpl.
  - destruct (k =? i), (k =? j); simpl; rewrite ?xorb_true_r, ?xorb_false_r; auto.
  - apply Nat.ltb_ge in E.
    replace (k =? i) with false by (symmetry; apply Nat.eqb_neq; lia).
    replace (k =? j) with false by (symmetry; apply Nat.eqb_neq; lia).
    symmetry; now apply (occ_high s 32).
Qed.

Lemma cdgc_sign s i j n : (s < 2^32)%N -> i < n -> j < n -> n <= 32 ->
  occ s j = true -> occ s i = false ->
  get_parity s i j = (fsgn s j n * fsgn (flip s j) i n)%Z.
Proof.
  intros Hs Hi Hj Hn Oj Oi. rewrite get_parity_spec.
  destruct (Nat.lt_trichotomy i j) as [H|[H|H]]; [|congruence|].
  - rewrite Nat.min_l, Nat.max_r by lia.
    rewrite fsgn_flip_above, !fsgn_spec by (auto; lia).
    rewrite (nocc_split s (i+1) j n), (nocc_step s j n), Oj by lia.
    replace (j + 1) with (S j) by lia.
    rewrite !parity_sign_add. change (parity_sign 1) with (-1)%Z.
    change (parity_sign 1) with (-1)%Z.
    destruct (parity_sign_cases (nocc s (S j) n)) as [->| ->]; lia.
  - rewrite Nat.min_r, Nat.max_l by lia.
    rewrite fsgn_flip_below, !fsgn_spec by (auto; lia).
    rewrite (nocc_split s (j+1) i n), (nocc_step s i n), Oi by lia.
    replace (i + 1) with (S i) by lia.
    rewrite !parity_sign_add. change (parity_sign 0) with 1%Z.
    destruct (parity_sign_cases (nocc s (S i) n)) as [->| ->]; lia.
Qed.

Lemma cdgc_compose s i j n : (s < 2^32)%N -> i < n -> j < n -> n <= 32 ->
  occ s j = true -> occ s i = false ->
  after (fun u => cdg u i n) (fun u => c u j n) s = Ok (cdgc s i j).
Proof.
  intros Hs Hi Hj Hn Oj Oi.
  change (after (fun u => ladder true u i n) (fun u => ladder false u j n) s = Ok (cdgc s i j)).
  rewrite after_ladder by (auto; congruence). rewrite Oi, Oj. simpl.
  f_equal. rewrite (surjective_pairing (cdgc s i j)), cdgc_state by (auto; lia).
  f_equal. simpl. symmetry. now apply cdgc_sign.
Qed.

(** ** C05 *)

Lemma adjoint_lemma s t i n sg : (s < 2^32)%N -> (t < 2^32)%N -> i < n -> n <= 32 ->
  cdg s i n = Ok (sg, t) <-> c t i n = Ok (sg, s).
Proof.
  intros Hs Ht Hi Hn. rewrite cdg_closed, c_closed by auto.
  replace (i <? 32) with true by (symmetry; apply Nat.ltb_lt; lia). simpl.
  split; intros H.
  - destruct (occ s i) eqn:O; simpl in H; [discriminate|]. inversion H; subst.
    rewrite occ_flip, Nat.eqb_refl, O, flip_invol, fsgn_flip_below by (auto; lia). reflexivity.
  - destruct (occ t i) eqn:O; [|discriminate]. inversion H; subst.
    rewrite occ_flip, Nat.eqb_refl, O, flip_invol, fsgn_flip_below by (auto; lia). reflexivity.
Qed.

(** ** C06 *)

Lemma check_full_spec s i : check_full s i = if occ s i then 1%N else 0%N.
Proof. apply bitval_spec. Qed.

Lemma check_empty_spec s i : check_empty s i = if occ s i then 0%N else 1%N.
Proof. unfold check_empty. rewrite check_full_spec. now destruct (occ s i). Qed.

Lemma number_op s i n : (s < 2^32)%N ->
  (check_full s i = 1%N -> after (fun u => cdg u i n) (fun u => c u i n) s = Ok (1%Z, s)) /\
  (check_full s i <> 1%N -> after (fun u => cdg u i n) (fun u => c u i n) s = Err AssertionError) /\
  (check_full s i <= 1)%N /\
  check_empty s i = (1 - check_full s i)%N.
Proof.
  intros Hs. rewrite check_full_spec, check_empty_spec. unfold after. rewrite c_closed by auto.
  destruct (occ s i) eqn:O; repeat split; intros; try lia; try congruence.
  assert (i < 32).
  { destruct (Nat.lt_ge_cases i 32); auto. rewrite (occ_high s 32) in O; auto; discriminate. }
  rewrite cdg_closed by apply flip_lt. rewrite occ_flip, Nat.eqb_refl, O by auto.
  replace (i <? 32) with true by (symmetry; now apply Nat.ltb_lt). simpl.
  rewrite flip_invol, fsgn_flip_below, fsgn_sq by auto. reflexivity.
Qed.
