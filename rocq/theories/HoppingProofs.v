(** Proofs about the hopping builder. *)
From Coq Require Import List Arith NArith ZArith Lia Bool Ring.
From Verif Require Import Base OperatorsModel OperatorsSpec OperatorsProofs LookupModel LookupSpec
  LookupProofs SectorModel SectorSpec SectorProofs FockSpec FockProofs LocalModel HoppingModel
  CsrSpec CsrProofs.
Import ListNotations.

(** ** Counting states with given occupations *)

Lemma occ_top_add n s k : (s < 2 ^ N.of_nat n)%N ->
  occ (2 ^ N.of_nat n + s) k = if k =? n then true else occ s k.
Proof.
  intros H. replace (2 ^ N.of_nat n + s)%N with (combine n s 1) by (unfold combine; lia).
  rewrite occ_combine by auto. destruct (Nat.ltb_spec k n), (Nat.eqb_spec k n); auto; try lia.
  - subst. now rewrite Nat.sub_diag.
  - destruct (k - n) as [|m] eqn:E; [lia|]. rewrite (occ_high s n) by (auto; lia).
    change 1%N with (2 * 0 + 1)%N. rewrite occ_sdouble_S. apply occ_0.
Qed.

Definition cnt (f : N -> bool) (n p : nat) : nat := length (filter f (cand n p)).

Lemma cnt_S f n p : cnt f (S n) p =
  cnt f n p + match p with O => 0 | S p => cnt (fun s => f (2 ^ N.of_nat n + s)%N) n p end.
Proof.
  unfold cnt. cbn [cand]. rewrite filter_app, app_length. destruct p; auto.
  now rewrite filter_map_length.
Qed.

Lemma cnt_ext f g n p : (forall s, in_sector n p s -> f s = g s) -> cnt f n p = cnt g n p.
Proof. intros H. unfold cnt. f_equal. apply filter_ext_in. intros s Hs. apply H. now apply cand_In. Qed.

Lemma cnt_true n p : cnt (fun _ => true) n p = binom n p.
Proof.
  unfold cnt. rewrite <- cand_length. f_equal. induction (cand n p); simpl; auto. now rewrite IHl.
Qed.
Lemma cnt_false n p : cnt (fun _ => false) n p = 0.
Proof. unfold cnt. induction (cand n p); simpl; auto. Qed.

Lemma cnt_occ n : forall p j, j < n -> cnt (fun s => occ s j) n p =
  match p with O => 0 | S p => binom (n - 1) p end.
Proof.
  induction n; intros p j Hj; [lia|]. rewrite cnt_S. replace (S n - 1) with n by lia.
  destruct (Nat.eq_dec j n) as [->|Hne].
  - rewrite (cnt_ext _ (fun _ => false) n p), cnt_false
      by (intros s [Hs _]; apply (occ_high s n); auto).
    destruct p; auto. rewrite (cnt_ext _ (fun _ => true) n p), cnt_true; auto.
    intros s [Hs _]. rewrite occ_top_add by auto. now rewrite Nat.eqb_refl.
  - rewrite IHn by lia. destruct p; auto.
    rewrite (cnt_ext _ (fun s => occ s j) n p).
    + rewrite IHn by lia. destruct p; [rewrite !binom_0_r; lia|].
      destruct n; [lia|]. replace (S n - 1) with n by lia. cbn [binom]. lia.
    + intros s [Hs _]. rewrite occ_top_add by auto.
      now replace (j =? n) with false by (symmetry; apply Nat.eqb_neq; lia).
Qed.

Lemma cnt_compl f n p : cnt f n p + cnt (fun s => negb (f s)) n p = binom n p.
Proof.
  rewrite <- cand_length. unfold cnt. induction (cand n p); simpl; auto.
  destruct (f a); simpl; lia.
Qed.

Lemma cnt_emp n p j : j < n -> cnt (fun s => negb (occ s j)) n p = binom (n - 1) p.
Proof.
  intros Hj. pose proof (cnt_compl (fun s => occ s j) n p) as H. rewrite cnt_occ in H by auto.
  destruct n; [lia|]. replace (S n - 1) with n in * by lia.
  destruct p; cbn [binom] in *; [rewrite binom_0_r; lia|lia].
Qed.

Lemma cnt_hop n : forall p i j, i < n -> j < n -> i <> j ->
  cnt (fun s => negb (occ s i) && occ s j) n p = match p with O => 0 | S p => binom (n - 2) p end.
Proof.
  induction n; intros p i j Hi Hj Hij; [lia|]. rewrite cnt_S.
  destruct (Nat.eq_dec i n) as [->|Hi'].
  - rewrite (cnt_ext _ (fun s => occ s j) n p).
    2: { intros s [Hs _]. now rewrite (occ_high s n) by auto. }
    rewrite cnt_occ by lia. destruct p; auto.
    rewrite (cnt_ext _ (fun _ => false) n p), cnt_false.
    + replace (S n - 2) with (n - 1) by lia. lia.
    + intros s [Hs _]. now rewrite occ_top_add, Nat.eqb_refl by auto.
  - destruct (Nat.eq_dec j n) as [->|Hj'].
    + rewrite (cnt_ext _ (fun _ => false) n p), cnt_false.
      2: { intros s [Hs _]. now rewrite (occ_high s n n), andb_false_r by auto. }
      destruct p; auto. rewrite (cnt_ext _ (fun s => negb (occ s i)) n p).
      * rewrite cnt_emp by lia. replace (S n - 2) with (n - 1) by lia. lia.
      * intros s [Hs _]. rewrite !occ_top_add, Nat.eqb_refl, andb_true_r by auto.
        now replace (i =? n) with false by (symmetry; now apply Nat.eqb_neq).
    + rewrite IHn by lia. destruct p; auto.
      rewrite (cnt_ext _ (fun s => negb (occ s i) && occ s j) n p).
      * rewrite IHn by lia. destruct p; [rewrite !binom_0_r; lia|].
        destruct n as [|[|n]]; try lia. replace (S (S n) - 2) with n by lia.
        replace (S (S (S n)) - 2) with (S n) by lia. cbn [binom]. lia.
      * intros s [Hs _]. rewrite !occ_top_add by auto.
        now replace (i =? n) with false by (symmetry; now apply Nat.eqb_neq);
        replace (j =? n) with false by (symmetry; now apply Nat.eqb_neq).
Qed.

Lemma cnt_hop_binomZ n p i j : i < n -> j < n -> i <> j ->
  cnt (fun s => negb (occ s i) && occ s j) n p = binomZ (Z.of_nat n - 2) (Z.of_nat p - 1).
Proof.
  intros Hi Hj Hij. rewrite cnt_hop by auto. unfold binomZ.
  replace (Z.of_nat n - 2 <? 0)%Z with false by (symmetry; apply Z.ltb_ge; lia).
  destruct p; [reflexivity|].
  replace (Z.of_nat (S p) - 1 <? 0)%Z with false by (symmetry; apply Z.ltb_ge; lia).
  f_equal; lia.
Qed.

Lemma cand_nonempty n p : p <= n -> exists s l, cand n p = s :: l.
Proof.
  intros Hp. destruct (cand n p) as [|s l] eqn:E; [|eauto].
  pose proof (cand_length n p) as H. rewrite E in H. pose proof (binom_pos n p Hp). simpl in H. lia.
Qed.

Lemma sector_lt32 n p s : n <= 32 -> in_sector n p s -> (s < 2^32)%N.
Proof. intros Hn [H _]. eapply N.lt_le_trans; [exact H|]. apply N.pow_le_mono_r; lia. Qed.

(** ** The builder *)

Section Hop.
Variable K : CRing.
Variable big : K -> bool.
Local Open Scope cr_scope.
Add Ring Kring : (cth K).
Variables (n p : nat).
Hypothesis Hn : (n <= 32)%nat.
Variable A : nat -> nat -> K.

Definition idx (states : list N) (f : N) : Z :=
  match binsearch states f with Ok k => k | Err _ => (-1)%Z end.

Lemma binsearch_idx states f : binsearch states f = Ok (idx states f).
Proof. unfold idx. destruct (binsearch_total states f) as [r [-> _]]. reflexivity. Qed.

Lemma idx_cand f : in_sector n p f ->
  exists k, (k < length (cand n p))%nat /\ nth_error (cand n p) k = Some f /\ idx (cand n p) f = Z.of_nat k.
Proof.
  intros H. apply cand_In in H. apply In_nth_error in H. destruct H as [k Hk]. exists k.
  split; [apply nth_error_Some; congruence|]. split; auto.
  unfold idx. rewrite (binsearch_found (cand n p) f k); auto. apply cand_increasing.
Qed.

(** Entries written by [add_hoppings] for state [s]. *)
Definition hop_entries (s : N) (i : nat) : list (Z * K) :=
  if occ s i then [] else
  map (fun e => (idx (cand n p) (snd (cdgc s i (Z.to_nat (fst e)))),
                 snd e * z2k (fst (cdgc s i (Z.to_nat (fst e))))))
      (filter (fun e => occ s (Z.to_nat (fst e))) (Trow K big n A i)).
Definition hop_row (s : N) : list (Z * K) := flat_map (hop_entries s) (seq 0 n).

Lemma add_hoppings_row nnz d nnzT rows s : nth_error (cand n p) (length rows) = Some s ->
  (length rows < d)%nat ->
  (length (concat rows) + length (hop_row s) <= nnz)%nat ->
  add_hoppings K (length rows) (cand n p) (mk K nnzT n n (Trows K big n A) [])
    (length (concat rows)) (mk K nnz d d rows []) =
  Ok (length (concat (rows ++ [hop_row s])), mk K nnz d d (rows ++ [hop_row s]) []).
Proof.
  intros Hs Hd Hl. unfold add_hoppings. rewrite Hs. cbv zeta.
  match goal with |- context [foldM ?F (seq 0 (nrows K _)) _] => set (body := F) end.
  assert (Hb : forall i, In i (seq 0 n) -> emits K nnz d d body (hop_entries s) i).
  { intros i Hi rows' cur' Hlen. apply in_seq in Hi. unfold body.
    rewrite check_empty_spec. unfold hop_entries in *.
    destruct (occ s i) eqn:Oi; cbn [N.eqb negb].
    - now rewrite app_nil_r.
    - rewrite (foldM_Trow K big n A nnzT (fun st j tr =>
            let '(count, sp_mat) := st in
            if negb (N.eqb (check_full s (Z.to_nat j)) 0) then
              let '(sgn, f) := cdgc s i (Z.to_nat j) in
              do t <- tr;
              do sp_mat <- set_data K sp_mat count (t * z2k sgn);
              do k <- binsearch (cand n p) f;
              do sp_mat <- set_indices K sp_mat count k;
              Ok (S count, sp_mat)
            else Ok (count, sp_mat)) i) by lia.
      rewrite <- flat_map_if in *.
      apply emits_foldM; auto.
      intros e He rows'' cur'' Hle. rewrite check_full_spec.
      destruct (occ s (Z.to_nat (fst e))); cbn [N.eqb negb]; [|now rewrite app_nil_r].
      cbn [length] in Hle.
      rewrite (surjective_pairing (cdgc s i (Z.to_nat (fst e)))) at 1. cbn [bind].
      rewrite <- mk_step_data by lia. cbn [fst snd].
      destruct (set_data K _ _ _); cbn [bind]; auto. now rewrite binsearch_idx. }
  pose proof (emits_foldM K nnz d d body (hop_entries s) (seq 0 n) Hb rows []) as E.
  rewrite !app_nil_r in E. specialize (E Hl). cbn [app] in E. fold (hop_row s) in E.
  change (nrows K (mk K nnzT n n (Trows K big n A) [])) with n. 
  rewrite E. cbn [bind].
  pose proof (mk_close K nnz d d rows (hop_row s) Hd) as C.
  unfold bind at 1 in C. unfold bind at 1.
  destruct (rd (indptr K (mk K nnz d d rows (hop_row s))) (length rows)); [|discriminate].
  rewrite C. cbn [bind]. rewrite concat_app. cbn. now rewrite app_nil_r.
Qed.

Lemma hop_entries_length s i : length (hop_entries s i) =
  list_sum (map (fun e => b2n (negb (occ s i) && occ s (Z.to_nat (fst e)))) (Trow K big n A i)).
Proof.
  unfold hop_entries. destruct (occ s i); cbn [negb andb].
  - rewrite list_sum_const. cbn. lia.
  - now rewrite map_length, length_filter_sum.
Qed.

Lemma hop_total : list_sum (map (fun s => length (hop_row s)) (cand n p)) =
  (count_nnz_offdiag K big n A * binomZ (Z.of_nat n - 2) (Z.of_nat p - 1))%nat.
Proof.
  unfold hop_row.
  rewrite (list_sum_ext _ (fun s => list_sum (map (fun i => length (hop_entries s i)) (seq 0 n))))
    by (intros; apply length_flat_map).
  rewrite list_sum_swap.
  rewrite (list_sum_ext _ (fun i => (length (Trow K big n A i) * binomZ (Z.of_nat n - 2) (Z.of_nat p - 1))%nat)).
  - rewrite list_sum_scal_r. f_equal. rewrite count_nnz_offdiag_spec. unfold Trows.
    rewrite <- flat_map_concat_map, length_flat_map. reflexivity.
  - intros i Hi. apply in_seq in Hi.
    rewrite (list_sum_ext _ _ _ (fun s _ => hop_entries_length s i)).
    rewrite list_sum_swap.
    rewrite (list_sum_ext _ (fun _ => binomZ (Z.of_nat n - 2) (Z.of_nat p - 1))), list_sum_const; auto.
    intros e He. apply Trow_In in He. destruct He as [j [Hj [Hij [_ ->]]]]. cbn [fst].
    rewrite Nat2Z.id, <- length_filter_sum. apply (cnt_hop_binomZ n p i j); auto; lia.
Qed.

Lemma hop_rows_concat l : length (concat (map hop_row l)) = list_sum (map (fun s => length (hop_row s)) l).
Proof. rewrite <- flat_map_concat_map. apply length_flat_map. Qed.

Lemma firstn_map_cand k : (k <= length (cand n p))%nat ->
  length (map hop_row (firstn k (cand n p))) = k.
Proof. intros. rewrite map_length, firstn_length. lia. Qed.

Hypothesis Hp : (p <= n)%nat.

Lemma build_hop_spec :
  build_hop K big n A (cand n p) =
  Ok (mk K (count_nnz_offdiag K big n A * binomZ (Z.of_nat n - 2) (Z.of_nat p - 1))
        (length (cand n p)) (length (cand n p)) (map hop_row (cand n p)) []).
Proof.
  destruct (cand_nonempty n p Hp) as [s0 [l0 E]]. unfold build_hop. rewrite E at 1.
  assert (Hs0 : in_sector n p s0) by (apply cand_In; rewrite E; now left).
  rewrite count_bits_popcount by apply Hs0. destruct Hs0 as [_ ->].
  rewrite nat_N_Z. rewrite nnz_offdiag_spec. cbn [bind]. clear s0 l0 E.
  set (nnz := (count_nnz_offdiag K big n A * _)%nat). set (d := length (cand n p)).
  rewrite mk_empty.
  assert (H : forall m lo, (lo + m = d)%nat ->
    foldM (fun st ix => add_hoppings K ix (cand n p) (mk K (count_nnz_offdiag K big n A) n n (Trows K big n A) [])
                          (fst st) (snd st)) (seq lo m)
      (length (concat (map hop_row (firstn lo (cand n p)))), mk K nnz d d (map hop_row (firstn lo (cand n p))) []) =
    Ok (length (concat (map hop_row (cand n p))), mk K nnz d d (map hop_row (cand n p)) [])).
  { induction m; intros lo Hlo; cbn [seq foldM].
    - rewrite Nat.add_0_r in Hlo. subst lo. unfold d. now rewrite firstn_all.
    - cbn [fst snd]. destruct (nth_error (cand n p) lo) as [s|] eqn:Es.
      2: { apply nth_error_None in Es. unfold d in Hlo. lia. }
      assert (Hlen : length (map hop_row (firstn lo (cand n p))) = lo)
        by (apply firstn_map_cand; unfold d in Hlo; lia).
      rewrite <- Hlen in Es at 1.
      assert (Hsplit : (length (concat (map hop_row (firstn lo (cand n p)))) + length (hop_row s) <= nnz)%nat).
      { unfold nnz. rewrite <- hop_total. rewrite Hlen in Es.
        rewrite <- (firstn_skipn lo (cand n p)) at 2. rewrite map_app, list_sum_app, hop_rows_concat.
        destruct (skipn lo (cand n p)) as [|s' tl] eqn:Esk.
        - exfalso. pose proof (skipn_length lo (cand n p)) as L. rewrite Esk in L. simpl in L. unfold d in Hlo. lia.
        - assert (s' = s).
          { rewrite <- (firstn_skipn lo (cand n p)), Esk in Es.
            rewrite nth_error_app2 in Es by (rewrite firstn_length; lia).
            rewrite firstn_length, Nat.min_l, Nat.sub_diag in Es by (unfold d in Hlo; lia).
            simpl in Es. congruence. }
          subst s'. simpl. lia. }
      pose proof (add_hoppings_row nnz d (count_nnz_offdiag K big n A) _ s Es ltac:(lia) Hsplit) as R.
      rewrite Hlen in R. rewrite R. cbn [bind].
      assert (Hf : map hop_row (firstn lo (cand n p)) ++ [hop_row s] = map hop_row (firstn (S lo) (cand n p))).
      { rewrite Hlen in Es. rewrite (firstn_S_nth_error _ _ _ Es), map_app. reflexivity. }
      rewrite Hf. apply IHm. lia. }
  specialize (H d 0%nat eq_refl). cbn [firstn map concat length] in H. rewrite H. reflexivity.
Qed.

Lemma hop_row_cols s e : in_sector n p s -> In e (hop_row s) ->
  exists k f, e = (Z.of_nat k, snd e) /\ nth_error (cand n p) k = Some f.
Proof.
  intros Hs He. apply in_flat_map in He. destruct He as [i [Hi He]]. apply in_seq in Hi.
  unfold hop_entries in He. destruct (occ s i) eqn:Oi; [destruct He|].
  apply in_map_iff in He. destruct He as [e' [<- He']]. apply filter_In in He'.
  destruct He' as [He' Oj]. apply Trow_In in He'. destruct He' as [j [Hj [Hij [_ ->]]]].
  cbn [fst snd] in *. rewrite Nat2Z.id in *. destruct Hs as [Hs1 Hs2].
  pose proof (cdgc_in_sector s i j n p Hs1 Hs2 Hn ltac:(lia) Hj Hij Oj Oi) as Hf.
  destruct (idx_cand _ Hf) as [k [_ [Hk ->]]]. exists k, (snd (cdgc s i j)). auto.
Qed.

Lemma hop_freeze :
  freeze K (mk K (count_nnz_offdiag K big n A * binomZ (Z.of_nat n - 2) (Z.of_nat p - 1))
        (length (cand n p)) (length (cand n p)) (map hop_row (cand n p)) []) =
  Ok (sp_of K (length (cand n p)) (length (cand n p)) (map hop_row (cand n p))).
Proof.
  apply freeze_mk; [|now rewrite map_length]. rewrite hop_rows_concat. apply hop_total.
Qed.

Lemma hop_wf : sp_wf K (sp_of K (length (cand n p)) (length (cand n p)) (map hop_row (cand n p))).
Proof.
  apply sp_of_wf; [now rewrite map_length|]. intros row e Hr He.
  apply in_map_iff in Hr. destruct Hr as [s [<- Hs]]. apply cand_In in Hs.
  destruct (hop_row_cols s e Hs He) as [k [f [-> Hk]]]. cbn [fst].
  assert (k < length (cand n p))%nat by (apply nth_error_Some; congruence). lia.
Qed.

Lemma hop_get a b sa sb : nth_error (cand n p) a = Some sa -> nth_error (cand n p) b = Some sb ->
  sp_get K (sp_of K (length (cand n p)) (length (cand n p)) (map hop_row (cand n p))) a b =
  nsum n (fun i => nsum n (fun j => offdiag K big A i j * z2k (elem n [Cr i; An j] sb sa))).
Proof.
  intros Ha Hb. rewrite (sp_get_rows K _ _ _ a (hop_row sa)) by now rewrite nth_error_map, Ha.
  unfold hop_row. rewrite bsum_flat_map. unfold nsum at 1. apply bsum_ext. intros i Hi.
  apply in_seq in Hi.
  assert (Hsa : in_sector n p sa) by (apply cand_In; eapply nth_error_In; eauto).
  assert (Hsa32 := sector_lt32 n p sa Hn Hsa).
  rewrite (nsum_ext K n _ (fun j => offdiag K big A i j *
     (if occ sa j && negb (occ sa i) then
        (if N.eqb (snd (cdgc sa i j)) sb then z2k (fst (cdgc sa i j)) else 0) else 0))).
  2: { intros j Hj. unfold offdiag. destruct (Nat.eqb_spec i j) as [->|Hij]; cbn [negb andb]; [ring|].
       rewrite elem_hop by (auto; lia). destruct (occ sa j && negb (occ sa i)); auto.
       destruct (N.eqb (snd (cdgc sa i j)) sb); auto. }
  rewrite <- (bsum_Trow K big n A i (fun j x => x *
     (if occ sa j && negb (occ sa i) then
        (if N.eqb (snd (cdgc sa i j)) sb then z2k (fst (cdgc sa i j)) else 0) else 0))) by (intros; ring).
  unfold hop_entries. destruct (occ sa i) eqn:Oi.
  - cbn [bsum]. symmetry. apply bsum_0. intros e He. rewrite andb_false_r. ring.
  - rewrite bsum_map, bsum_filter. apply bsum_ext. intros e He. cbn [fst snd].
    destruct (occ sa (Z.to_nat (fst e))) eqn:Oj; cbn [andb negb]; [|ring].
    apply Trow_In in He. destruct He as [j [Hj [Hij [_ ->]]]]. cbn [fst snd] in *.
    rewrite Nat2Z.id in *.
    pose proof (cdgc_in_sector sa i j n p (proj1 Hsa) (proj2 Hsa) Hn ltac:(lia) Hj Hij Oj Oi) as Hf.
    destruct (idx_cand _ Hf) as [k [_ [Hk ->]]].
    destruct (Z.eqb_spec (Z.of_nat k) (Z.of_nat b)) as [E|E].
    + assert (k = b) by lia. subst k. rewrite Hb in Hk.
      assert (E' : snd (cdgc sa i j) = sb) by congruence. rewrite E', N.eqb_refl. reflexivity.
    + destruct (N.eqb_spec (snd (cdgc sa i j)) sb) as [E'|E']; [|ring].
      exfalso. apply E. f_equal. rewrite E' in Hk.
      apply (increasing_nth_inj (cand n p) k b sb); auto using cand_increasing.
Qed.

End Hop.

(** ** Statements about the API *)

Section HopApi.
Variable K : CRing.
Variable big : K -> bool.
Local Open Scope cr_scope.

Lemma build_hop_ok n p A states : (p <= n)%nat -> (n <= 32)%nat -> generate_states n p = Ok states ->
  exists m sp, build_hop K big n A states = Ok m /\ freeze K m = Ok sp /\
    sp_wf K sp /\ m_rows K sp = length states /\ m_cols K sp = length states /\
    length (m_data K sp) =
      (length (filter (fun ij => negb (fst ij =? snd ij)%nat && big (A (fst ij) (snd ij)))
                 (list_prod (seq 0 n) (seq 0 n))) * binomZ (Z.of_nat n - 2) (Z.of_nat p - 1))%nat /\
    forall a b sa sb, nth_error states a = Some sa -> nth_error states b = Some sb ->
      sp_get K sp a b =
      nsum n (fun i => nsum n (fun j => offdiag K big A i j * z2k (elem n [Cr i; An j] sb sa))).
Proof.
  intros Hp Hn Hg. rewrite generate_states_cand in Hg by auto. injection Hg as <-.
  eexists. eexists. split; [apply build_hop_spec; auto|]. split; [now apply hop_freeze|].
  split; [now apply hop_wf|]. split; [reflexivity|]. split; [reflexivity|].
  split; [|intros; now apply hop_get].
  unfold sp_of; cbn [m_data]. rewrite map_length, hop_rows_concat, hop_total by auto. f_equal.
    rewrite count_nnz_offdiag_spec. unfold Trows. rewrite <- flat_map_concat_map, length_flat_map.
    assert (G : forall l, list_sum (map (fun a => length (Trow K big n A a)) l) =
      length (filter (fun ij => negb (fst ij =? snd ij)%nat && big (A (fst ij) (snd ij)))
                 (list_prod l (seq 0 n)))).
    { induction l as [|i l IH]; [reflexivity|]. cbn [map list_sum fold_right list_prod].
      rewrite filter_app, app_length. unfold list_sum in IH. rewrite IH. f_equal.
      rewrite filter_map_length. unfold Trow. now rewrite map_length. }
    apply G.
Qed.

Lemma build_ham_hopping_eq n H up dw : up <> [] -> dw <> [] ->
  build_ham_hopping K big n H (StSz up dw) =
  do mu <- build_hop K big n (H 0%nat) up;
  do md <- build_hop K big n (H 1%nat) dw;
  do fu <- freeze K mu;
  do fd <- freeze K md;
  Ok (fu, fd).
Proof. intros Hu Hd. destruct up; [congruence|]. destruct dw; [congruence|]. reflexivity. Qed.

Lemma build_ham_hopping_ok n nup ndw H up dw : (nup <= n)%nat -> (ndw <= n)%nat -> (n <= 32)%nat ->
  generate_states n nup = Ok up -> generate_states n ndw = Ok dw ->
  exists mu md, build_ham_hopping K big n H (StSz up dw) = Ok (mu, md) /\
    sp_wf K mu /\ sp_wf K md /\ m_rows K mu = length up /\ m_rows K md = length dw /\
    m_cols K mu = length up /\ m_cols K md = length dw /\
    (forall a b sa sb, nth_error up a = Some sa -> nth_error up b = Some sb ->
      sp_get K mu a b =
      nsum n (fun i => nsum n (fun j => offdiag K big (H 0%nat) i j * z2k (elem n [Cr i; An j] sb sa)))) /\
    (forall a b sa sb, nth_error dw a = Some sa -> nth_error dw b = Some sb ->
      sp_get K md a b =
      nsum n (fun i => nsum n (fun j => offdiag K big (H 1%nat) i j * z2k (elem n [Cr i; An j] sb sa)))).
Proof.
  intros Hu Hd Hn Gu Gd.
  destruct (build_hop_ok n nup (H 0%nat) up Hu Hn Gu) as [m1 [s1 [B1 [F1 [W1 [R1 [C1 [_ E1]]]]]]]].
  destruct (build_hop_ok n ndw (H 1%nat) dw Hd Hn Gd) as [m2 [s2 [B2 [F2 [W2 [R2 [C2 [_ E2]]]]]]]].
  exists s1, s2. split.
  - rewrite generate_states_cand in Gu, Gd by auto. injection Gu as <-. injection Gd as <-.
    rewrite build_ham_hopping_eq by (intros E0;
      first [pose proof (cand_nonempty n nup Hu) as [? [? ?]] | idtac];
      first [pose proof (cand_nonempty n ndw Hd) as [? [? ?]] | idtac]; congruence).
    rewrite B1. cbn [bind]. rewrite B2. cbn [bind]. rewrite F1. cbn [bind]. now rewrite F2.
  - split; [exact W1|]. split; [exact W2|]. auto 10.
Qed.

End HopApi.

Lemma offdiag_sym (K : CRing) big (A : nat -> nat -> K) i j : A i j = A j i ->
  offdiag K big A i j = offdiag K big A j i.
Proof. intros E. unfold offdiag. rewrite Nat.eqb_sym, E. reflexivity. Qed.

Lemma one_body_transpose (K : CRing) big n (A : nat -> nat -> K) s t :
  (forall i j, i < n -> j < n -> A i j = A j i) ->
  nsum n (fun i => nsum n (fun j => cmul K (offdiag K big A i j) (z2k (elem n [Cr i; An j] t s)))) =
  nsum n (fun i => nsum n (fun j => cmul K (offdiag K big A i j) (z2k (elem n [Cr i; An j] s t)))).
Proof.
  intros HA. rewrite nsum_swap. apply nsum_ext. intros j Hj. apply nsum_ext. intros i Hi.
  rewrite (offdiag_sym K big A i j) by auto. rewrite (elem_adj n [Cr i; An j]). reflexivity.
Qed.

(** For symmetric one-body matrices the stored matrix is the operator. *)
Lemma build_ham_hopping_sym (K : CRing) (big : K -> bool) n nup ndw H up dw :
  nup <= n -> ndw <= n -> n <= 32 ->
  generate_states n nup = Ok up -> generate_states n ndw = Ok dw ->
  (forall s i j, i < n -> j < n -> H s i j = H s j i) ->
  exists mu md, build_ham_hopping K big n H (StSz up dw) = Ok (mu, md) /\
    (forall a b sa sb, nth_error up a = Some sa -> nth_error up b = Some sb ->
      sp_get K mu a b = nsum n (fun i => nsum n (fun j =>
        cmul K (offdiag K big (H 0) i j) (z2k (elem n [Cr i; An j] sa sb)))) /\
      sp_get K mu a b = sp_get K mu b a) /\
    (forall a b sa sb, nth_error dw a = Some sa -> nth_error dw b = Some sb ->
      sp_get K md a b = nsum n (fun i => nsum n (fun j =>
        cmul K (offdiag K big (H 1) i j) (z2k (elem n [Cr i; An j] sa sb)))) /\
      sp_get K md a b = sp_get K md b a).
Proof.
  intros Hu Hd Hn Gu Gd HS.
  destruct (build_ham_hopping_ok K big n nup ndw H up dw Hu Hd Hn Gu Gd)
    as [mu [md [E [_ [_ [_ [_ [_ [_ [E1 E2]]]]]]]]]].
  exists mu, md. split; [exact E|]. split; intros a b sa sb Ha Hb.
  - rewrite (E1 a b sa sb), (E1 b a sb sa) by auto. rewrite <- one_body_transpose by auto. auto.
  - rewrite (E2 a b sa sb), (E2 b a sb sa) by auto. rewrite <- one_body_transpose by auto. auto.
Qed.

(** A non-symmetric one-body matrix is stored transposed. *)
Definition wT (s i j : nat) : QcRing := if (i =? 0) && (j =? 1) then qz 2 else qz 0.
Definition wbig (x : QcRing) : bool := negb (if Qcanon.Qc_eq_dec x (qz 0) then true else false).
Lemma hopping_transposed :
  exists mu md, build_ham_hopping QcRing wbig 2 wT (StSz [1; 2]%N [1; 2]%N) = Ok (mu, md) /\
    sp_get QcRing mu 1 0 = qz 2 /\ sp_get QcRing mu 0 1 = qz 0 /\
    elem 2 [Cr 0; An 1] 1 2 = 1%Z /\ elem 2 [Cr 0; An 1] 2 1 = 0%Z.
Proof. eexists. eexists. split; [vm_compute; reflexivity|]. vm_compute. repeat split. Qed.
