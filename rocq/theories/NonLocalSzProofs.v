(** The Sz non-local builder against second quantisation, and its relation to
    the N builder. *)
From Coq Require Import List Arith NArith ZArith Lia Bool Ring.
From Verif Require Import Base OperatorsModel OperatorsSpec OperatorsProofs LookupModel LookupSpec
  LookupProofs SectorModel SectorSpec SectorProofs FockSpec FockProofs LocalModel HoppingModel
  CsrSpec CsrProofs HoppingProofs NonLocalModel NonLocalSpec NonLocalFock NonLocalProofs NonLocalSz.
Import ListNotations.

Lemma combine_in_sector n nup ndw u d : in_sector n nup u -> in_sector n ndw d ->
  in_sector (2 * n) (nup + ndw) (combine n u d).
Proof.
  intros [Hu Pu] [Hd Pd]. unfold combine. split.
  - replace (N.of_nat (2 * n)) with (N.of_nat n + N.of_nat n)%N by lia. rewrite N.pow_add_r. nia.
  - rewrite N.add_comm, popcount_split by auto. lia.
Qed.

Section SzP.
Variable K : CRing.
Variable big : K -> bool.
Variable half : K.
Local Open Scope cr_scope.
Add Ring Kring : (cth K).

Lemma bsum_fold {A} (f : A -> K) l : forall t, fold_left (fun t e => t + f e) l t = t + bsum f l.
Proof. induction l as [|a l IH]; intros t; cbn [fold_left bsum]; [ring|]. rewrite IH. ring. Qed.

Lemma fold_left_ext2 {A B} (f g : A -> B -> A) l : (forall a b, In b l -> f a b = g a b) ->
  forall a, fold_left f l a = fold_left g l a.
Proof.
  induction l as [|b l IH]; intros H a; cbn [fold_left]; auto.
  rewrite H by now left. apply IH. intros; apply H; now right.
Qed.

(** <t| c+_i c+_j c_i c_j |s> for distinct orbitals. *)
Lemma elem_same n i j t s : (i < n)%nat -> (j < n)%nat -> i <> j ->
  elem n [Cr i; Cr j; An i; An j] t s =
  if occ s i && occ s j && N.eqb s t then (-1)%Z else 0%Z.
Proof.
  intros Hi Hj Hij. unfold elem. rewrite word_same by auto.
  destruct (occ s i && occ s j); cbn [andb]; auto.
Qed.

Lemma elem_exch_00 n i j t u d : (i < n)%nat -> (j < n)%nat -> i <> j -> (u < 2 ^ N.of_nat n)%N ->
  elem (2 * n) (exch_word n i j 0 0) t (combine n u d) =
  if occ u i && occ u j && N.eqb (combine n u d) t then (-1)%Z else 0%Z.
Proof.
  intros Hi Hj Hij Hu. unfold exch_word. rewrite !Nat.mul_0_l, !Nat.add_0_r.
  rewrite elem_same by lia. rewrite !occ_combine by auto.
  replace (i <? n)%nat with true by (symmetry; now apply Nat.ltb_lt).
  replace (j <? n)%nat with true by (symmetry; now apply Nat.ltb_lt). reflexivity.
Qed.

Lemma elem_exch_11 n i j t u d : (i < n)%nat -> (j < n)%nat -> i <> j -> (u < 2 ^ N.of_nat n)%N ->
  elem (2 * n) (exch_word n i j 1 1) t (combine n u d) =
  if occ d i && occ d j && N.eqb (combine n u d) t then (-1)%Z else 0%Z.
Proof.
  intros Hi Hj Hij Hu. unfold exch_word. rewrite !Nat.mul_1_l.
  rewrite elem_same by lia. rewrite !occ_combine by auto.
  replace (i + n <? n)%nat with false by (symmetry; apply Nat.ltb_ge; lia).
  replace (j + n <? n)%nat with false by (symmetry; apply Nat.ltb_ge; lia).
  now rewrite !Nat.add_sub.
Qed.

Lemma coupling_ext n J W W' t s t' s' :
  (forall i j, (i < n)%nat -> (j < n)%nat -> i <> j -> elem (2 * n) (W i j) t s = elem (2 * n) (W' i j) t' s') ->
  coupling K n (offdiag K big J) W t s = coupling K n (offdiag K big J) W' t' s'.
Proof.
  intros H. unfold coupling. apply nsum_ext. intros i Hi. apply nsum_ext. intros j Hj.
  unfold offdiag. destruct (Nat.eqb_spec i j) as [->|Hij]; cbn [negb andb]; [ring|].
  now rewrite H by auto.
Qed.

Lemma coupling_nil n J W t s :
  (forall i j, (i < n)%nat -> (j < n)%nat -> i <> j -> elem (2 * n) (W i j) t s = 0%Z) ->
  coupling K n (offdiag K big J) W t s = 0.
Proof.
  intros H. unfold coupling. apply nsum_0. intros i Hi. apply nsum_0. intros j Hj.
  unfold offdiag. destruct (Nat.eqb_spec i j) as [->|Hij]; cbn [negb andb]; [ring|].
  rewrite H by auto. cbn. ring.
Qed.

(** The equal-spin exchange is diagonal ... *)
Lemma exch_same_off n J t u d : (u < 2 ^ N.of_nat n)%N -> t <> combine n u d ->
  exch_same K half n (offdiag K big J) t (combine n u d) = 0.
Proof.
  intros Hu Ht. unfold exch_same. rewrite !coupling_nil; [ring| |];
    intros; [rewrite elem_exch_11 by auto|rewrite elem_exch_00 by auto];
    (destruct (N.eqb_spec (combine n u d) t); [congruence|]); now rewrite andb_false_r.
Qed.

(** ... and equal to the correction made by the code. *)
Lemma dterm_exch n J u d : (u < 2 ^ N.of_nat n)%N ->
  dterm K big half n J (d, u) =
  exch_same K half n (offdiag K big J) (combine n u d) (combine n u d).
Proof.
  intros Hu. unfold dterm, tmp_of, exch_same. cbn [fst snd].
  assert (E : fold_left (fun t i => fold_left (fun t e => t + snd e *
      z2k (Z.of_N (bitval u i * bitval u (Z.to_nat (fst e)) +
                   bitval d i * bitval d (Z.to_nat (fst e)))%N)) (Trow K big n J i) t) (seq 0 n) 0 =
      - (coupling K n (offdiag K big J) (fun i j => exch_word n i j 0 0) (combine n u d) (combine n u d) +
         coupling K n (offdiag K big J) (fun i j => exch_word n i j 1 1) (combine n u d) (combine n u d))).
  { rewrite (fold_left_ext2 _ (fun t i => t + nsum n (fun j => offdiag K big J i j *
        z2k (Z.of_N (bitval u i * bitval u j + bitval d i * bitval d j)%N)))).
    2: { intros t i Hi.
         rewrite (bsum_fold (fun e => snd e * z2k (Z.of_N (bitval u i * bitval u (Z.to_nat (fst e)) +
                   bitval d i * bitval d (Z.to_nat (fst e)))%N))). f_equal.
         apply (bsum_Trow K big n J i (fun j x => x * z2k (Z.of_N (bitval u i * bitval u j + bitval d i * bitval d j)%N))).
         intros; ring. }
    rewrite (bsum_fold (fun i => nsum n (fun j => offdiag K big J i j *
        z2k (Z.of_N (bitval u i * bitval u j + bitval d i * bitval d j)%N)))).
    unfold coupling. rewrite (nsum_distr K).
    transitivity (0 + - nsum n (fun i => nsum n (fun j =>
        offdiag K big J i j * z2k (elem (2 * n) (exch_word n i j 0 0) (combine n u d) (combine n u d)) +
        offdiag K big J i j * z2k (elem (2 * n) (exch_word n i j 1 1) (combine n u d) (combine n u d))))); [|ring].
    f_equal. unfold nsum. rewrite <- bsum_opp. apply bsum_ext. intros i Hi. apply in_seq0 in Hi.
    rewrite <- bsum_opp. apply bsum_ext. intros j Hj. apply in_seq0 in Hj.
    unfold offdiag. destruct (Nat.eqb_spec i j) as [->|Hij]; cbn [negb andb]; [ring|].
    rewrite elem_exch_00, elem_exch_11 by auto. rewrite N.eqb_refl, !andb_true_r, !bitval_occ.
    destruct (occ u i), (occ u j), (occ d i), (occ d j); cbn; ring. }
  rewrite E. ring.
Qed.

Lemma elem_exch_swap n i j t u d : (i < n)%nat -> (j < n)%nat -> (u < 2 ^ N.of_nat n)%N ->
  elem (2 * n) (exch_word n i j 1 0) t (combine n u d) =
  elem (2 * n) (exch_word n j i 0 1) t (combine n u d).
Proof. intros. unfold elem. now rewrite word_exch_du, word_exch_ud. Qed.

Lemma elem_pair_swap n i j t u d : (i < n)%nat -> (j < n)%nat -> (u < 2 ^ N.of_nat n)%N ->
  elem (2 * n) (pair_word n i j 1) t (combine n u d) =
  elem (2 * n) (pair_word n i j 0) t (combine n u d).
Proof. intros. unfold elem. now rewrite word_pair_d, word_pair_u. Qed.

Lemma pair_hop_code n J t u d : half + half = 1 -> (u < 2 ^ N.of_nat n)%N ->
  pair_hop K half n (offdiag K big J) t (combine n u d) =
  coupling K n (offdiag K big J) (fun i j => pair_word n i j 0) t (combine n u d).
Proof.
  intros Hh Hu. unfold pair_hop.
  rewrite (coupling_ext n J (fun i j => pair_word n i j 1) (fun i j => pair_word n i j 0) t _ t (combine n u d)).
  - set (x := coupling _ _ _ _ _ _). transitivity ((half + half) * x); [ring|rewrite Hh; ring].
  - intros. now apply elem_pair_swap.
Qed.

Lemma exch_opp_code n J t u d : half + half = 1 -> (u < 2 ^ N.of_nat n)%N ->
  (forall i j, (i < n)%nat -> (j < n)%nat -> J i j = J j i) ->
  exch_opp K half n (offdiag K big J) t (combine n u d) =
  coupling K n (offdiag K big J) (fun i j => exch_word n i j 0 1) t (combine n u d).
Proof.
  intros Hh Hu HJ. unfold exch_opp.
  assert (E : coupling K n (offdiag K big J) (fun i j => exch_word n i j 1 0) t (combine n u d) =
              coupling K n (offdiag K big J) (fun i j => exch_word n i j 0 1) t (combine n u d)).
  { unfold coupling. rewrite nsum_swap. apply nsum_ext. intros i Hi. apply nsum_ext. intros j Hj.
    rewrite elem_exch_swap by auto. f_equal. unfold offdiag.
    rewrite (HJ j i) by auto. now rewrite (Nat.eqb_sym j i). }
  rewrite E. set (x := coupling _ _ _ _ _ _). transitivity ((half + half) * x); [ring|rewrite Hh; ring].
Qed.

(** The whole Sz builder. *)
Lemma sz_builder n nup ndw Jx Jp up dw vec : (n <= 32)%nat -> (nup <= n)%nat -> (ndw <= n)%nat ->
  generate_states n nup = Ok up -> generate_states n ndw = Ok dw ->
  length vec = (length dw * length up)%nat ->
  exists sp vec', build_ham_non_local K big half n (Some Jx) Jp (StSz up dw) vec = Ok (sp, vec', false) /\
    sp_wf K sp /\ m_rows K sp = length vec /\ m_cols K sp = length vec /\ length vec' = length vec /\
    length (m_data K sp) =
      ((count_nnz_offdiag K big n Jx + match Jp with Some J => count_nnz_offdiag K big n J | None => 0 end)
       * binomZ (Z.of_nat n - 2) (Z.of_nat nup - 1) * binomZ (Z.of_nat n - 2) (Z.of_nat ndw - 1))%nat /\
    (forall ja ka ua da, nth_error up ja = Some ua -> nth_error dw ka = Some da ->
      nth (ja + ka * length up) vec' 0 = nth (ja + ka * length up) vec 0 +
        exch_same K half n (offdiag K big Jx) (combine n ua da) (combine n ua da)) /\
    (forall ja ka jb kb ua da ub db,
      nth_error up ja = Some ua -> nth_error dw ka = Some da ->
      nth_error up jb = Some ub -> nth_error dw kb = Some db ->
      sp_get K sp (ja + ka * length up) (jb + kb * length up) =
      coupling K n (opt_offdiag K big Jp) (fun i j => pair_word n i j 0) (combine n ub db) (combine n ua da)
      - coupling K n (offdiag K big Jx) (fun i j => exch_word n i j 0 1) (combine n ub db) (combine n ua da)).
Proof.
  intros Hn Hup Hdw Gu Gd Hv.
  rewrite generate_states_cand in Gu by lia. rewrite generate_states_cand in Gd by lia.
  assert (Eu : up = cand n nup) by congruence. assert (Ed : dw = cand n ndw) by congruence.
  subst up dw. clear Gu Gd.
  set (d := (length (cand n ndw) * length (cand n nup))%nat) in *.
  exists (sp_of K d d (all_rows K big n nup ndw Jx Jp)), (vecm K big half n nup ndw Jx vec d).
  split. { unfold build_ham_non_local. rewrite build_nl_sz_spec by auto. fold d. cbn [bind].
           unfold d. rewrite nl_freeze by auto. reflexivity. }
  split. { apply nl_wf with (vec := vec); auto. }
  split. { unfold sp_of. cbn [m_rows]. auto. }
  split. { unfold sp_of. cbn [m_cols]. auto. }
  split. { apply vecm_length. }
  split. { unfold sp_of. cbn [m_data]. rewrite map_length, all_rows_total by auto. unfold nnz_tot.
           destruct Jp; reflexivity. }
  split.
  - intros ja ka ua da Ha Hd.
    assert (Lj : (ja < length (cand n nup))%nat) by (apply nth_error_Some; congruence).
    assert (Lk : (ka < length (cand n ndw))%nat) by (apply nth_error_Some; congruence).
    assert (L : (ja + ka * length (cand n nup) < d)%nat) by (unfold d; nia).
    rewrite vecm_nth by lia.
    replace (ja + ka * length (cand n nup) <? d)%nat with true by (symmetry; now apply Nat.ltb_lt).
    f_equal. unfold D, pairs.
    rewrite (nth_error_nth _ _ _ (nth_error_list_prod _ _ _ _ _ _ Hd Ha)).
    apply dterm_exch. assert (In ua (cand n nup)) by (eapply nth_error_In; eauto).
    apply cand_In in H. apply H.
  - intros. now apply nl_get with (vec := vec).
Qed.

(** Full matrix (off-diagonal matrix plus the change of the diagonal) for a
    symmetric [Jx]: the documented operator with the sign of the opposite-spin
    exchange reversed. *)
Lemma sz_documented n nup ndw Jx Jp up dw vec : (n <= 32)%nat -> (nup <= n)%nat -> (ndw <= n)%nat ->
  half + half = 1 -> (forall i j, (i < n)%nat -> (j < n)%nat -> Jx i j = Jx j i) ->
  generate_states n nup = Ok up -> generate_states n ndw = Ok dw ->
  length vec = (length dw * length up)%nat ->
  exists sp vec', build_ham_non_local K big half n (Some Jx) Jp (StSz up dw) vec = Ok (sp, vec', false) /\
    forall ja ka jb kb ua da ub db,
      nth_error up ja = Some ua -> nth_error dw ka = Some da ->
      nth_error up jb = Some ub -> nth_error dw kb = Some db ->
      let a := (ja + ka * length up)%nat in let b := (jb + kb * length up)%nat in
      let s := combine n ua da in let t := combine n ub db in
      sp_get K sp a b + (if (a =? b)%nat then nth a vec' 0 - nth a vec 0 else 0) =
      exch_same K half n (offdiag K big Jx) t s - exch_opp K half n (offdiag K big Jx) t s
      + pair_hop K half n (opt_offdiag K big Jp) t s.
Proof.
  intros Hn Hup Hdw Hh HJ Gu Gd Hv.
  destruct (sz_builder n nup ndw Jx Jp up dw vec Hn Hup Hdw Gu Gd Hv)
    as [sp [vec' [Hb [_ [_ [_ [_ [_ [Hdiag Hget]]]]]]]]].
  exists sp, vec'. split; [exact Hb|]. intros ja ka jb kb ua da ub db Ha Hda Hb' Hdb. cbv zeta.
  rewrite generate_states_cand in Gu by lia. rewrite generate_states_cand in Gd by lia.
  assert (Eu : up = cand n nup) by congruence. assert (Ed : dw = cand n ndw) by congruence.
  subst up dw. clear Gu Gd.
  assert (Su : in_sector n nup ua) by (apply cand_In; eapply nth_error_In; eauto).
  assert (Sb : in_sector n nup ub) by (apply cand_In; eapply nth_error_In; eauto).
  assert (Hua := proj1 Su). assert (Hub := proj1 Sb).
  rewrite (Hget ja ka jb kb ua da ub db) by auto.
  rewrite exch_opp_code by auto.
  assert (Ep : pair_hop K half n (opt_offdiag K big Jp) (combine n ub db) (combine n ua da) =
     coupling K n (opt_offdiag K big Jp) (fun i j => pair_word n i j 0) (combine n ub db) (combine n ua da)).
  { destruct Jp as [J|]; cbn [opt_offdiag]; [now apply pair_hop_code|].
    unfold pair_hop. rewrite !coupling_0. ring. }
  rewrite Ep.
  destruct (Nat.eqb_spec (ja + ka * length (cand n nup)) (jb + kb * length (cand n nup))) as [E|E].
  - assert (Lj : (ja < length (cand n nup))%nat) by (apply nth_error_Some; congruence).
    assert (Ljb : (jb < length (cand n nup))%nat) by (apply nth_error_Some; congruence).
    assert (ka = kb).
    { apply (f_equal (fun x => x / length (cand n nup))%nat) in E.
      rewrite !Nat.div_add, !Nat.div_small in E by lia. lia. }
    assert (ja = jb) by (subst; lia). subst jb kb.
    assert (ub = ua) by congruence. assert (db = da) by congruence. subst ub db.
    rewrite (Hdiag ja ka ua da) by auto. ring.
  - rewrite exch_same_off; auto; [ring|].
    intros Ec. apply combine_inj in Ec; auto. destruct Ec as [-> ->]. apply E.
    assert (jb = ja) by (eapply (increasing_nth_inj (cand n nup)); eauto using cand_increasing).
    assert (kb = ka) by (eapply (increasing_nth_inj (cand n ndw)); eauto using cand_increasing).
    subst. reflexivity.
Qed.

(** Between states of the same spin sector the N builder and the Sz builder
    differ by exactly twice the opposite-spin exchange. *)
Lemma sz_vs_n n nup ndw Jx Jp up dw states vec vecn : (2 * n <= 32)%nat -> (nup <= n)%nat -> (ndw <= n)%nat ->
  half + half = 1 -> (forall i j, (i < n)%nat -> (j < n)%nat -> Jx i j = Jx j i) ->
  generate_states n nup = Ok up -> generate_states n ndw = Ok dw ->
  generate_states (2 * n) (nup + ndw) = Ok states ->
  length vec = (length dw * length up)%nat ->
  exists sp vec' spn,
    build_ham_non_local K big half n (Some Jx) Jp (StSz up dw) vec = Ok (sp, vec', false) /\
    build_ham_non_local K big half n (Some Jx) Jp (StN states) vecn = Ok (spn, vecn, false) /\
    forall ja ka jb kb ua da ub db,
      nth_error up ja = Some ua -> nth_error dw ka = Some da ->
      nth_error up jb = Some ub -> nth_error dw kb = Some db ->
      exists A B, nth_error states A = Some (combine n ua da) /\ nth_error states B = Some (combine n ub db) /\
      let a := (ja + ka * length up)%nat in let b := (jb + kb * length up)%nat in
      sp_get K spn A B =
      sp_get K sp a b + (if (a =? b)%nat then nth a vec' 0 - nth a vec 0 else 0)
      + (1 + 1) * exch_opp K half n (offdiag K big Jx) (combine n ub db) (combine n ua da).
Proof.
  intros Hn Hup Hdw Hh HJ Gu Gd Gs Hv.
  destruct (sz_documented n nup ndw Jx Jp up dw vec) as [sp [vec' [Hb Hsz]]]; auto; [lia|].
  destruct (n_builder K big half n (nup + ndw) (Some Jx) Jp states vecn Hn) as [spn [Hbn [_ [_ [_ Hgn]]]]];
    auto; [lia|left; discriminate|].
  exists sp, vec', spn. split; [exact Hb|]. split; [exact Hbn|].
  intros ja ka jb kb ua da ub db Ha Hda Hb' Hdb.
  rewrite generate_states_cand in Gu by lia. rewrite generate_states_cand in Gd by lia.
  rewrite generate_states_cand in Gs by lia.
  assert (Eu : up = cand n nup) by congruence. assert (Ed : dw = cand n ndw) by congruence.
  assert (Es : states = cand (2 * n) (nup + ndw)) by congruence.
  subst up dw states. clear Gu Gd Gs.
  assert (In2 : forall j k u d, nth_error (cand n nup) j = Some u -> nth_error (cand n ndw) k = Some d ->
     In (combine n u d) (cand (2 * n) (nup + ndw))).
  { intros j k u d H1 H2. apply cand_In.
    assert (S1 : in_sector n nup u) by (apply cand_In; eapply nth_error_In; eauto).
    assert (S2 : in_sector n ndw d) by (apply cand_In; eapply nth_error_In; eauto).
    now apply combine_in_sector. }
  destruct (In_nth_error _ _ (In2 ja ka ua da Ha Hda)) as [A EA].
  destruct (In_nth_error _ _ (In2 jb kb ub db Hb' Hdb)) as [B EB].
  exists A, B. split; [exact EA|]. split; [exact EB|]. cbv zeta.
  rewrite (Hgn A B _ _ EA EB).
  rewrite (Hsz ja ka jb kb ua da ub db) by auto.
  unfold documented. cbn [opt_offdiag]. ring.
Qed.

End SzP.

(** ** Witnesses *)

Definition wJ : nat -> nat -> QcRing := fun i j => if (i =? j)%nat then qz 0 else qz 1.

Lemma exchange_sign :
  exists sp vec' spn,
    build_ham_non_local QcRing wbig qhalf 2 (Some wJ) None (StSz [1; 2]%N [1; 2]%N) (map qz [0; 0; 0; 0]%Z)
      = Ok (sp, vec', false) /\
    build_ham_non_local QcRing wbig qhalf 2 (Some wJ) None (StN [3; 5; 6; 9; 10; 12]%N) [] = Ok (spn, [], false) /\
    (* rows and columns of |up 0, down 1> and |up 1, down 0> *)
    sp_get QcRing sp 2 1 = qz (-1) /\ sp_get QcRing spn 3 2 = qz 1 /\
    documented QcRing qhalf 2 wJ (fun _ _ => qz 0) (combine 2 2 1) (combine 2 1 2) = qz 1 /\
    combine 2 1 2 = 9%N /\ combine 2 2 1 = 6%N.
Proof.
  eexists. eexists. eexists.
  split; [vm_compute; reflexivity|]. split; [vm_compute; reflexivity|].
  split; [apply Qcanon.Qc_is_canon; vm_compute; reflexivity|].
  split; [apply Qcanon.Qc_is_canon; vm_compute; reflexivity|].
  split; [apply Qcanon.Qc_is_canon; vm_compute; reflexivity|]. split; reflexivity.
Qed.

Lemma jp_only_raises (K : CRing) big half n Jp up dw vec :
  build_ham_non_local K big half n None Jp (StSz up dw) vec = Err AttributeError.
Proof. reflexivity. Qed.
