(** Rates and transitions from the extracted elements. *)
From Coq Require Import Reals List Arith NArith ZArith Bool Lia Lra Sorted Permutation.
From Verif Require Import Base RBase RLin OperatorsSpec FockSpec LookupModel SectorModel LocalModel MatvecModel EspaceModel ProjModel ProjSpec
  GfModel GfSpec RateModel RateSpec RateProofs RateDictProofs TransModel TransSpec TransProofs TransFinalProofs CotModel CotSpec TnlModel TnlSpec TnlProofs TnlMatProofs CnlSpec CnlProofs CnlScreenProofs ExtModel ExtSpec ExtProofs ExtBuildProofs.
Import ListNotations.
Local Open Scope R_scope.

Lemma exact_nel_fun n es s g g' : nsolved n es -> exact_nel n es s g -> exact_nel n es s g' -> g_F g = g_F g' -> g_I g = g_I g' -> g = g'.
Proof.
  intros HS (NI & i & NJ & j & I & J & op & A1 & A2 & A3 & A4 & A5 & A6 & A7 & A8 & A9) (NI' & i' & NJ' & j' & I' & J' & op' & B1 & B2 & B3 & B4 & B5 & B6 & B7 & B8 & B9) QF QI.
  rewrite A1, B1 in QI. rewrite A2, B2 in QF. injection QF as <- <-. injection QI as <- <-. pose proof (nst_unique n es HS _ _ _ A3 B3). pose proof (nst_unique n es HS _ _ _ A4 B4). subst I' J'.
  assert (op' = op) by (destruct op, op'; cbn in A7, B7; auto; lia). subst op'. destruct g as [k F I0 v E], g' as [k' F' I0' v' E']. cbn [g_kind g_F g_I g_v g_E] in *.
  destruct op; destruct A9 as [-> ->], B9 as [-> ->]; congruence.
Qed.
Lemma lsum_perm (l l' : list R) : Permutation l l' -> fold_right Rplus 0 l = fold_right Rplus 0 l'.
Proof. induction 1; cbn [fold_right]; lra. Qed.

Section Double.
Variables (n : nat) (es : espace RRing) (N : nat) (d : list (key2 * list gfel)) (X : list (key2 * list labelled)).
Hypothesis HS : nsolved n es.
Hypothesis ND : NoDup (map fst d).
Hypothesis KEY : forall F I, (exists l, In ((F, I), l) d) <-> considered n es N F I.
Hypothesis ELS : forall F I l, In ((F, I), l) d -> exists g0 g1, l = [g0; g1] /\ exact_nel n es 0 g0 /\ exact_nel n es 1 g1 /\ g_F g0 = F /\ g_I g0 = I /\ g_F g1 = F /\ g_I g1 = I.
Hypothesis REV : forall F I l, In ((F, I), l) d -> exists l', In ((I, F), l') d /\ Forall2 conj_el l l'.
Hypothesis NX : NoDup (map fst X).
Hypothesis XKEY : forall F I, (exists l, In ((F, I), l) X) <-> considered n es N F I.
Hypothesis XELS : forall F J l, In ((F, J), l) X -> exists g0 g1, exact_nel n es 0 g0 /\ exact_nel n es 1 g1 /\ g_F g0 = F /\ g_I g0 = J /\ g_F g1 = F /\ g_I g1 = J /\
    (upper N F J -> twice l g0 g1) /\ (~ upper N F J -> mixed l g0 g1).
Variables (a0 a1 : list R) (beta m0 m1 : R).
Hypothesis L0 : length a0 = n. Hypothesis L1 : length a1 = n.
Notation A := [a0; a1]. Notation mu := [m0; m1].
Notation rt' := (rt a0 a1 beta m0 m1).
Notation G' := (G d a0 a1 beta m0 m1).

Lemma upper_dec F J : upper N F J \/ ~ upper N F J.
Proof.
  destruct F as [|x [|a [|]]]; try (right; intros (p & q & [[V ?]|[V ?]]); discriminate). destruct J as [|y [|b [|]]]; try (right; intros (p & q & [[? V]|[? V]]); discriminate).
  destruct (Nat.eq_dec x (S N)) as [->|N1].
  - destruct (Nat.eq_dec y N) as [->|N2]; [left; exists a, b; auto|]. right. intros (p & q & [[V1 V2]|[V1 V2]]); injection V1; injection V2; intros; lia.
  - destruct (Nat.eq_dec x N) as [->|N2]; [|right; intros (p & q & [[V1 V2]|[V1 V2]]); injection V1; injection V2; intros; lia].
    destruct (Nat.eq_dec y (S N)) as [->|N3]; [left; exists b, a; auto|]. right. intros (p & q & [[V1 V2]|[V1 V2]]); injection V1; injection V2; intros; lia.
Qed.
Lemma gamma_list lead l : (lead < 2)%nat -> (forall g, In g l -> exists s, exact_nel n es s g) -> tnl_gamma A mu beta l lead = Ok (fold_right Rplus 0 (map (fun g => rt' g lead) l)).
Proof.
  intros Hl H. unfold tnl_gamma.
  assert (GEN : forall l acc, (forall g, In g l -> exists s, exact_nel n es s g) -> foldM (fun acc g => do a <- match nth_error A lead with Some a => Ok a | None => Err IndexError end;
    do m <- match nth_error mu lead with Some m => Ok m | None => Err IndexError end; do x <- tnl_rate g a beta m; Ok (acc + x)) l acc = Ok (acc + fold_right Rplus 0 (map (fun g => rt' g lead) l))).
  { clear l H. rewrite (lead_al n a0 a1 L0 L1 lead Hl), (lead_ml n a0 a1 m0 m1 L0 L1 lead Hl). induction l as [|g l IH]; intros acc H; cbn [foldM map fold_right]; [f_equal; lra|]. cbn [bind].
    destruct (H g (or_introl eq_refl)) as (s & Xg). destruct (rate_ok n es N d HS KEY ELS a0 a1 L0 L1 s g lead Xg Hl) as (y & Ey).
    unfold rt at 1, tnl_rate. rewrite Ey. cbn [bind]. rewrite IH by (intros; apply H; now right). f_equal. lra. }
  rewrite GEN by exact H. f_equal. lra.
Qed.
(** The same elements, each twice. *)
Lemma X_elements F J l : In ((F, J), l) X -> exists g0 g1, In ((F, J), [g0; g1]) d /\ exact_nel n es 0 g0 /\ exact_nel n es 1 g1 /\ g_F g0 = F /\ g_I g0 = J /\ g_F g1 = F /\ g_I g1 = J /\
  Permutation (map snd l) [g0; g0; g1; g1].
Proof.
  intros H. destruct (XELS _ _ _ H) as (g0 & g1 & X0 & X1 & F0 & I0 & F1 & I1 & T & M). exists g0, g1.
  destruct (proj2 (KEY F J)) as (gl & Hg); [apply XKEY; eauto|]. destruct (ELS _ _ _ Hg) as (h0 & h1 & -> & Y0 & Y1 & E1 & E2 & E3 & E4).
  rewrite (exact_nel_fun n es 0 g0 h0 HS X0 Y0), (exact_nel_fun n es 1 g1 h1 HS X1 Y1) in * by congruence. repeat (split; [assumption|]).
  destruct (upper_dec F J) as [V|V]; [pose proof (Permutation_map snd (T V)) as P|pose proof (Permutation_map snd (M V)) as P]; exact P.
Qed.
Lemma X_gamma F J l lead : (lead < 2)%nat -> In ((F, J), l) X -> tnl_gamma A mu beta (map snd l) lead = Ok (2 * G' lead F J).
Proof.
  intros Hl H. destruct (X_elements F J l H) as (g0 & g1 & Hd & X0 & X1 & _ & _ & _ & _ & P). rewrite gamma_list by (try exact Hl; intros g Hg; apply (Permutation_in _ P) in Hg; cbn in Hg; intuition (subst; eauto)).
  rewrite (lsum_perm _ _ (Permutation_map (fun g => rt' g lead) P)). cbn [map fold_right].
  destruct (G_in n es N d HS ND KEY ELS a0 a1 beta m0 m1 L0 L1 F J lead _ Hl Hd) as (h0 & h1 & Q & _ & _ & ->). injection Q as <- <-. f_equal. lra.
Qed.
Lemma X_total F J l : In ((F, J), l) X -> tnl_total A mu beta (map snd l) = Ok (2 * (G' 0%nat F J + G' 1%nat F J)).
Proof. intros H. unfold tnl_total. rewrite (X_gamma F J l 0 ltac:(lia) H). cbn [bind]. rewrite (X_gamma F J l 1 ltac:(lia) H). cbn [bind]. f_equal. ring. Qed.
Lemma X_trans F J l inject : (inject < 2)%nat -> In ((F, J), l) X -> tnl_trans A mu beta inject (map snd l) = Ok (2 * (- (nelectrons F - nelectrons J) * G' inject F J)).
Proof.
  intros Hl H. unfold tnl_trans. rewrite (X_gamma F J l inject Hl H). cbn [bind]. destruct (X_elements F J l H) as (g0 & g1 & Hd & X0 & X1 & F0 & I0 & F1 & I1 & P).
  destruct (rev (map snd l)) as [|g r] eqn:E.
  - exfalso. assert (Z : map snd l = []) by (rewrite <- (rev_involutive (map snd l)), E; reflexivity). rewrite Z in P. apply Permutation_nil in P. discriminate.
  - assert (Hg : In g [g0; g0; g1; g1]) by (apply (Permutation_in _ P), in_rev; rewrite E; now left).
    assert (K : nelectrons F - nelectrons J = match g_kind g with Electron => 1 | Hole => -1 end).
    { destruct (exact_kind n es N d HS KEY ELS a0 a1 L0 L1 0%nat g0 X0) as (_ & _ & K0). destruct (exact_kind n es N d HS KEY ELS a0 a1 L0 L1 1%nat g1 X1) as (_ & _ & K1). rewrite F0, I0 in K0. rewrite F1, I1 in K1.
      cbn in Hg. destruct Hg as [<-|[<-|[<-|[<-|[]]]]]; assumption. }
    rewrite K. destruct (g_kind g); f_equal; ring.
Qed.
Lemma un_In k v : In (k, v) (unlabelled X) <-> exists l, In (k, l) X /\ v = map snd l.
Proof. unfold unlabelled. rewrite in_map_iff. split; [intros ([k' l] & Q & H); injection Q as <- <-; eauto|intros (l & H & ->); exists (k, l); auto]. Qed.
Lemma un_NoDup : NoDup (map fst (unlabelled X)).
Proof. unfold unlabelled. rewrite map_map. exact NX. Qed.
Theorem doubled inject : (inject < 2)%nat -> exists ids W T W' T', tnl_matrices d beta mu A inject = Ok ((ids, W), (ids, T)) /\ tnl_matrices (unlabelled X) beta mu A inject = Ok ((ids, W'), (ids, T')) /\
  (forall f i, (f < length ids)%nat -> (i < length ids)%nat -> W' f i = 2 * W f i /\ T' f i = 2 * T f i).
Proof.
  intros Hj. destruct (tnl_entries n es N d HS ND KEY ELS REV a0 a1 beta m0 m1 L0 L1 inject Hj) as (ids & W & T & EM & SO & IN & RM & WE & TE).
  assert (SYM : forall F J, considered n es N F J -> considered n es N J F) by (intros F J (lo & a & b & B1 & B2 & B3 & [B4|B4]); exists lo, a, b; tauto).
  destruct (dict_succeeds (list gfel) (tnl_total A mu beta) (tnl_trans A mu beta inject) (unlabelled X)) as ([[ids' W'] [idsT T']] & E).
  - intros [[F J] v] H. apply un_In in H. destruct H as (l & H & ->). cbn [snd]. eexists; eexists. split; [exact (X_total _ _ _ H)|exact (X_trans _ _ _ _ Hj H)].
  - intros F J v H. apply un_In in H. destruct H as (l & H & ->). destruct (proj2 (XKEY J F)) as (l' & H'); [apply SYM, XKEY; eauto|]. exists F, (map snd l'). apply un_In. eauto.
  - destruct (dict_rates _ _ _ _ _ _ _ _ E) as (SO' & CO & OD & _). destruct (dict_transitions _ _ _ _ _ _ _ _ E) as (-> & IN' & TE').
    { intros F J v H. apply un_In in H. destruct H as (l & H & _). assert (C : considered n es N F J) by (apply XKEY; eauto). apply KEY in C. destruct C as (gl & C). exact (distinct n es N d KEY a0 a1 L0 L1 F J gl C). }
    assert (ids' = ids) as ->.
    { apply sorted_same; auto. intros x. rewrite IN, IN'. split.
      - intros (F & J & v & H & Q). apply un_In in H. destruct H as (l & H & _). assert (C : considered n es N F J) by (apply XKEY; eauto). destruct Q as [->| ->]; [exists J; exact C|exists F; now apply SYM].
      - intros (y & C). apply XKEY in C. destruct C as (l & H). exists x, y, (map snd l). split; [apply un_In; eauto|auto]. }
    assert (RO : forall h (tot : list gfel -> res R), (forall F J l, In ((F, J), l) X -> tot (map snd l) = Ok (2 * h F J)) -> (forall F J, ~ considered n es N F J -> h F J = 0) ->
      forall F J, rate_of (fun v (_ : unit) => tot v) (unlabelled X) tt F J = 2 * h F J).
    { intros h tot HT HO F J. destruct (in_dict_dec (unlabelled X) F J) as [(v & H)|H].
      - rewrite (rate_of_In _ _ _ _ _ _ un_NoDup H). apply un_In in H. destruct H as (l & H & ->). now rewrite (HT _ _ _ H).
      - rewrite (rate_of_out _ _ _ _ _ H). rewrite HO; [ring|]. intros C. apply XKEY in C. destruct C as (l & C). apply (H (map snd l)). apply un_In. eauto. }
    assert (GO : forall l F J, ~ considered n es N F J -> G' l F J = 0) by (intros l F J NC; apply G_out; intros gl H; apply NC, KEY; eauto).
    assert (OFF : forall f i, (f < length ids)%nat -> (i < length ids)%nat -> f <> i -> W' f i = 2 * W f i).
    { intros f i Hf Hi NE. rewrite OD, WE by auto. apply (RO (fun F J => G' 0%nat F J + G' 1%nat F J)); [intros; now apply X_total|]. intros F J NC. rewrite !GO by auto. ring. }
    exists ids, W, T, W', T'. split; [exact EM|]. split; [exact E|]. intros f i Hf Hi. split.
    + destruct (Nat.eq_dec f i) as [->|NE]; [|now apply OFF].
      pose proof (CO i Hi) as C'. pose proof (proj1 RM i Hi) as C.
      assert (S : forall V : mat, rsum (length ids) (fun k => V k i) = V i i + rsum (length ids) (fun k => if (k =? i)%nat then 0 else V k i)).
      { intros V. rewrite (rsum_ext (length ids) (fun k => V k i) (fun k => (if (k =? i)%nat then V i i else 0) + (if (k =? i)%nat then 0 else V k i))); [|intros k _; destruct (Nat.eqb_spec k i) as [->|]; ring].
        rewrite rsum_add. f_equal. rewrite (rsum_single _ _ i Hi); [now rewrite Nat.eqb_refl|]. intros k _ NE. destruct (Nat.eqb_spec k i); [contradiction|reflexivity]. }
      rewrite S in C, C'. assert (Q : rsum (length ids) (fun k => if (k =? i)%nat then 0 else W' k i) = 2 * rsum (length ids) (fun k => if (k =? i)%nat then 0 else W k i)).
      { rewrite <- rsum_scal_l. apply rsum_ext. intros k Hk. destruct (Nat.eqb_spec k i); [ring|]. now apply OFF. }
      lra.
    + rewrite TE', TE by auto. apply (RO (fun F J => - (nelectrons F - nelectrons J) * G' inject F J)); [intros; now apply X_trans|]. intros F J NC. rewrite GO by auto. ring.
Qed.
End Double.
Lemma stationary_double sz W W' p : (forall f i, (f < sz)%nat -> (i < sz)%nat -> W' f i = 2 * W f i) -> (stationary sz W' p <-> stationary sz W p).
Proof.
  intros H. unfold stationary. assert (Q : forall f, (f < sz)%nat -> rsum sz (fun i => W' f i * p i) = 2 * rsum sz (fun i => W f i * p i)).
  { intros f Hf. rewrite <- rsum_scal_l. apply rsum_ext. intros i Hi. rewrite H by auto. ring. }
  split; intros S f Hf; specialize (S f Hf); rewrite Q in * by auto; lra.
Qed.
Lemma current_double sz T T' p : (forall f i, (f < sz)%nat -> (i < sz)%nat -> T' f i = 2 * T f i) -> current sz T' p = 2 * current sz T p.
Proof.
  intros H. unfold current. rewrite <- rsum_scal_l. apply rsum_ext. intros f Hf. rewrite <- rsum_scal_l. apply rsum_ext. intros i Hi. rewrite H by auto. ring.
Qed.
Theorem extracted_matrices n es No N egs d0 X d : nsolved n es -> chosen es No N -> (No = None -> egs <> None) -> links_stored n es N ->
  co_elements n es No egs None = Ok d0 -> extract_sequential d0 = Ok X -> sq_elements n es No egs = Ok d ->
  forall a0 a1 beta m0 m1 inject, length a0 = n -> length a1 = n -> (inject < 2)%nat -> exists ids W T W' T',
  tnl_matrices d beta [m0; m1] [a0; a1] inject = Ok ((ids, W), (ids, T)) /\ tnl_matrices (unlabelled X) beta [m0; m1] [a0; a1] inject = Ok ((ids, W'), (ids, T')) /\
  (forall f i, (f < length ids)%nat -> (i < length ids)%nat -> W' f i = 2 * W f i /\ T' f i = 2 * T f i) /\
  (forall p, stationary (length ids) W' p <-> stationary (length ids) W p) /\ (forall p, current (length ids) T' p = 2 * current (length ids) T p).
Proof.
  intros HS HC HG LK E0 EX ED a0 a1 beta m0 m1 inject L0 L1 Hj.
  destruct (extracted_full n es No N egs HS HC HG LK) as (d0' & X' & E0' & EX' & NX & XKEY & XELS). rewrite E0 in E0'. injection E0' as <-. rewrite EX in EX'. injection EX' as <-.
  destruct (sq_elements_full n es No N egs HS HC HG LK) as (d' & ED' & _ & ND & KEY & ELS & REV). rewrite ED in ED'. injection ED' as <-.
  destruct (doubled n es N d X HS ND KEY ELS REV NX XKEY XELS a0 a1 beta m0 m1 L0 L1 inject Hj) as (ids & W & T & W' & T' & A & B & C).
  exists ids, W, T, W', T'. split; [exact A|]. split; [exact B|]. split; [exact C|]. split.
  - intros p. apply stationary_double. intros f i Hf Hi. now apply C.
  - intros p. apply current_double. intros f i Hf Hi. now apply C.
Qed.
