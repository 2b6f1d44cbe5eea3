(** Rate matrices, equilibrium and currents of sequential tunnelling. *)
From Coq Require Import Reals List Arith NArith ZArith Bool Lia Lra Psatz Sorted.
From Verif Require Import Base RBase RLin OperatorsSpec FockSpec SectorModel LocalModel MatvecModel EspaceModel ProjModel ProjSpec GfModel GfSpec
  RateModel RateSpec RateProofs RateDictProofs TransModel TransSpec TransProofs TransBuildProofs TransFinalProofs CotModel CotBuildProofs TnlModel TnlSpec TnlProofs ThermoProofs.
Import ListNotations.
Local Open Scope R_scope.

(** * The choice of N *)
Lemma lowest_unique es N E N' E' : lowest es N E -> lowest es N' E' -> N = N' /\ E = E'.
Proof.
  intros (a1 & s & a2 & Ea & Ia & La & Fa) (b1 & t & b2 & Eb & Ib & Lb & Fb).
  assert (HA : In ([N], s) es) by (rewrite Ea; apply in_or_app; right; now left). assert (HB : In ([N'], t) es) by (rewrite Eb; apply in_or_app; right; now left).
  assert (EE : E = E') by (pose proof (La _ _ _ HB Ib); pose proof (Lb _ _ _ HA Ia); lra). split; [|exact EE]. subst E'.
  assert (NA : ~ In ([N], s) b1) by (intros Q; pose proof (Fb _ _ _ Q Ia); lra). assert (NB : ~ In ([N'], t) a1) by (intros Q; pose proof (Fa _ _ _ Q Ib); lra).
  rewrite Eb in Ea. clear - Ea NA NB. revert a1 Ea NB NA. induction b1 as [|x b1 IH]; intros [|y a1] Ea NB NA; cbn [app] in Ea.
  - congruence.
  - exfalso. injection Ea as <- _. apply NB. now left.
  - exfalso. injection Ea as -> _. apply NA. now left.
  - injection Ea as -> Ea. apply (IH a1 Ea); intros Q; [apply NB|apply NA]; now right.
Qed.
Theorem choose_chosen n es No N egs : nsolved n es -> chosen es No N -> (No = None -> egs <> None) -> exists e, choose es No egs = Ok (N, e).
Proof.
  intros HS C H. destruct No as [M|]; cbn [chosen] in C.
  - subst M. exists egs. reflexivity.
  - destruct egs as [e|]; [|exfalso; now apply H]. destruct C as (E & C).
    assert (NE : es <> []) by (destruct C as (a & s & b & -> & _); destruct a; discriminate).
    destruct (choose_ok n es HS e NE) as (N' & E' & -> & C'). destruct (lowest_unique _ _ _ _ _ C C') as [<- <-]. eauto.
Qed.

Theorem sq_elements_full n es No N egs : nsolved n es -> chosen es No N -> (No = None -> egs <> None) -> links_stored n es N ->
  exists d, sq_elements n es No egs = Ok d /\ StronglySorted kbefore (map fst d) /\ NoDup (map fst d) /\
  (forall F I, (exists l, In ((F, I), l) d) <-> considered n es N F I) /\
  (forall F I l, In ((F, I), l) d -> exists g0 g1, l = [g0; g1] /\ exact_nel n es 0 g0 /\ exact_nel n es 1 g1 /\ g_F g0 = F /\ g_I g0 = I /\ g_F g1 = F /\ g_I g1 = I) /\
  (forall F I l, In ((F, I), l) d -> exists l', In ((I, F), l') d /\ Forall2 conj_el l l').
Proof.
  intros HS C H ST. destruct (sq_elements_spec n es HS N ST egs) as (d & E & R). exists d. split; [|exact R].
  destruct (choose_chosen n es No N egs HS C H) as (e & Ec). unfold sq_elements in *. rewrite Ec. unfold choose in E. cbn [bind fst] in *. exact E.
Qed.

(** * Transition matrix of a dictionary *)
Lemma dadd_keys D k x y : In y (map fst (dadd D k x)) <-> y = k \/ In y (map fst D).
Proof. induction D as [|[k' v] D IH]; cbn [dadd map fst In]; [intuition|]. destruct (key_eqb_spec k' k) as [->|]; cbn [map fst In]; [|rewrite IH]; intuition. Qed.
Section DictT.
Variable V : Type.
Variables (total trans : V -> res R).
Lemma dict_foldT d : forall W T W' T', foldM (dict_step V total trans) d (W, T) = Ok (W', T') ->
  (forall F I, vsum T' F I = vsum T F I + rate_of (fun v (_ : unit) => trans v) d tt F I) /\
  (forall y, In y (map fst T') <-> In y (map fst T) \/ In y (map fst d)) /\
  (forall y, In y (map fst W') <-> In y (map fst W) \/ exists k, In k (map fst d) /\ fst k <> snd k /\ (y = k \/ y = (snd k, snd k))).
Proof.
  induction d as [|[[F0 I0] v] d IH]; intros W T W' T' E.
  - simpl in E. injection E as <- <-. split; [intros F I; unfold rate_of; simpl; lra|]. split; [simpl; tauto|]. intros y. split; [now left|intros [?|(k & [] & _)]; auto].
  - cbn [foldM bind dict_step] in E. destruct (total v) as [g|] eqn:Eg; [|discriminate]. cbn [bind] in E. destruct (trans v) as [t|] eqn:Et; [|discriminate]. cbn [bind fst snd] in E.
    apply IH in E. destruct E as (A & B & C). split; [|split].
    + intros F I. rewrite A, dadd_vsum. unfold rate_of. cbn [bsum fst snd]. rewrite Et. simpl. destruct (dec F0 F); [destruct (dec I0 I)|]; simpl; reqt; lra.
    + intros y. rewrite B, dadd_keys. cbn [map fst In]. intuition.
    + intros y. rewrite C. cbn [map fst In]. destruct (label_eqb_spec F0 I0) as [->|NE].
      * split; [intros [?|(k & H & N & Q)]; [now left|right; exists k; auto]|]. intros [?|(k & [<-|H] & N & Q)]; [now left|cbn in N; congruence|right; exists k; auto].
      * rewrite !dadd_keys. split.
        -- intros [[->|[->|?]]|(k & H & N & Q)]; [right; exists (F0, I0); auto|right; exists (F0, I0); auto|now left|right; exists k; auto].
        -- intros [?|(k & [<-|H] & N & Q)]; [auto|cbn [fst snd] in *; destruct Q as [->| ->]; auto|right; exists k; auto].
Qed.
Theorem dict_transitions d ids W idsT T : build_dict_matrices V total trans d = Ok ((ids, W), (idsT, T)) ->
  (forall F I v, In ((F, I), v) d -> F <> I) ->
  idsT = ids /\ (forall x, In x ids <-> exists F I v, In ((F, I), v) d /\ (x = F \/ x = I)) /\
  forall f i, (f < length ids)%nat -> (i < length ids)%nat -> T f i = rate_of (fun v (_ : unit) => trans v) d tt (nth f ids []) (nth i ids []).
Proof.
  unfold build_dict_matrices. destruct (check_transition_elements V d); [|discriminate]. cbn [bind].
  destruct (foldM (dict_step V total trans) d ([], [])) as [[WD TD]|] eqn:E; [|discriminate]. cbn [bind fst snd]. intros Q NE.
  assert (QW : dict_to_matrix WD = (ids, W)) by congruence. assert (QT : dict_to_matrix TD = (idsT, T)) by congruence. clear Q.
  destruct (dict_foldT d _ _ _ _ E) as (A & B & C). destruct (to_matrix_entries _ _ _ QW) as (S1 & I1 & _). destruct (to_matrix_entries _ _ _ QT) as (S2 & I2 & M2).
  assert (J1 : forall x, In x ids <-> exists F I v, In ((F, I), v) d /\ (x = F \/ x = I)).
  { intros x. rewrite I1. split.
    - intros ([k r] & H & Q). cbn [fst] in Q. assert (K : In k (map fst WD)) by (apply in_map_iff; exists (k, r); auto). apply C in K. destruct K as [[]|([F I] & K & _ & O)].
      apply in_map_iff in K. destruct K as ([k' v] & Ek & K). cbn [fst snd] in *. subst k'. exists F, I, v. split; [exact K|]. destruct O as [->| ->]; cbn [fst snd] in Q; intuition.
    - intros (F & I & v & H & Q). assert (K : In (F, I) (map fst WD)) by (apply C; right; exists (F, I); split; [apply in_map_iff; exists ((F, I), v); auto|]; split; [exact (NE _ _ _ H)|now left]).
      apply in_map_iff in K. destruct K as ([k r] & Ek & K). cbn [fst] in Ek. subst k. exists ((F, I), r). split; [exact K|]. cbn [fst snd]. destruct Q as [->| ->]; auto. }
  assert (J2 : forall x, In x idsT <-> exists F I v, In ((F, I), v) d /\ (x = F \/ x = I)).
  { intros x. rewrite I2. split.
    - intros ([k r] & H & Q). cbn [fst] in Q. assert (K : In k (map fst TD)) by (apply in_map_iff; exists (k, r); auto). apply B in K. destruct K as [[]|K].
      apply in_map_iff in K. destruct K as ([[F I] v] & Ek & K). cbn [fst snd] in *. subst k. cbn [fst snd] in Q. exists F, I, v. intuition.
    - intros (F & I & v & H & Q). assert (K : In (F, I) (map fst TD)) by (apply B; right; apply in_map_iff; exists ((F, I), v); auto).
      apply in_map_iff in K. destruct K as ([k r] & Ek & K). cbn [fst] in Ek. subst k. exists ((F, I), r). split; [exact K|]. cbn [fst snd]. destruct Q as [->| ->]; auto. }
  assert (EQ : idsT = ids) by (apply sorted_same; auto; intros x; rewrite J1, J2; tauto). split; [exact EQ|]. split; [exact J1|]. subst idsT.
  intros f i Hf Hi. rewrite M2 by auto. rewrite A. unfold vsum. simpl. lra.
Qed.
End DictT.

(** * Elements closed under reversal *)
Section Paired.
Variables (n : nat) (es : espace RRing) (N : nat) (d : list (key2 * list gfel)).
Hypothesis HS : nsolved n es.
Hypothesis ND : NoDup (map fst d).
Hypothesis KEY : forall F I, (exists l, In ((F, I), l) d) <-> considered n es N F I.
Hypothesis ELS : forall F I l, In ((F, I), l) d -> exists g0 g1, l = [g0; g1] /\ exact_nel n es 0 g0 /\ exact_nel n es 1 g1 /\ g_F g0 = F /\ g_I g0 = I /\ g_F g1 = F /\ g_I g1 = I.
Hypothesis REV : forall F I l, In ((F, I), l) d -> exists l', In ((I, F), l') d /\ Forall2 conj_el l l'.
Variables (a0 a1 : list R) (beta m0 m1 : R).
Hypothesis L0 : length a0 = n. Hypothesis L1 : length a1 = n.
Notation A := [a0; a1]. Notation mu := [m0; m1].
Notation al l := (nth l A []). Notation ml l := (nth l mu 0).

Definition nkind (F I : label) : gkind := match F, I with x :: _, y :: _ => if (y <? x)%nat then Electron else Hole | _, _ => Hole end.
Lemma exact_kind s g : exact_nel n es s g -> g_kind g = nkind (g_F g) (g_I g) /\ length (g_v g) = n /\
  nelectrons (g_F g) - nelectrons (g_I g) = match g_kind g with Electron => 1 | Hole => -1 end.
Proof.
  intros (NI & i & NJ & j & I & J & op & -> & -> & _ & _ & _ & _ & Nb & -> & M). split; [|split; [unfold namps; now rewrite map_length, seq_length|]].
  - unfold nkind. destruct op; cbn in Nb; destruct M as [-> _]; destruct (Nat.ltb_spec NI NJ); auto; lia.
  - cbn [nelectrons]. destruct op; cbn in Nb; destruct M as [-> _]; subst; rewrite S_INR; ring.
Qed.
Lemma rate_ok s g l : exact_nel n es s g -> (l < 2)%nat -> exists y, dotv (g_v g) (al l) = Ok y.
Proof.
  intros X Hl. destruct (exact_kind _ _ X) as (_ & L & _). exists (overlap (g_v g) (al l)). apply dotv_overlap. split; [|reflexivity]. destruct l as [|[|?]]; cbn [nth]; lia.
Qed.
Lemma lead_al l : (l < 2)%nat -> nth_error A l = Some (al l). Proof. destruct l as [|[|?]]; auto; lia. Qed.
Lemma lead_ml l : (l < 2)%nat -> nth_error mu l = Some (ml l). Proof. destruct l as [|[|?]]; auto; lia. Qed.
Definition rt (g : gfel) (l : nat) : R := match tnl_rate g (al l) beta (ml l) with Ok x => x | Err _ => 0 end.
Lemma gamma_val g0 g1 l : (l < 2)%nat -> exact_nel n es 0 g0 -> exact_nel n es 1 g1 -> tnl_gamma A mu beta [g0; g1] l = Ok (rt g0 l + rt g1 l).
Proof.
  intros Hl X0 X1. unfold tnl_gamma, rt. cbn [foldM]. rewrite (lead_al l Hl), (lead_ml l Hl). cbn [bind].
  destruct (rate_ok _ _ l X0 Hl) as (y0 & E0). destruct (rate_ok _ _ l X1 Hl) as (y1 & E1). unfold tnl_rate. rewrite E0, E1. cbn [bind]. f_equal. ring.
Qed.
Definition G (l : nat) (F I : label) : R := rate_of (fun v (_ : unit) => tnl_gamma A mu beta v l) d tt F I.
Lemma G_in F I l gl : (l < 2)%nat -> In ((F, I), gl) d -> exists g0 g1, gl = [g0; g1] /\ exact_nel n es 0 g0 /\ exact_nel n es 1 g1 /\ G l F I = rt g0 l + rt g1 l.
Proof.
  intros Hl H. destruct (ELS _ _ _ H) as (g0 & g1 & -> & X0 & X1 & _). exists g0, g1. repeat split; auto. unfold G. rewrite (rate_of_In _ _ _ _ _ _ ND H), (gamma_val g0 g1 l Hl X0 X1). reflexivity.
Qed.
Lemma G_out F I l : (forall gl, ~ In ((F, I), gl) d) -> G l F I = 0.
Proof. intros H. apply rate_of_out. exact H. Qed.
Lemma rt_nonneg g l : 0 <= rt g l.
Proof.
  unfold rt, tnl_rate. destruct (dotv (g_v g) (al l)) as [z|]; cbn [bind]; [|lra]. pose proof (pow2_ge_0 z).
  destruct (g_kind g); match goal with |- context[nF_cut ?x] => pose proof (nF_cut_nonneg x) end; nra.
Qed.
Lemma G_nonneg F I l : (l < 2)%nat -> 0 <= G l F I.
Proof.
  intros Hl. destruct (in_dict_dec d F I) as [(gl & H)|H]; [|rewrite (G_out _ _ _ H); lra].
  destruct (G_in F I l gl Hl H) as (g0 & g1 & _ & _ & _ & ->). pose proof (rt_nonneg g0 l). pose proof (rt_nonneg g1 l). lra.
Qed.
Lemma distinct F I v : In ((F, I), v) d -> F <> I.
Proof.
  intros H. assert (C : considered n es N F I) by (apply KEY; eauto). destruct C as (lo & a & b & _ & _ & _ & [[-> ->]|[-> ->]]); intros Q; injection Q; lia.
Qed.
Lemma total_val F I l : In ((F, I), l) d -> tnl_total A mu beta l = Ok (G 0 F I + G 1 F I).
Proof.
  intros H. destruct (G_in F I 0 l ltac:(lia) H) as (g0 & g1 & -> & X0 & X1 & ->). destruct (G_in F I 1 _ ltac:(lia) H) as (h0 & h1 & Q & _ & _ & ->). injection Q as <- <-.
  unfold tnl_total. rewrite (gamma_val g0 g1 0 ltac:(lia) X0 X1). cbn [bind]. rewrite (gamma_val g0 g1 1 ltac:(lia) X0 X1). reflexivity.
Qed.
Lemma trans_val F I inject l : (inject < 2)%nat -> In ((F, I), l) d -> tnl_trans A mu beta inject l = Ok (- (nelectrons F - nelectrons I) * G inject F I).
Proof.
  intros Hj H. destruct (ELS _ _ _ H) as (h0 & h1 & El & X0 & X1 & E1 & E2 & E3 & E4). destruct (G_in F I inject l Hj H) as (g0 & g1 & El' & _ & _ & ->). rewrite El in El'. injection El' as <- <-. subst l.
  unfold tnl_trans. rewrite (gamma_val h0 h1 inject Hj X0 X1). cbn [bind rev app]. destruct (exact_kind _ _ X1) as (_ & _ & Q). rewrite E3, E4 in Q. rewrite Q. destruct (g_kind h1); f_equal; ring.
Qed.
Lemma rate_total F I : rate_of (fun v (_ : unit) => tnl_total A mu beta v) d tt F I = G 0 F I + G 1 F I.
Proof.
  destruct (in_dict_dec d F I) as [(gl & H)|H]; [|rewrite (rate_of_out _ _ _ _ _ H), !(G_out _ _ _ H); ring].
  rewrite (rate_of_In _ _ _ _ _ _ ND H), (total_val _ _ _ H). reflexivity.
Qed.
Lemma rate_trans F I inject : (inject < 2)%nat -> rate_of (fun v (_ : unit) => tnl_trans A mu beta inject v) d tt F I = - (nelectrons F - nelectrons I) * G inject F I.
Proof.
  intros Hj. destruct (in_dict_dec d F I) as [(gl & H)|H]; [|rewrite (rate_of_out _ _ _ _ _ H), !(G_out _ _ _ H); ring].
  rewrite (rate_of_In _ _ _ _ _ _ ND H), (trans_val _ _ _ _ Hj H). reflexivity.
Qed.

(** The two matrices. *)
Theorem tnl_entries inject : (inject < 2)%nat -> exists ids W T, tnl_matrices d beta mu A inject = Ok ((ids, W), (ids, T)) /\
  StronglySorted before ids /\ (forall x, In x ids <-> exists y, considered n es N x y) /\ rate_matrix (length ids) W /\
  (forall f i, (f < length ids)%nat -> (i < length ids)%nat -> f <> i -> W f i = G 0 (nth f ids []) (nth i ids []) + G 1 (nth f ids []) (nth i ids [])) /\
  (forall f i, (f < length ids)%nat -> (i < length ids)%nat -> T f i = - (nelectrons (nth f ids []) - nelectrons (nth i ids [])) * G inject (nth f ids []) (nth i ids [])).
Proof.
  intros Hj. destruct (dict_succeeds (list gfel) (tnl_total A mu beta) (tnl_trans A mu beta inject) d) as ([[ids W] [idsT T]] & E).
  - intros [[F I] l] H. cbn [snd]. exists (G 0 F I + G 1 F I), (- (nelectrons F - nelectrons I) * G inject F I). split; [now apply total_val|now apply trans_val].
  - intros F I v H. destruct (REV _ _ _ H) as (l' & H' & _). exists F, l'. exact H'.
  - destruct (dict_rates _ _ _ _ _ _ _ _ E) as (S & CO & OD & SG). destruct (dict_transitions _ _ _ _ _ _ _ _ E distinct) as (-> & IN & TE).
    exists ids, W, T. split; [exact E|]. split; [exact S|]. split; [|split; [|split]].
    + intros x. rewrite IN. split.
      * intros (F & I & v & H & [->| ->]); [exists I; apply KEY; eauto|]. destruct (REV _ _ _ H) as (l' & H' & _). exists F. apply KEY. eauto.
      * intros (y & C). apply KEY in C. destruct C as (l & H). exists x, y, l. auto.
    + split; [exact CO|]. apply SG. intros v g Q. exact (tnl_total_nonneg _ _ _ _ _ Q).
    + intros f i Hf Hi NE. rewrite OD by auto. apply rate_total.
    + intros f i Hf Hi. rewrite TE by auto. now apply rate_trans.
Qed.

(** Local detailed balance *)
Variable E : label -> R.
Hypothesis HE : forall id x, nstate_energy es id x -> E id = x.
Lemma nF_cut_ratio x : Rabs x <= 100 -> nF_cut x = exp (- x) * nF_cut (- x).
Proof.
  intros H. assert (H1 : - 100 <= x <= 100) by (revert H; unfold Rabs; destruct (Rcase_abs x); lra). clear H. unfold nF_cut.
  assert (Q1 : Rltb 100 x = false) by (destruct (Rltb 100 x) eqn:Q; auto; apply Rltb_spec in Q; lra). assert (Q2 : Rltb 100 (- x) = false) by (destruct (Rltb 100 (- x)) eqn:Q; auto; apply Rltb_spec in Q; lra).
  rewrite Q1, Q2, exp_Ropp. pose proof (exp_pos x). field. lra.
Qed.
Lemma rt_balance s g g' l : (l < 2)%nat -> unclipped es beta (ml l) -> exact_nel n es s g -> conj_el g g' ->
  rt g l * ngibbs beta (ml l) E (g_I g) = rt g' l * ngibbs beta (ml l) E (g_F g).
Proof.
  intros Hl U X (K1 & K2 & K3 & K4 & K5). unfold rt, tnl_rate. rewrite K3. destruct (rate_ok _ _ l X Hl) as (y & ->). cbn [bind]. rewrite K4, K5.
  destruct (exact_kind _ _ X) as (_ & _ & NE). set (m := ml l) in *.
  destruct X as (NI & i & NJ & j & I & J & op & A1 & A2 & A3 & A4 & A5 & A6 & A7 & _ & A9).
  assert (SI : nstate_energy es (g_I g) (energy I i)) by (exists NI, i, I; auto). assert (SJ : nstate_energy es (g_F g) (energy J j)) by (exists NJ, j, J; auto).
  pose proof (HE _ _ SI) as EI. pose proof (HE _ _ SJ) as EJ. unfold ngibbs. rewrite EI, EJ.
  rewrite !(Rmult_assoc (y ^ 2)). apply (f_equal (Rmult _)).
  destruct op; destruct A9 as [KK EE]; rewrite KK, EE in *; cbn [opposite].
  - assert (NE' : nelectrons (g_I g) = nelectrons (g_F g) + 1) by lra. pose proof (U _ _ _ _ SJ SI NE') as B.
    replace (- beta * (energy I i - energy J j - m)) with (- (beta * (energy I i - energy J j - m))) by ring. rewrite (nF_cut_ratio _ B), NE'.
    rewrite (Rmult_comm (exp (- (beta * _))) (nF_cut _)), (Rmult_assoc (nF_cut _)), <- exp_plus. apply (f_equal (Rmult _)), (f_equal exp). ring.
  - assert (NE' : nelectrons (g_F g) = nelectrons (g_I g) + 1) by lra. pose proof (U _ _ _ _ SI SJ NE') as B.
    replace (- beta * (energy J j - energy I i - m)) with (- (beta * (energy J j - energy I i - m))) by ring. rewrite (nF_cut_ratio _ B), NE'.
    rewrite (Rmult_comm (exp (- (beta * _))) (nF_cut _)), (Rmult_assoc (nF_cut _)), <- exp_plus. apply (f_equal (Rmult _)), (f_equal exp). ring.
Qed.
Lemma G_balance l F I : (l < 2)%nat -> unclipped es beta (ml l) -> G l F I * ngibbs beta (ml l) E I = G l I F * ngibbs beta (ml l) E F.
Proof.
  intros Hl U. destruct (in_dict_dec d F I) as [(gl & H)|H].
  - destruct (REV _ _ _ H) as (gl' & H' & R). destruct (G_in F I l gl Hl H) as (g0 & g1 & -> & X0 & X1 & ->). destruct (G_in I F l gl' Hl H') as (h0 & h1 & -> & Y0 & Y1 & ->).
    destruct (ELS _ _ _ H) as (k0 & k1 & Q & _ & _ & E1 & E2 & E3 & E4). injection Q as <- <-.
    inversion_clear R as [|? ? ? ? C0 R1]. inversion_clear R1 as [|? ? ? ? C1 R2].
    pose proof (rt_balance 0 g0 h0 l Hl U X0 C0) as B0. pose proof (rt_balance 1 g1 h1 l Hl U X1 C1) as B1. rewrite E3, E4 in B1. rewrite E1, E2 in B0. lra.
  - rewrite (G_out _ _ _ H), (G_out I F); [ring|]. intros gl H'. destruct (REV _ _ _ H') as (l' & H'' & _). exact (H _ H'').
Qed.
End Paired.

(** * Statements for the elements the module builds *)
Section Built.
Variables (n : nat) (es : espace RRing) (No : option nat) (N : nat) (egs : option R) (d : list (key2 * list gfel)).
Hypothesis HS : nsolved n es. Hypothesis HC : chosen es No N. Hypothesis HG : No = None -> egs <> None. Hypothesis HL : links_stored n es N.
Hypothesis HD : sq_elements n es No egs = Ok d.
Variables (a0 a1 : list R) (beta m0 m1 : R).
Hypothesis L0 : length a0 = n. Hypothesis L1 : length a1 = n.

(** The matrices of both leads, with a common order of the states. *)
Theorem tnl_both : exists ids W T0 T1,
  tnl_matrices d beta [m0; m1] [a0; a1] 0 = Ok ((ids, W), (ids, T0)) /\ tnl_matrices d beta [m0; m1] [a0; a1] 1 = Ok ((ids, W), (ids, T1)) /\
  StronglySorted before ids /\ (forall x, In x ids <-> exists y, considered n es N x y) /\ rate_matrix (length ids) W /\
  (forall p, stationary (length ids) W p -> current (length ids) T0 p + current (length ids) T1 p = 0) /\
  (forall p, 0 < beta -> unclipped es beta m0 -> unclipped es beta m1 -> stationary (length ids) W p -> (forall i, (i < length ids)%nat -> 0 <= p i) ->
     (m0 - m1) * current (length ids) T0 p <= 0).
Proof.
  destruct (sq_elements_full n es No N egs HS HC HG HL) as (d' & HD' & _ & ND & KEY & ELS & REV). rewrite HD in HD'. injection HD' as <-.
  pose proof (tnl_entries n es N d HS ND KEY ELS REV a0 a1 beta m0 m1 L0 L1) as TE.
  destruct (TE 0%nat ltac:(lia)) as (ids & W & T0 & E0 & S & IN & RM & WE & TE0). destruct (TE 1%nat ltac:(lia)) as (ids' & W' & T1 & E1 & S' & IN' & RM' & WE' & TE1).
  assert (EQ : (ids', W') = (ids, W)).
  { clear - E0 E1. unfold tnl_matrices, build_dict_matrices in *. destruct (check_transition_elements (list gfel) d); [|discriminate]. cbn [bind] in *.
    assert (FW : forall t t' l D D' X X', foldM (dict_step (list gfel) (tnl_total [a0; a1] [m0; m1] beta) t) l D = Ok X -> foldM (dict_step (list gfel) (tnl_total [a0; a1] [m0; m1] beta) t') l D' = Ok X' -> fst D = fst D' -> fst X = fst X').
    { intros t t'. induction l as [|[[F I] v] l IH]; intros D D' X X' Q Q' QD; cbn [foldM] in *; [injection Q as <-; injection Q' as <-; exact QD|].
      unfold dict_step in Q at 1, Q' at 1. destruct (tnl_total [a0; a1] [m0; m1] beta v); cbn [bind] in *; [|discriminate]. destruct (t v); cbn [bind] in *; [|discriminate]. destruct (t' v); cbn [bind] in *; [|discriminate].
      eapply IH; [exact Q|exact Q'|]. cbn [fst]. now rewrite QD. }
    destruct (foldM (dict_step (list gfel) (tnl_total [a0; a1] [m0; m1] beta) (tnl_trans [a0; a1] [m0; m1] beta 0)) d ([], [])) as [X|] eqn:F0; [|discriminate].
    destruct (foldM (dict_step (list gfel) (tnl_total [a0; a1] [m0; m1] beta) (tnl_trans [a0; a1] [m0; m1] beta 1)) d ([], [])) as [X'|] eqn:F1; [|discriminate].
    cbn [bind] in *. pose proof (FW _ _ _ _ _ _ _ F0 F1 eq_refl) as Q. rewrite Q in E0. congruence. }
  injection EQ as -> ->. exists ids, W, T0, T1. split; [exact E0|]. split; [exact E1|]. split; [exact S|]. split; [exact IN|]. split; [exact RM|].
  set (sz := length ids) in *. set (GG := fun l f i => G d a0 a1 beta m0 m1 l (nth f ids []) (nth i ids [])). set (Nn := fun i => nelectrons (nth i ids [])).
  assert (C0 : forall p, current sz T0 p = - inflow sz GG Nn p 0).
  { intros p. unfold current, inflow. rewrite <- rsum_neg. apply rsum_ext. intros f Hf. rewrite <- rsum_neg. apply rsum_ext. intros i Hi. rewrite TE0 by auto. unfold Nn, GG. ring. }
  assert (C1 : forall p, current sz T1 p = - inflow sz GG Nn p 1).
  { intros p. unfold current, inflow. rewrite <- rsum_neg. apply rsum_ext. intros f Hf. rewrite <- rsum_neg. apply rsum_ext. intros i Hi. rewrite TE1 by auto. unfold Nn, GG. ring. }
  split.
  - intros p ST. rewrite C0, C1. pose proof (kirchhoff sz GG W Nn p (proj1 RM) WE ST). lra.
  - intros p BP U0 U1 ST NN. rewrite C0.
    (* energies of the states *)
    set (EE := fun id : label => match id with [M; k] => match es_get es [M] with Ok s => energy s k | Err _ => 0 end | _ => 0 end).
    assert (HE : forall id x, nstate_energy es id x -> EE id = x).
    { intros id x (M & k & s & -> & H & _ & ->). unfold EE. rewrite (es_get_In _ _ _ (proj1 HS) H). reflexivity. }
    pose proof (second_law sz GG W Nn p (proj1 RM) WE ST (fun i => EE (nth i ids [])) (fun l => nth l [m0; m1] 0) beta BP) as SL. cbn [nth] in SL.
    assert (Q : 0 <= (m0 - m1) * inflow sz GG Nn p 0); [|lra]. apply SL; auto.
    + intros l f i Hl Hf Hi NE. unfold GG. eapply G_nonneg; eauto.
    + intros l f i Hl Hf Hi NE. unfold GG, Nn. eapply G_balance; eauto. destruct l as [|[|?]]; auto; lia.
Qed.
End Built.

(** Equal potentials. *)
Theorem tnl_equilibrium n es No N egs d : nsolved n es -> chosen es No N -> (No = None -> egs <> None) -> links_stored n es N -> sq_elements n es No egs = Ok d ->
  forall a0 a1 beta m inject, length a0 = n -> length a1 = n -> (inject < 2)%nat -> unclipped es beta m ->
  forall E, (forall id x, nstate_energy es id x -> E id = x) -> exists ids W T,
  tnl_matrices d beta [m; m] [a0; a1] inject = Ok ((ids, W), (ids, T)) /\ StronglySorted before ids /\ (forall x, In x ids <-> exists y, considered n es N x y) /\
  (forall f i, (f < length ids)%nat -> (i < length ids)%nat -> W f i * ngibbs beta m E (nth i ids []) = W i f * ngibbs beta m E (nth f ids [])) /\
  stationary (length ids) W (fun i => ngibbs beta m E (nth i ids [])) /\
  current (length ids) T (fun i => ngibbs beta m E (nth i ids [])) = 0.
Proof.
  intros HS HC HG HL HD a0 a1 beta m inject L0 L1 Hj U E HE.
  destruct (sq_elements_full n es No N egs HS HC HG HL) as (d' & HD' & _ & ND & KEY & ELS & REV). rewrite HD in HD'. injection HD' as <-.
  destruct (tnl_entries n es N d HS ND KEY ELS REV a0 a1 beta m m L0 L1 inject Hj) as (ids & W & T & E0 & S & IN & RM & WE & TE).
  exists ids, W, T. split; [exact E0|]. split; [exact S|]. split; [exact IN|].
  assert (GB : forall l F I, (l < 2)%nat -> G d a0 a1 beta m m l F I * ngibbs beta m E I = G d a0 a1 beta m m l I F * ngibbs beta m E F).
  { intros l F I Hl. assert (Q : nth l [m; m] 0 = m) by (destruct l as [|[|?]]; auto; lia). rewrite <- Q at 3 6. eapply G_balance; eauto. now rewrite Q. }
  assert (BAL : forall f i, (f < length ids)%nat -> (i < length ids)%nat -> W f i * ngibbs beta m E (nth i ids []) = W i f * ngibbs beta m E (nth f ids [])).
  { intros f i Hf Hi. destruct (Nat.eq_dec f i) as [->|NE]; [reflexivity|]. rewrite !WE by auto. pose proof (GB 0%nat (nth f ids []) (nth i ids []) ltac:(lia)). pose proof (GB 1%nat (nth f ids []) (nth i ids []) ltac:(lia)). lra. }
  split; [exact BAL|]. split; [exact (balance_stationary _ _ _ (proj1 RM) BAL)|].
  unfold current. set (w := fun i => ngibbs beta m E (nth i ids [])).
  assert (Q : rsum (length ids) (fun f => rsum (length ids) (fun i => T f i * w i)) = - rsum (length ids) (fun f => rsum (length ids) (fun i => T f i * w i))).
  { rewrite (rsum_swap (length ids) (length ids) (fun f i => T f i * w i)) at 1. rewrite <- rsum_neg. apply rsum_ext. intros i Hi. rewrite <- rsum_neg. apply rsum_ext. intros f Hf.
    rewrite !TE by auto. pose proof (GB inject (nth f ids []) (nth i ids []) Hj) as Q. unfold w.
    transitivity ((nelectrons (nth i ids []) - nelectrons (nth f ids [])) * (G d a0 a1 beta m m inject (nth f ids []) (nth i ids []) * ngibbs beta m E (nth i ids []))); [ring|]. rewrite Q. ring. }
  assert (Z : forall x : R, x = - x -> x = 0) by (intros; lra). apply Z. exact Q.
Qed.
