From Coq Require Import Reals List Arith NArith ZArith Bool Lia Lra Sorted.
From Verif Require Import Base RBase RLin CBase OperatorsSpec FockSpec SectorModel MatvecModel MatvecProofs EspaceModel ProjModel ProjSpec ProjFinalProofs
  GfModel GfSpec RateModel RateSpec RateProofs RateDictProofs RateStatProofs RateActiveProofs TransModel TransSpec TransProofs TransBuildProofs.
Import ListNotations.
Local Open Scope R_scope.

Lemma sorted_same (l m : list label) : StronglySorted before l -> StronglySorted before m -> (forall x, In x l <-> In x m) -> l = m.
Proof.
  intros Sl. revert m. induction Sl as [|x l Sl IH F]; intros m Sm E.
  - destruct m as [|y m]; auto. exfalso. apply (proj2 (E y)). now left.
  - destruct Sm as [|y m Sm G]; [exfalso; apply (proj1 (E x)); now left|]. rewrite Forall_forall in F, G.
    assert (x = y).
    { destruct (proj1 (E x) (or_introl eq_refl)) as [?|Hx]; auto. destruct (proj2 (E y) (or_introl eq_refl)) as [?|Hy]; auto.
      exfalso. exact (before_irrefl _ (before_trans _ _ _ (F y Hy) (G x Hx))). }
    subst y. f_equal. apply IH; auto. intros z. split; intros Hz.
    + destruct (proj1 (E z) (or_intror Hz)) as [<-|?]; auto. exfalso. exact (before_irrefl _ (F _ Hz)).
    + destruct (proj2 (E z) (or_intror Hz)) as [<-|?]; auto. exfalso. exact (before_irrefl _ (G _ Hz)).
Qed.

(** * Pairs of elements *)
Lemma amps_up_adj n q op J I j i : amps_up n q op J I j i = amps_up n q (opp_op op) I J i j.
Proof. unfold amps_up. apply map_ext. intros pos. now rewrite (bracket_adj RRing). Qed.
Lemma amps_dw_adj n op J I j i : amps_dw n op J I j i = amps_dw n (opp_op op) I J i j.
Proof. unfold amps_dw. apply map_ext. intros pos. now rewrite (bracket_adj RRing). Qed.
Lemma neighbour_unique op op' p p' : neighbour op p p' -> neighbour op' p p' -> op = op'.
Proof. destruct op, op'; cbn; auto; intros; lia. Qed.

Section Final.
Variables (n : nat) (es : espace RRing) (egs : R).
Hypothesis HS : solved n es egs.

Lemma exact_pair g g' : exact_element n es g -> exact_element n es g' -> g_F g' = g_I g -> g_I g' = g_F g -> conj_el g g'.
Proof.
  intros (p & q & i & p' & q' & j & I & J & op & A1 & A2 & A3 & A4 & A5 & A6 & A7 & A8) (r & s & k & r' & s' & l & I' & J' & op' & B1 & B2 & B3 & B4 & B5 & B6 & B7 & B8) E1 E2.
  rewrite A1, B2 in E1. rewrite A2, B1 in E2. injection E1 as -> -> ->. injection E2 as -> -> ->.
  pose proof (stored_unique n es egs HS _ _ _ A3 B4). pose proof (stored_unique n es egs HS _ _ _ A4 B3). subst I' J'.
  unfold conj_el. rewrite A1, A2, B1, B2. split; [reflexivity|]. split; [reflexivity|].
  destruct A7 as [(N & -> & V)|(-> & N & V)], B7 as [(N' & Q & V')|(Q & N' & V')].
  - apply neighbour_opp in N'. pose proof (neighbour_unique _ _ _ _ N N'). subst op. rewrite V, V', amps_up_adj. destruct op'; cbn in *; destruct A8 as [-> ->], B8 as [-> ->]; repeat split; reflexivity.
  - exfalso. subst. destruct op, op'; cbn in *; lia.
  - exfalso. subst. destruct op, op'; cbn in *; lia.
  - apply neighbour_opp in N'. pose proof (neighbour_unique _ _ _ _ N N'). subst op. rewrite V, V', amps_dw_adj. destruct op'; cbn in *; destruct A8 as [-> ->], B8 as [-> ->]; repeat split; reflexivity.
Qed.

Lemma key_ok_sym F I : key_ok es (fun p q p' q' => reachable n es egs p q /\ reachable n es egs p' q' /\ apart p q p' q') F I ->
  key_ok es (fun p q p' q' => reachable n es egs p q /\ reachable n es egs p' q' /\ apart p q p' q') I F.
Proof.
  intros (p & q & i & p' & q' & j & sI & sJ & -> & -> & A & B & C & D & E1 & E2 & E3). exists p', q', j, p, q, i, sJ, sI. repeat split; auto. now apply apart_sym.
Qed.

(** The unscreened dictionary. *)
Theorem build_spec : exists d, build_transition_elements n egs es None = Ok d /\ NoDup (map fst d) /\
  (forall k g, In (k, g) d -> k = (g_F g, g_I g) /\ exact_element n es g) /\
  (forall p q i p' q' j, (exists g, In (([p'; q'; j], [p; q; i]), g) d) <->
     reachable n es egs p q /\ reachable n es egs p' q' /\ apart p q p' q' /\
     exists I J, In ([p; q], I) es /\ In ([p'; q'], J) es /\ (i < nvals I)%nat /\ (j < nvals J)%nat) /\
  (forall F I g, In ((F, I), g) d -> exists g', In ((I, F), g') d /\ conj_el g g').
Proof.
  destruct (build_ok n es egs HS) as (d & E & A & B & C). exists d. split; [exact E|]. split; [exact A|]. split; [exact B|]. split.
  - intros p q i p' q' j. split.
    + intros (g & Hg). assert (K : In ([p'; q'; j], [p; q; i]) (map fst d)) by (apply in_map_iff; exists (([p'; q'; j], [p; q; i]), g); auto).
      apply C in K. destruct K as (a & b & k & a' & b' & l & sI & sJ & E1 & E2 & H). injection E1 as <- <- <-. injection E2 as <- <- <-. decompose [and] H. repeat split; auto. exists sI, sJ. auto.
    + intros (H1 & H2 & H3 & I & J & HI & HJ & Hi & Hj). assert (K : In ([p'; q'; j], [p; q; i]) (map fst d)).
      { apply C. exists p, q, i, p', q', j, I, J. repeat split; auto. }
      apply in_map_iff in K. destruct K as ([k g] & E1 & Hg). cbn [fst] in E1. subst k. exists g. exact Hg.
  - intros F I g Hg. assert (K : In (F, I) (map fst d)) by (apply in_map_iff; exists ((F, I), g); auto).
    apply C, key_ok_sym, C in K. apply in_map_iff in K. destruct K as ([k g'] & E1 & Hg'). cbn [fst] in E1. subst k. exists g'. split; [exact Hg'|].
    destruct (B _ _ Hg) as [K1 X]. destruct (B _ _ Hg') as [K2 Y]. injection K1 as -> ->. injection K2 as K2 K3. apply exact_pair; auto.
Qed.

(** * Screening *)
Lemma eig_at_energy id E : state_energy es id E -> eig_at es id = Ok E.
Proof.
  intros (p & q & k & s & -> & H & L & ->). unfold eig_at. rewrite (es_get_In _ _ _ (proj1 HS) H). cbn [bind]. unfold energy, nvals in *.
  change R with (car RRing) in *. rewrite (nth_error_nth' (s_vals RRing s) (0 : car RRing) L). reflexivity.
Qed.
Lemma exact_states g : exact_element n es g -> exists EF EI, state_energy es (g_F g) EF /\ state_energy es (g_I g) EI.
Proof.
  intros (p & q & i & p' & q' & j & I & J & op & A1 & A2 & A3 & A4 & A5 & A6 & _). exists (energy J j), (energy I i). split; [exists p', q', j, J|exists p, q, i, I]; auto.
Qed.
Notation near := (near es egs).
Lemma screen_spec d c : (forall k g, In (k, g) d -> k = (g_F g, g_I g) /\ exact_element n es g) ->
  exists d', screen d egs es c = Ok d' /\ (NoDup (map fst d) -> NoDup (map fst d')) /\
  forall k g, In (k, g) d' <-> In (k, g) d /\ Rabs (g_E g) < c /\ near c (g_F g) /\ near c (g_I g).
Proof.
  intros H. unfold screen.
  match goal with |- context[foldM ?f d []] => set (body := f) end.
  assert (G : forall l acc, (forall k g, In (k, g) l -> k = (g_F g, g_I g) /\ exact_element n es g) -> exists r, foldM body l acc = Ok (acc ++ r) /\
    (NoDup (map fst l) -> NoDup (map fst r)) /\ (forall k g, In (k, g) r <-> In (k, g) l /\ Rabs (g_E g) < c /\ near c (g_F g) /\ near c (g_I g))).
  { induction l as [|[k g] l IH]; intros acc Hl; cbn [foldM].
    - exists []. rewrite app_nil_r. split; [reflexivity|]. split; auto. intros k g. split; [intros []|intros [[] _]].
    - destruct (Hl k g (or_introl eq_refl)) as [-> X]. destruct (exact_states g X) as (EF & EI & SF & SI).
      assert (NF : near c (g_F g) <-> Rabs (EF - egs) < c).
      { split; [intros (E & S & L)|intros L; exists EF; auto]. apply eig_at_energy in S. apply eig_at_energy in SF. congruence. }
      assert (NI : near c (g_I g) <-> Rabs (EI - egs) < c).
      { split; [intros (E & S & L)|intros L; exists EI; auto]. apply eig_at_energy in S. apply eig_at_energy in SI. congruence. }
      assert (Hl' : forall k g, In (k, g) l -> k = (g_F g, g_I g) /\ exact_element n es g) by (intros; apply Hl; now right).
      assert (SKIP : ~ (Rabs (g_E g) < c /\ near c (g_F g) /\ near c (g_I g)) -> exists r, foldM body l acc = Ok (acc ++ r) /\
        (NoDup (map fst ((g_F g, g_I g, g) :: l)) -> NoDup (map fst r)) /\ (forall k g0, In (k, g0) r <-> In (k, g0) ((g_F g, g_I g, g) :: l) /\ Rabs (g_E g0) < c /\ near c (g_F g0) /\ near c (g_I g0))).
      { intros NOT. destruct (IH acc Hl') as (r & E & N & S). exists r. split; [exact E|]. split; [intros Q; inversion Q; auto|]. intros k g0. rewrite S. cbn [In]. split; [tauto|].
        intros [[Q|Q] P]; [|tauto]. injection Q as <- <-. contradiction. }
      unfold body at 1. cbn [fst snd]. rewrite (eig_at_energy _ _ SF), (eig_at_energy _ _ SI). cbn [bind].
      destruct (Rltb (Rabs (g_E g)) c) eqn:L1; [apply Rltb_spec in L1|cbn [bind]; apply SKIP; intros (Q & _); apply Rltb_spec in Q; congruence].
      destruct (Rltb (Rabs (EF - egs)) c) eqn:L2; [apply Rltb_spec in L2|cbn [bind]; apply SKIP; rewrite NF; intros (_ & Q & _); apply Rltb_spec in Q; congruence].
      destruct (Rltb (Rabs (EI - egs)) c) eqn:L3; [apply Rltb_spec in L3|cbn [bind]; apply SKIP; rewrite NI; intros (_ & _ & Q); apply Rltb_spec in Q; congruence].
      cbn [bind]. destruct (IH (acc ++ [((g_F g, g_I g), g)]) Hl') as (r & -> & N & S). exists (((g_F g, g_I g), g) :: r). split; [now rewrite <- app_assoc|]. split.
      + cbn [map fst]. intros Q. inversion Q as [|? ? Q1 Q2]; subst. constructor; auto. intros Q3. apply Q1. apply in_map_iff in Q3. destruct Q3 as ([k g0] & E & I). cbn [fst] in E. subst k.
        apply S in I. destruct I as [I _]. apply in_map_iff. exists ((g_F g, g_I g), g0). auto.
      + intros k g0. cbn [In]. rewrite S. split; [|tauto]. intros [Q|Q]; [injection Q as <- <-; rewrite NF, NI; tauto|tauto]. }
  destruct (G d [] H) as (r & E & S). exists r. auto.
Qed.

Theorem build_screen c : exists d d', build_transition_elements n egs es None = Ok d /\ build_transition_elements n egs es (Some c) = Ok d' /\
  forall k g, In (k, g) d' <-> In (k, g) d /\ Rabs (g_E g) < c /\ near c (g_F g) /\ near c (g_I g).
Proof.
  destruct build_spec as (d & E & _ & B & _). destruct (screen_spec d c B) as (d' & E' & _ & S). exists d, d'. split; [exact E|]. split; [|exact S].
  revert E. unfold build_transition_elements. destruct (ground_sectors egs es) as [ngs|]; cbn [bind]; [|discriminate].
  match goal with |- context[foldM ?f ?l []] => destruct (foldM f l []) as [d0|]; cbn [bind]; [|discriminate] end. intros E. injection E as ->. exact E'.
Qed.

Notation paired := (paired n es).
Theorem build_paired cutoff d : build_transition_elements n egs es cutoff = Ok d -> paired d.
Proof.
  destruct build_spec as (d0 & E & A & B & _ & C). destruct cutoff as [c|].
  - destruct (build_screen c) as (d1 & d' & E1 & E2 & S). rewrite E1 in E. injection E as ->. intros E. rewrite E2 in E. injection E as <-.
    destruct (screen_spec d0 c B) as (d2 & E3 & N & _).
    assert (d2 = d').
    { revert E1 E2. unfold build_transition_elements. destruct (ground_sectors egs es) as [ngs|]; cbn [bind]; [|discriminate].
      match goal with |- context[foldM ?f ?l []] => destruct (foldM f l []) as [d00|]; cbn [bind]; [|discriminate] end. intros E. injection E as ->. rewrite E3. intros E. now injection E. }
    subst d2. split; [auto|]. split; [intros k g H; apply S in H; now apply B|]. intros F I g H. apply S in H. destruct H as (H & L & NF & NI).
    destruct (C _ _ _ H) as (g' & H' & K). exists g'. split; [|exact K]. apply S. destruct K as (K1 & K2 & K3 & K4 & K5). rewrite K1, K2, K4. auto.
  - rewrite E. intros Q. injection Q as <-. split; [exact A|]. split; [exact B|exact C].
Qed.

(** * Equilibrium *)
Section Eq.
Variables (d : list (key2 * gfel)) (beta m : R) (E : label -> R).
Hypothesis PD : paired d.
Hypothesis HE : forall id x, state_energy es id x -> E id = x.
Notation w := (gibbs beta m E).

Lemma kind_balance g g' a x y : exact_element n es g -> conj_el g g' -> gf_rate g a beta m = Ok x -> gf_rate g' a beta m = Ok y -> x * w (g_I g) = y * w (g_F g).
Proof.
  intros X (K1 & K2 & K3 & K4 & K5). unfold gf_rate. rewrite K3. destruct (dotv (g_v g) a) as [z|]; [|discriminate]. cbn [bind]. rewrite K4, K5.
  intros A B. injection A as <-. injection B as <-.
  destruct X as (p & q & i & p' & q' & j & I & J & op & A1 & A2 & A3 & A4 & A5 & A6 & A7 & A8).
  assert (EI : E (g_I g) = energy I i) by (apply HE; exists p, q, i, I; auto). assert (EF : E (g_F g) = energy J j) by (apply HE; exists p', q', j, J; auto).
  unfold gibbs. rewrite EI, EF, A1, A2. cbn [electrons].
  assert (NN : match op with OpCdg => (p' + q' = S (p + q))%nat | OpC => (p + q = S (p' + q'))%nat end) by (destruct A7 as [(N & -> & _)|(-> & N & _)]; destruct op; cbn in N; lia).
  rewrite !(Rmult_assoc (z ^ 2)). apply (f_equal (Rmult _)).
  destruct op; destruct A8 as [-> ->]; cbn [opposite].
  - rewrite NN, S_INR. replace (- (energy I i - energy J j) + m) with (- (energy I i - energy J j - m)) by ring. rewrite (nF_ratio (energy I i - energy J j - m)).
    rewrite (Rmult_comm (exp _) (nF _ _)), Rmult_assoc, <- exp_plus. apply (f_equal (Rmult _)), (f_equal exp). ring.
  - rewrite NN, S_INR. rewrite (nF_ratio (energy J j - energy I i - m)). replace (- (energy J j - energy I i) + m) with (- (energy J j - energy I i - m)) by ring.
    rewrite (Rmult_comm (exp _) (nF _ _)), Rmult_assoc, <- exp_plus. apply (f_equal (Rmult _)), (f_equal exp). ring.
Qed.

Lemma rate_of_In {V L} (call : V -> L -> res R) (D : list (key2 * V)) lead F I g : NoDup (map fst D) -> In ((F, I), g) D ->
  rate_of call D lead F I = match call g lead with Ok x => x | Err _ => 0 end.
Proof.
  intros ND H. rewrite <- look_rate by auto. unfold look, dget.
  assert (Q : find (fun e => key_eqb (fst e) (F, I)) D = Some ((F, I), g)).
  { clear - ND H. induction D as [|[k v] D IH]; [destruct H|]. cbn [find fst]. cbn [map fst] in ND. inversion ND as [|? ? N ND']; subst. destruct (key_eqb_spec k (F, I)) as [->|NE].
    - destruct H as [H|H]; [now rewrite H|]. exfalso. apply N. apply in_map_iff. exists ((F, I), g). auto.
    - destruct H as [H|H]; [congruence|auto]. }
  rewrite Q. reflexivity.
Qed.
Lemma rate_of_out {V L} (call : V -> L -> res R) (D : list (key2 * V)) lead F I : (forall g, ~ In ((F, I), g) D) -> rate_of call D lead F I = 0.
Proof.
  intros H. unfold rate_of. apply (bsum_0 RRing). intros [[F' I'] g] Hg. cbn [fst snd].
  destruct (list_eq_dec Nat.eq_dec F' F) as [->|]; auto. destruct (list_eq_dec Nat.eq_dec I' I) as [->|]; auto. exfalso. exact (H g Hg).
Qed.
Lemma in_dict_dec {V} (D : list (key2 * V)) F I : (exists g, In ((F, I), g) D) \/ (forall g, ~ In ((F, I), g) D).
Proof.
  induction D as [|[[F' I'] g] D IH]; [right; intros ? []|].
  destruct (list_eq_dec Nat.eq_dec F' F) as [->|N]; [destruct (list_eq_dec Nat.eq_dec I' I) as [->|N]; [left; exists g; now left|]|].
  all: destruct IH as [(g' & H)|H]; [left; exists g'; now right|right; intros g' [Q|Q]; [congruence|exact (H g' Q)]].
Qed.

Lemma rate_balance A lead F I : rate_of (sq_call A [m; m] beta) d lead F I * w I = rate_of (sq_call A [m; m] beta) d lead I F * w F.
Proof.
  destruct PD as (ND & B & C). destruct (in_dict_dec d F I) as [(g & Hg)|N].
  - destruct (C _ _ _ Hg) as (g' & Hg' & K). rewrite (rate_of_In _ _ _ _ _ _ ND Hg), (rate_of_In _ _ _ _ _ _ ND Hg').
    destruct (B _ _ Hg) as [E1 X]. injection E1 as -> ->. unfold sq_call. destruct (nth_error A lead) as [a|]; cbn [bind]; [|now rewrite !Rmult_0_l].
    destruct (nth_error [m; m] lead) as [mu|] eqn:Q; cbn [bind]; [|now rewrite !Rmult_0_l].
    assert (mu = m) by (destruct lead as [|[|[|?]]]; cbn in Q; congruence). subst mu.
    destruct (gf_rate g a beta m) as [x|] eqn:GX, (gf_rate g' a beta m) as [y|] eqn:GY; try now rewrite !Rmult_0_l.
    + exact (kind_balance g g' a x y X K GX GY).
    + exfalso. unfold gf_rate in *. destruct K as (_ & _ & K3 & _). rewrite K3 in GY. destruct (dotv (g_v g) a); cbn in *; discriminate.
    + exfalso. unfold gf_rate in *. destruct K as (_ & _ & K3 & _). rewrite K3 in GY. destruct (dotv (g_v g) a); cbn in *; discriminate.
  - rewrite (rate_of_out _ _ _ _ _ N), (rate_of_out _ _ _ I F); [now rewrite !Rmult_0_l|]. intros g Hg. destruct (C _ _ _ Hg) as (g' & Hg' & _). exact (N _ Hg').
Qed.
Lemma signed_balance a F I : rate_of (fun v (_ : unit) => sq_signed a beta m v) d tt F I * w I = - (rate_of (fun v (_ : unit) => sq_signed a beta m v) d tt I F * w F).
Proof.
  destruct PD as (ND & B & C). destruct (in_dict_dec d F I) as [(g & Hg)|N].
  - destruct (C _ _ _ Hg) as (g' & Hg' & K). rewrite (rate_of_In _ _ _ _ _ _ ND Hg), (rate_of_In _ _ _ _ _ _ ND Hg').
    destruct (B _ _ Hg) as [E1 X]. injection E1 as -> ->. unfold sq_signed.
    destruct (gf_rate g a beta m) as [x|] eqn:GX, (gf_rate g' a beta m) as [y|] eqn:GY; cbn [bind]; try (rewrite !Rmult_0_l, ?Ropp_0; reflexivity).
    + pose proof (kind_balance g g' a x y X K GX GY) as Q. destruct K as (_ & _ & _ & _ & K5). rewrite K5. destruct (g_kind g); cbn [opposite]; lra.
    + exfalso. unfold gf_rate in *. destruct K as (_ & _ & K3 & _). rewrite K3 in GY. destruct (dotv (g_v g) a); cbn in *; discriminate.
    + exfalso. unfold gf_rate in *. destruct K as (_ & _ & K3 & _). rewrite K3 in GY. destruct (dotv (g_v g) a); cbn in *; discriminate.
  - rewrite (rate_of_out _ _ _ _ _ N), (rate_of_out _ _ _ I F); [rewrite !Rmult_0_l, Ropp_0; reflexivity|]. intros g Hg. destruct (C _ _ _ Hg) as (g' & Hg' & _). exact (N _ Hg').
Qed.

Lemma rsum_neg k f : rsum k (fun i => - f i) = - rsum k f.
Proof. rewrite (rsum_ext _ _ (fun i => -1 * f i)) by (intros; ring). rewrite rsum_scal_l. ring. Qed.
(** Detailed balance makes the vector stationary. *)
Lemma balance_stationary sz (W : mat) (x : nat -> R) : conserves sz W -> (forall f i, (f < sz)%nat -> (i < sz)%nat -> W f i * x i = W i f * x f) -> stationary sz W x.
Proof.
  intros C B f Hf. rewrite (rsum_ext _ _ (fun i => W i f * x f)) by (intros i Hi; now apply B).
  rewrite (rsum_ext _ _ (fun i => x f * W i f)) by (intros; ring). rewrite rsum_scal_l, C by auto. ring.
Qed.
Theorem gibbs_stationary A : exists ids W, sq_rate_matrix d beta [m; m] A = Ok (length ids, W) /\ StronglySorted before ids /\
  (forall x, In x ids <-> exists I v, In ((x, I), v) d) /\
  (forall f i, (f < length ids)%nat -> (i < length ids)%nat -> W f i * w (nth i ids []) = W i f * w (nth f ids [])) /\
  stationary (length ids) W (fun i => w (nth i ids [])) /\
  forall a, exists T, sq_transition_matrix d beta m a = Ok (length ids, T) /\
    (forall f i, (f < length ids)%nat -> (i < length ids)%nat -> T f i * w (nth i ids []) = - (T i f * w (nth f ids []))) /\
    rsum (length ids) (fun f => rsum (length ids) (fun i => T f i * w (nth i ids []))) = 0.
Proof.
  pose proof PD as (ND & _ & _).
  destruct (rates_entries gfel nat (sq_call A [m; m] beta) [0; 1]%nat d ND) as (ids & W & EW & S & IN & OD & DG). exists ids, W. split; [exact EW|]. split; [exact S|]. split; [exact IN|].
  assert (BAL : forall f i, (f < length ids)%nat -> (i < length ids)%nat -> W f i * w (nth i ids []) = W i f * w (nth f ids [])).
  { intros f i Hf Hi. destruct (Nat.eq_dec f i) as [->|N]; [reflexivity|]. rewrite !OD by auto. unfold lsum. cbn [bsum].
    pose proof (rate_balance A 0%nat (nth f ids []) (nth i ids [])). pose proof (rate_balance A 1%nat (nth f ids []) (nth i ids [])).
    match goal with |- ?x = ?y => change (@eq R x y) end. cbn [cadd c0 RRing] in *. lra. }
  split; [exact BAL|]. split; [apply balance_stationary; auto; exact (closed_conserves _ _ DG)|].
  intros a. destruct (transition_rates gfel (sq_signed a beta m) true d ND) as (ids' & T & ET & S' & IN' & HT).
  assert (ids' = ids) by (apply sorted_same; auto; intros x; rewrite IN, IN'; tauto). subst ids'. exists T. split; [exact ET|].
  assert (AB : forall f i, (f < length ids)%nat -> (i < length ids)%nat -> T f i * w (nth i ids []) = - (T i f * w (nth f ids []))).
  { intros f i Hf Hi. rewrite !HT by auto. rewrite (Nat.eqb_sym i f). cbn [andb]. destruct (Nat.eqb_spec f i) as [->|N]; [rewrite Rmult_0_l, Ropp_0; reflexivity|]. apply signed_balance. }
  split; [exact AB|].
  assert (Q : rsum (length ids) (fun f => rsum (length ids) (fun i => T f i * w (nth i ids []))) = - rsum (length ids) (fun f => rsum (length ids) (fun i => T f i * w (nth i ids [])))).
  { etransitivity.
    - apply rsum_ext. intros f Hf. apply rsum_ext. intros i Hi. rewrite AB by auto. reflexivity.
    - etransitivity; [apply rsum_ext; intros f Hf; exact (rsum_neg _ _)|]. rewrite rsum_neg. f_equal. rewrite rsum_swap. reflexivity. }
  lra.
Qed.
End Eq.
End Final.

Theorem equilibrium : forall n es egs, solved n es egs -> forall cutoff d, build_transition_elements n egs es cutoff = Ok d ->
  forall beta m E, (forall id x, state_energy es id x -> E id = x) -> forall A, exists ids W,
  sq_rate_matrix d beta [m; m] A = Ok (length ids, W) /\ StronglySorted before ids /\
  (forall x, In x ids <-> exists I v, In ((x, I), v) d) /\
  (forall f i, (f < length ids)%nat -> (i < length ids)%nat -> W f i * gibbs beta m E (nth i ids []) = W i f * gibbs beta m E (nth f ids [])) /\
  stationary (length ids) W (fun i => gibbs beta m E (nth i ids [])) /\
  forall a, exists T, sq_transition_matrix d beta m a = Ok (length ids, T) /\
    (forall f i, (f < length ids)%nat -> (i < length ids)%nat -> T f i * gibbs beta m E (nth i ids []) = - (T i f * gibbs beta m E (nth f ids []))) /\
    rsum (length ids) (fun f => rsum (length ids) (fun i => T f i * gibbs beta m E (nth i ids []))) = 0.
Proof. intros n es egs HS cutoff d HB beta m E HE A. exact (gibbs_stationary n es d beta m E (build_paired n es egs HS cutoff d HB) HE A). Qed.

Theorem equilibrium_solution : forall n es egs, solved n es egs -> forall cutoff d, build_transition_elements n egs es cutoff = Ok d ->
  forall beta m E, (forall id x, state_energy es id x -> E id = x) -> forall A ids W w v,
  sq_rate_matrix d beta [m; m] A = Ok (length ids, W) -> StronglySorted before ids -> (forall x, In x ids <-> exists I v, In ((x, I), v) d) ->
  (0 < length ids)%nat -> eig_ok (length ids) W w v -> unique_stationary (length ids) W ->
  exists p, stationary_solution (w, v) = Ok p /\ length p = length ids /\
  (forall i, (i < length ids)%nat -> nth i p 0 = gibbs beta m E (nth i ids []) / rsum (length ids) (fun k => gibbs beta m E (nth k ids []))) /\
  forall a T, sq_transition_matrix d beta m a = Ok (length ids, T) ->
    rsum (length ids) (fun f => rsum (length ids) (fun i => T f i * nth i p 0)) = 0.
Proof.
  intros n es egs HS cutoff d HB beta m E HE A ids W w v EW S IN Z EIG U.
  destruct (equilibrium n es egs HS cutoff d HB beta m E HE A) as (ids' & W' & EW' & S' & IN' & _ & ST & CUR).
  assert (ids' = ids) by (apply sorted_same; auto; intros x; rewrite IN, IN'; tauto). subst ids'. rewrite EW in EW'. injection EW' as <-.
  assert (RM : rate_matrix (length ids) W).
  { destruct (rates_conserve gfel nat (sq_call A [m; m] beta) [0; 1]%nat d) as (sz & W0 & E0 & C & SG). unfold sq_rate_matrix in EW. rewrite EW in E0. injection E0 as <- <-.
    split; [exact C|]. apply SG. intros k g lead x _ _. apply sq_call_nonneg. }
  destruct (stationary_returned _ W w v Z RM EIG) as (p & EP & LP & SP & UP). destruct (UP U) as (_ & _ & UQ). exists p. split; [exact EP|]. split; [exact LP|].
  set (G := fun i => gibbs beta m E (nth i ids [])) in *. set (Zs := rsum (length ids) G).
  assert (ZP : 0 < Zs).
  { apply Rlt_le_trans with (G 0%nat); [apply exp_pos|]. apply rsum_term_le; auto. intros; left; apply exp_pos. }
  assert (Q : forall i, (i < length ids)%nat -> G i / Zs = nth i p 0).
  { apply UQ.
    - intros f Hf. rewrite (rsum_ext _ _ (fun i => / Zs * (W f i * G i))) by (intros; unfold Rdiv; ring). rewrite rsum_scal_l, (ST f Hf). ring.
    - rewrite (rsum_ext _ _ (fun i => / Zs * G i)) by (intros; unfold Rdiv; ring). rewrite rsum_scal_l. fold Zs. field. lra. }
  split; [intros i Hi; rewrite <- Q by auto; reflexivity|].
  intros a T ET. destruct (CUR a) as (T' & ET' & _ & C0). rewrite ET in ET'. injection ET' as <-.
  rewrite (rsum_ext _ _ (fun f => / Zs * rsum (length ids) (fun i => T f i * G i))).
  - rewrite rsum_scal_l. unfold G. rewrite C0. ring.
  - intros f Hf. rewrite <- rsum_scal_l. apply rsum_ext. intros i Hi. rewrite <- Q by auto. unfold Rdiv. ring.
Qed.
