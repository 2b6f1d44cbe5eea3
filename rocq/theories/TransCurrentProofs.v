(** Currents of sequential tunnelling in a stationary state. *)
From Coq Require Import Reals List Arith NArith ZArith Bool Lia Lra Psatz Sorted.
From Verif Require Import Base RBase RLin OperatorsSpec FockSpec SectorModel LocalModel MatvecModel EspaceModel ProjModel ProjSpec GfModel GfSpec
  RateModel RateSpec RateProofs RateDictProofs TransModel TransSpec TransProofs TransBuildProofs TransFinalProofs TnlSpec ThermoProofs.
Import ListNotations.
Local Open Scope R_scope.

Section Currents.
Variables (n : nat) (es : espace RRing) (egs : R) (d : list (key2 * gfel)).
Hypothesis HS : solved n es egs.
Hypothesis PD : paired n es d.
Variables (beta m0 m1 : R) (a0 a1 : list R).
Notation A := [a0; a1]. Notation mu := [m0; m1].
Definition Gs (l : nat) (F I : label) : R := rate_of (sq_call A mu beta) d l F I.
Notation al l := (nth l A []). Notation ml l := (nth l mu 0).

Lemma call_lead l g : (l < 2)%nat -> sq_call A mu beta g l = gf_rate g (al l) beta (ml l).
Proof. intros H. unfold sq_call. destruct l as [|[|?]]; [reflexivity|reflexivity|lia]. Qed.
Lemma exact_sign g : exact_element n es g -> electrons (g_F g) - electrons (g_I g) = match g_kind g with Electron => 1 | Hole => -1 end.
Proof.
  intros (p & q & i & p' & q' & j & I & J & op & -> & -> & _ & _ & _ & _ & A7 & A8). cbn [electrons].
  assert (NN : match op with OpCdg => (p' + q' = S (p + q))%nat | OpC => (p + q = S (p' + q'))%nat end) by (destruct A7 as [(N & -> & _)|(-> & N & _)]; destruct op; cbn in N; lia).
  destruct op; destruct A8 as [-> _]; rewrite NN, S_INR; ring.
Qed.
Lemma Gs_signed l F I : (l < 2)%nat -> rate_of (fun v (_ : unit) => sq_signed (al l) beta (ml l) v) d tt F I = (electrons F - electrons I) * Gs l F I.
Proof.
  intros Hl. unfold Gs. destruct PD as (ND & B & C). destruct (in_dict_dec d F I) as [(g & Hg)|H].
  - rewrite (rate_of_In _ _ _ _ _ _ ND Hg), (rate_of_In _ _ _ _ _ _ ND Hg), (call_lead l g Hl). destruct (B _ _ Hg) as [Q X]. injection Q as -> ->.
    unfold sq_signed. rewrite (exact_sign g X). destruct (gf_rate g (al l) beta (ml l)); cbn [bind]; destruct (g_kind g); ring.
  - rewrite (rate_of_out _ _ _ _ _ H), (rate_of_out _ _ _ _ _ H). ring.
Qed.
Lemma Gs_nonneg l F I : 0 <= Gs l F I.
Proof.
  unfold Gs, rate_of. apply (lsum_nonneg _ d). intros [[F' I'] g] _. cbn [fst snd]. destruct (list_eq_dec Nat.eq_dec F' F); [|lra]. destruct (list_eq_dec Nat.eq_dec I' I); [|lra].
  destruct (sq_call A mu beta g l) as [x|] eqn:Q; [exact (sq_call_nonneg _ _ _ _ _ _ Q)|lra].
Qed.
Lemma Gs_balance E l F I : (forall id x, state_energy es id x -> E id = x) -> (l < 2)%nat ->
  Gs l F I * gibbs beta (ml l) E I = Gs l I F * gibbs beta (ml l) E F.
Proof.
  intros HE Hl. pose proof (rate_balance n es d beta (ml l) E PD HE A l F I) as B.
  assert (Q : forall F I, rate_of (sq_call A [ml l; ml l] beta) d l F I = Gs l F I).
  { intros F' I'. unfold Gs, rate_of. apply (bsum_ext RRing). intros [[F0 I0] g] _. cbn [fst snd]. destruct (list_eq_dec Nat.eq_dec F0 F'); auto. destruct (list_eq_dec Nat.eq_dec I0 I'); auto.
    rewrite (call_lead l g Hl). unfold sq_call. destruct l as [|[|?]]; [reflexivity|reflexivity|lia]. }
  rewrite !Q in B. exact B.
Qed.

Theorem sq_currents : exists ids W T0 T1, sq_rate_matrix d beta mu A = Ok (length ids, W) /\ StronglySorted before ids /\
  (forall x, In x ids <-> exists I v, In ((x, I), v) d) /\
  sq_transition_matrix d beta m0 a0 = Ok (length ids, T0) /\ sq_transition_matrix d beta m1 a1 = Ok (length ids, T1) /\
  (forall p, stationary (length ids) W p -> current (length ids) T0 p + current (length ids) T1 p = 0) /\
  (forall p, 0 < beta -> stationary (length ids) W p -> (forall i, (i < length ids)%nat -> 0 <= p i) -> 0 <= (m0 - m1) * current (length ids) T0 p).
Proof.
  pose proof PD as (ND & _ & _).
  destruct (rates_entries gfel nat (sq_call A mu beta) [0; 1]%nat d ND) as (ids & W & EW & S & IN & OD & DG).
  destruct (transition_rates gfel (sq_signed a0 beta m0) true d ND) as (ids0 & T0 & ET0 & S0 & IN0 & HT0).
  assert (ids0 = ids) by (apply sorted_same; auto; intros x; rewrite IN, IN0; tauto). subst ids0.
  destruct (transition_rates gfel (sq_signed a1 beta m1) true d ND) as (ids1 & T1 & ET1 & S1 & IN1 & HT1).
  assert (ids1 = ids) by (apply sorted_same; auto; intros x; rewrite IN, IN1; tauto). subst ids1.
  exists ids, W, T0, T1. split; [exact EW|]. split; [exact S|]. split; [exact IN|]. split; [exact ET0|]. split; [exact ET1|].
  set (sz := length ids) in *. set (GG := fun l f i => Gs l (nth f ids []) (nth i ids [])). set (Nn := fun i => electrons (nth i ids [])).
  assert (WE : forall f i, (f < sz)%nat -> (i < sz)%nat -> f <> i -> W f i = GG 0%nat f i + GG 1%nat f i).
  { intros f i Hf Hi NE. rewrite (OD f i Hf Hi NE). unfold lsum, GG, Gs. cbn [bsum]. match goal with |- ?x = ?y => change (@eq R x y) end. cbn [cadd c0 RRing]. ring. }
  pose proof (closed_conserves _ _ DG) as CO.
  assert (CUR : forall l T p, (l < 2)%nat -> (forall a b, (a < sz)%nat -> (b < sz)%nat -> T a b = if (true && (a =? b)%nat)%bool then 0 else rate_of (fun v (_ : unit) => sq_signed (al l) beta (ml l) v) d tt (nth a ids []) (nth b ids [])) ->
    current sz T p = inflow sz GG Nn p l).
  { intros l T p Hl HT. unfold current, inflow. apply rsum_ext. intros f Hf. apply rsum_ext. intros i Hi. rewrite HT by auto. cbn [andb]. unfold Nn. destruct (Nat.eqb_spec f i) as [->|NE]; [ring|].
    rewrite (Gs_signed l _ _ Hl). reflexivity. }
  split.
  - intros p ST. rewrite (CUR 0%nat T0 p ltac:(lia) HT0), (CUR 1%nat T1 p ltac:(lia) HT1). exact (kirchhoff sz GG W Nn p CO WE ST).
  - intros p BP ST NN. rewrite (CUR 0%nat T0 p ltac:(lia) HT0).
    set (EE := fun id : label => match id with [P; Q; k] => match es_get es [P; Q] with Ok s => energy s k | Err _ => 0 end | _ => 0 end).
    assert (HE : forall id x, state_energy es id x -> EE id = x).
    { intros id x (P & Q & k & s & -> & H & _ & ->). unfold EE. rewrite (es_get_In _ _ _ (proj1 HS) H). reflexivity. }
    pose proof (second_law sz GG W Nn p CO WE ST (fun i => EE (nth i ids [])) (fun l => nth l [m0; m1] 0) beta BP) as SL. cbn [nth] in SL. apply SL; auto.
    + intros l f i Hl Hf Hi NE. apply Gs_nonneg.
    + intros l f i Hl Hf Hi NE. exact (Gs_balance EE l (nth f ids []) (nth i ids []) HE Hl).
Qed.
End Currents.

Theorem sq_built_currents n es egs cutoff d : solved n es egs -> build_transition_elements n egs es cutoff = Ok d -> forall beta m0 m1 a0 a1,
  exists ids W T0 T1, sq_rate_matrix d beta [m0; m1] [a0; a1] = Ok (length ids, W) /\ StronglySorted before ids /\
  (forall x, In x ids <-> exists I v, In ((x, I), v) d) /\
  sq_transition_matrix d beta m0 a0 = Ok (length ids, T0) /\ sq_transition_matrix d beta m1 a1 = Ok (length ids, T1) /\
  (forall p, stationary (length ids) W p -> current (length ids) T0 p + current (length ids) T1 p = 0) /\
  (forall p, 0 < beta -> stationary (length ids) W p -> (forall i, (i < length ids)%nat -> 0 <= p i) -> 0 <= (m0 - m1) * current (length ids) T0 p).
Proof. intros HS HB beta m0 m1 a0 a1. exact (sq_currents n es egs d HS (build_paired n es egs HS cutoff d HB) beta m0 m1 a0 a1). Qed.
