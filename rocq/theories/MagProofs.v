(** The solver for two layers. *)
From Coq Require Import String Reals List Arith NArith ZArith Bool Lia Lra Ring Field.
From Verif Require Import Base RBase RLin CBase FockSpec OperatorsSpec SectorModel LocalModel HoppingModel CsrSpec NonLocalModel MatvecModel MbModel MbSpec EspaceModel EspaceSpec EspaceRealModel EspaceMoreProofs ProjModel ProjSpec
  CfModel CfSpec GfModel GfSpec GmSpec ExactSpec ExactProofs GflModel GflSpec AgrModel AgrSpec AgrInstProofs VisSpec FitModel FitSpec FitProofs DmftModel DmftSpec DmftProofs
  SymSpec SymProofs RelSpec RelLinProofs RelHamProofs RelFinalProofs RelCorProofs SiamSpec SiamModel SiamCutProofs SiamInstProofs SiamImpProofs ScrSpec ScrProofs ScrRelProofs ScrMainProofs PhsSpec PhsProofs MagModel MagSpec.
Import ListNotations.
Local Open Scope R_scope.

Section Layers.
Variables (big : R -> bool) (half : R) (fl : hflags) (hf : bool) (n : nat) (U : R).
Hypothesis Hn : (2 <= n <= 32)%nat.
Hypothesis H2 : half + half = 1.
Notation V := (VArray RRing (on_site U)).
Notation P Hu Hd := (params_of big (layers n Hu Hd) V hf 0 None (on_site U)).
Lemma layers_ok Hu Hd : symmetric n Hu -> symmetric n Hd -> settable RRing (layers n Hu Hd) fl = true -> model_ok half n (layers n Hu Hd) fl V (on_site U).
Proof.
  intros SU SD HS. split; [split; [lia|split; [lia|auto]]|]. split; [reflexivity|]. split; [auto|]. split; [split; exact I|]. split; [|exact HS].
  intros [|sp] i j Hi Hj; [exact (SU i j Hi Hj)|exact (SD i j Hi Hj)].
Qed.
Lemma layers_exchange Hu Hd : related n false true (fun x => x) (fun _ => false) (P Hu Hd) (P Hd Hu).
Proof.
  clear. split; [split; auto| | | | |]; try (intros x y _ _; cbn; split; [reflexivity|discriminate]).
  - intros s x y Hs _ _. cbn [pm]. replace (1 * (1 * 1)) with 1 by ring. rewrite Rmult_1_l. destruct s as [|[|]]; [reflexivity|reflexivity|lia].
  - intros x y _ _. reflexivity.
  - intros s x Hs _. cbn [pm]. rewrite Rmult_1_l. destruct s as [|[|]]; [reflexivity|reflexivity|lia].
Qed.
Lemma offset_exchange Hu Hd : RelSpec.offset n (P Hd Hu) - RelSpec.offset n (P Hu Hd) = 0.
Proof.
  clear. unfold RelSpec.offset. cbn [params_of P_e P_U P_z P_hf]. rewrite (rsum_ext n (fun i => / 2 * (hspin RRing (layers n Hd Hu) 0 i i + 0 + (hspin RRing (layers n Hd Hu) 1 i i + 0)) + on_site U i i * (p_shift (P Hd Hu) * p_shift (P Hd Hu)))
    (fun i => / 2 * (hspin RRing (layers n Hu Hd) 0 i i + 0 + (hspin RRing (layers n Hu Hd) 1 i i + 0)) + on_site U i i * (p_shift (P Hu Hd) * p_shift (P Hu Hd)))); [ring|].
  intros i _. cbn. unfold p_shift. cbn. ring.
Qed.
Lemma layers_flat H : related n false false (fun x => x) (fun _ => false) (params_of big (array_of n H) V hf 0 None (on_site U)) (P H H).
Proof.
  clear. split; [split; auto| | | | |]; try (intros x y _ _; cbn; split; [reflexivity|discriminate]).
  - intros s x y Hs _ _. cbn [pm]. replace (1 * (1 * 1)) with 1 by ring. rewrite Rmult_1_l. destruct s as [|[|]]; [reflexivity|reflexivity|lia].
  - intros x y _ _. reflexivity.
  - intros s x Hs _. cbn [pm]. rewrite Rmult_1_l. destruct s as [|[|]]; [reflexivity|reflexivity|lia].
Qed.
Variable eigh : dense RRing -> res (list R * list (list R)).
Variable eigsh : nat -> Z -> (list R -> res (list R)) -> res (list R * list (list R)).
Variable tridiag : (list R -> res (list R)) -> list R -> res (list R * list R).
Variable eight : list R -> list R -> res (list R * list (list R)).
Variable beta : R.
Hypothesis HC : eigh_contract eigh.
Hypothesis HW : GflSpec.eigh_sound eight.
Notation wk2 Hu Hd := (workable2 big half eigh eigsh tridiag fl hf n Hu Hd U).
Notation solve2 Hu Hd := (solve_spins big half eigh eigsh tridiag eight fl hf n beta None false Hu Hd U).

(** The dictionary of a model, screened. *)
Lemma dictionary h : model_ok half n h fl V (on_site U) -> exists es e sc, build_espace RRing Rleb big half eigh eigsh n h fl V hf 0 None None "sz" = Ok (es, Some e) /\
  screen_espace RRing (boltzmann 1000000 e (/ 1000000000)) es = (Ok tt, sc).
Proof.
  intros MO. pose proof MO as ((Hn1 & Hn2 & H2') & HU & HJ & (HSx & HSp) & HSm & Hset).
  destruct (exact_runs big half n h fl V hf 0 None (on_site U) eigh eigsh Hn1 Hn2 H2 HU HJ HSx HSp HSm Hset HC) as (es & o & HB).
  destruct (exact_egs big half n h fl V hf 0 None (on_site U) eigh eigsh Hn1 Hn2 H2 HU HJ HSx HSp HSm Hset HC es o HB) as (e & -> & _).
  pose proof (inst_sectors big half n h fl V hf 0 None (on_site U) MO eigh eigsh HC es (Some e) HB) as SE.
  pose proof (screen_ok RRing (boltzmann 1000000 e (/ 1000000000)) es (sectors_paired n es SE) (proj1 SE)) as ES.
  exists es, e. eexists. split; [exact HB|exact ES].
Qed.
Lemma solve_spins_parts Hu Hd es e sc ge gh ge' gh' :
  build_espace RRing Rleb big half eigh eigsh n (layers n Hu Hd) fl V hf 0 None None "sz" = Ok (es, Some e) -> screen_espace RRing (boltzmann 1000000 e (/ 1000000000)) es = (Ok tt, sc) ->
  gf_lanczos_of big half eigh eigsh n (layers n Hu Hd) fl V hf 0 None tridiag eight sc beta e 0 "sp" 0 false = Ok (sc, ge, gh) ->
  gf_lanczos_of big half eigh eigsh n (layers n Hu Hd) fl V hf 0 None tridiag eight sc beta e 0 "sp" 1 false = Ok (sc, ge', gh') ->
  solve2 Hu Hd = Ok ((ge, ge'), sc, e, None).
Proof.
  intros HB HSC G0 G1. unfold solve_spins. cbv zeta. match goal with |- bind ?b _ = _ => replace b with (Ok (es, Some e)) by (symmetry; exact HB) end. cbn [bind snd fst].
  match goal with |- context [screen_espace ?a ?b ?c] => replace (screen_espace a b c) with (@Ok unit tt, sc) by (symmetry; exact HSC) end. cbn [bind].
  match goal with |- bind ?b _ = _ => replace b with (Ok (sc, ge, gh)) by (symmetry; exact G0) end. cbn [bind fst snd].
  match goal with |- bind ?b _ = _ => replace b with (Ok (sc, ge', gh')) by (symmetry; exact G1) end. reflexivity.
Qed.
Lemma zpt y : zpoint (rcx (re y)) (CBase.im y) = y.
Proof. destruct y as [a b]. apply cx_eq; cbn; ring. Qed.

(** Each function is the average over the states left by screening. *)
Theorem spins_solved Hu Hd : symmetric n Hu -> symmetric n Hd -> wk2 Hu Hd ->
  exists es e sc F gu gd, build_espace RRing Rleb big half eigh eigsh n (layers n Hu Hd) fl V hf 0 None None "sz" = Ok (es, Some e) /\ lists_family n es F /\
  solve2 Hu Hd = Ok ((gu, gd), sc, e, None) /\
  forall z, CBase.im z <> 0 ->
    gl_call gu (rcx (re z)) (CBase.im z) = Ok (cxdiv (lehmann_w n 0 0 0 (cut_weight (boltzmann 1000000 e (/ 1000000000)) beta e) F z) (rcx (Zsum_w n (cut_weight (boltzmann 1000000 e (/ 1000000000)) beta e) F))) /\
    gl_call gd (rcx (re z)) (CBase.im z) = Ok (cxdiv (lehmann_w n 1 0 0 (cut_weight (boltzmann 1000000 e (/ 1000000000)) beta e) F z) (rcx (Zsum_w n (cut_weight (boltzmann 1000000 e (/ 1000000000)) beta e) F))).
Proof.
  intros SU SD [HS WK]. pose proof (layers_ok Hu Hd SU SD HS) as MO. destruct (dictionary _ MO) as (es & e & sc & HB & HSC).
  destruct (inst_family big half n (layers n Hu Hd) fl V hf 0 None (on_site U) MO eigh eigsh HC es (Some e) HB) as (F & LF & _).
  destruct (WK es e sc HB HSC 0%nat ltac:(lia)) as [U0 K0]. destruct (WK es e sc HB HSC 1%nat ltac:(lia)) as [U1 K1].
  destruct (kept_value big half n (layers n Hu Hd) fl V hf 0 None (on_site U) MO eigh eigsh HC es (Some e) HB tridiag eight _ sc HSC beta e 0 "sp" ltac:(lia) (or_intror (conj eq_refl HW)) F 0 false LF ltac:(lia) U0 K0) as (ge & gh & G0 & V0).
  destruct (kept_value big half n (layers n Hu Hd) fl V hf 0 None (on_site U) MO eigh eigsh HC es (Some e) HB tridiag eight _ sc HSC beta e 1 "sp" ltac:(lia) (or_intror (conj eq_refl HW)) F 0 false LF ltac:(lia) U1 K1) as (ge' & gh' & G1 & V1).
  exists es, e, sc, F, ge, ge'. split; [exact HB|]. split; [exact LF|]. split; [exact (solve_spins_parts Hu Hd es e sc ge gh ge' gh' HB HSC G0 G1)|].
  intros z Hz. specialize (V0 (rcx (re z)) (CBase.im z)). specialize (V1 (rcx (re z)) (CBase.im z)). rewrite zpt in V0, V1. auto.
Qed.
(** Exchanging the layers exchanges the functions. *)
Theorem spins_exchange Hu Hd : symmetric n Hu -> symmetric n Hd -> wk2 Hu Hd -> wk2 Hd Hu ->
  exists gu gd sc e gu' gd' sc' e', solve2 Hu Hd = Ok ((gu, gd), sc, e, None) /\ solve2 Hd Hu = Ok ((gu', gd'), sc', e', None) /\ e' = e /\
  forall z, CBase.im z <> 0 -> value_at gd' z = value_at gu z /\ value_at gu' z = value_at gd z.
Proof.
  intros SU SD [HS WK] [HS' WK']. pose proof (layers_ok Hu Hd SU SD HS) as MO. pose proof (layers_ok Hd Hu SD SU HS') as MO'. pose proof (layers_exchange Hu Hd) as RL.
  destruct (dictionary _ MO) as (es & e & sc & HB & HSC). destruct (dictionary _ MO') as (es' & e' & sc' & HB' & HSC').
  destruct (WK es e sc HB HSC 0%nat ltac:(lia)) as [U0 K0]. destruct (WK es e sc HB HSC 1%nat ltac:(lia)) as [U1 K1].
  destruct (WK' es' e' sc' HB' HSC' 0%nat ltac:(lia)) as [_ K0']. destruct (WK' es' e' sc' HB' HSC' 1%nat ltac:(lia)) as [_ K1'].
  pose proof (fun s => related_screened n false true (fun x => x) (fun _ => false) big half (layers n Hu Hd) fl V hf 0 None (on_site U) big half (layers n Hd Hu) fl V hf 0 None (on_site U) MO MO' RL eigh eigh eigsh eigsh HC HC es es' e e' HB HB'
    tridiag tridiag eight eight beta 1000000 (/ 1000000000) sc sc' s "sp" "sp" HSC HSC') as RS.
  destruct (RS 0%nat ltac:(lia) (or_intror (conj eq_refl HW)) (or_intror (conj eq_refl HW)) 0%nat ltac:(lia) U0 K0 K1') as (ge & gh & ge' & gh' & G0 & G0' & E0).
  destruct (RS 1%nat ltac:(lia) (or_intror (conj eq_refl HW)) (or_intror (conj eq_refl HW)) 0%nat ltac:(lia) U1 K1 K0') as (ge1 & gh1 & ge1' & gh1' & G1 & G1' & E1).
  exists ge, ge1, sc, e, ge1', ge', sc', e'. split; [exact (solve_spins_parts Hu Hd es e sc ge gh ge1 gh1 HB HSC G0 G1)|]. split; [exact (solve_spins_parts Hd Hu es' e' sc' ge1' gh1' ge' gh' HB' HSC' G1' G0')|]. split.
  - destruct (related_spectrum n false true (fun x => x) (fun _ => false) big half (layers n Hu Hd) fl V hf 0 None (on_site U) big half (layers n Hd Hu) fl V hf 0 None (on_site U) MO MO' RL eigh eigh eigsh eigsh HC HC es es' (Some e) (Some e') HB HB') as (e1 & [= <-] & [= ->] & _).
    rewrite offset_exchange. ring.
  - intros z Hz. destruct (E0 (rcx (re z)) (CBase.im z) (rcx (re z)) (CBase.im z)) as (g & A & B); [rewrite zpt; exact Hz|reflexivity|]. destruct (E1 (rcx (re z)) (CBase.im z) (rcx (re z)) (CBase.im z)) as (g1 & A1 & B1); [rewrite zpt; exact Hz|reflexivity|].
    rewrite (value_ok _ _ _ A), (value_ok _ _ _ B), (value_ok _ _ _ A1), (value_ok _ _ _ B1). cbn [pm]. split; apply cx_eq; cbn; ring.
Qed.
(** With equal layers both functions are the one [Gfimp.solve] finds. *)
Theorem spins_equal H s : (s <= 1)%nat -> symmetric n H -> wk2 H H -> workable big half eigh eigsh tridiag fl hf n s H U ->
  exists gu gd sc e g sc' e', solve2 H H = Ok ((gu, gd), sc, e, None) /\ solve_impurity big half eigh eigsh tridiag eight fl hf n beta (Z.of_nat s) None false H U = Ok (g, sc', e', None) /\
  forall z, CBase.im z <> 0 -> value_at gu z = value_at g z /\ value_at gd z = value_at g z.
Proof.
  intros Hs SY [HS WK] [HS1 WK1]. pose proof (layers_ok H H SY SY HS) as MO. pose proof (code_ok half fl n H U ltac:(lia) H2 HS1 SY) as MO1. pose proof (layers_flat H) as RL.
  destruct (dictionary _ MO) as (es & e & sc & HB & HSC). destruct (dictionary _ MO1) as (es1 & e1 & sc1 & HB1 & HSC1).
  destruct (WK es e sc HB HSC 0%nat ltac:(lia)) as [U0 K0]. destruct (WK es e sc HB HSC 1%nat ltac:(lia)) as [U1 K1]. destruct (WK1 es1 e1 sc1 HB1 HSC1) as [US KS].
  destruct (WK es e sc HB HSC s Hs) as [U2 K2].
  destruct (related_screened n false false (fun x => x) (fun _ => false) big half (array_of n H) fl V hf 0 None (on_site U) big half (layers n H H) fl V hf 0 None (on_site U) MO1 MO RL eigh eigh eigsh eigsh HC HC es1 es e1 e HB1 HB
    tridiag tridiag eight eight beta 1000000 (/ 1000000000) sc1 sc s "sp" "sp" HSC1 HSC Hs (or_intror (conj eq_refl HW)) (or_intror (conj eq_refl HW)) 0%nat ltac:(lia) US KS K2) as (g & gx & gs & gsx & G & GS & EQ).
  destruct (screened_spin n big half (layers n H H) fl V hf 0 None (on_site U) MO eigh eigsh HC es e HB tridiag eight beta 1000000 (/ 1000000000) sc "sp" HSC (or_intror (conj eq_refl HW)) 0%nat) as (gu & guh & gd & gdh & GU & GD & ED); auto; [intros x y _ _; reflexivity|lia|].
  exists gu, gd, sc, e, g, sc1, e1. split; [exact (solve_spins_parts H H es e sc gu guh gd gdh HB HSC GU GD)|]. split.
  - unfold solve_impurity. cbv zeta. match goal with |- bind ?b _ = _ => replace b with (Ok (es1, Some e1)) by (symmetry; exact HB1) end. cbn [bind snd fst].
    match goal with |- context [screen_espace ?a ?b ?c] => replace (screen_espace a b c) with (@Ok unit tt, sc1) by (symmetry; exact HSC1) end. cbn [bind].
    match goal with |- bind ?b _ = _ => replace b with (Ok (sc1, g, gx)) by (symmetry; exact G) end. reflexivity.
  - intros z Hz. assert (HZ : CBase.im (zpoint (rcx (re z)) (CBase.im z)) <> 0) by (rewrite zpt; exact Hz).
    destruct (EQ _ _ (rcx (re z)) (CBase.im z) HZ eq_refl) as (v & A & B). destruct (ED _ _ HZ) as (w & C & D). rewrite (value_ok _ _ _ A), (value_ok _ _ _ C), (value_ok _ _ _ D).
    assert (W : w = v); [|auto]. cbn [pm] in B. replace (cxmul (rcx 1) v) with v in B by (apply cx_eq; cbn; ring).
    destruct s as [|[|]]; [| |lia].
    + assert (Q : Ok (sc, gs, gsx) = Ok (sc, gu, guh)) by (rewrite <- GU; symmetry; exact GS). injection Q as -> ->. rewrite C in B. now injection B.
    + assert (Q : Ok (sc, gs, gsx) = Ok (sc, gd, gdh)) by (rewrite <- GD; symmetry; exact GS). injection Q as -> ->. rewrite D in B. now injection B.
Qed.
End Layers.
