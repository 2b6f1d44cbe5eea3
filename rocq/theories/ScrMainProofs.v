(** What the Lanczos Green's functions of two related models are after screening. *)
From Coq Require Import String Reals List Arith NArith ZArith Bool Lia Lra Ring Permutation.
From Verif Require Import Base RBase RLin CBase OperatorsModel OperatorsSpec OperatorsProofs LookupModel LookupSpec LookupProofs SectorModel SectorSpec SectorProofs FockSpec FockProofs LocalModel LocalSpec HoppingModel CsrSpec NonLocalSpec
  MatvecModel MbModel MbSpec EspaceModel EspaceSpec EspaceRealModel EspaceMoreProofs ProjModel ProjSpec ProjProofs ProjFinalProofs CfModel CfSpec CfMoreProofs GfModel GfSpec GfProofs GfSumProofs GfMoreProofs GmModel GmSpec GmFockProofs GmProofs SpectralProofs ExactSpec ExactProofs ExactMoreProofs
  FlipProofs SymSpec SymProofs RelSpec RelLinProofs RelFockProofs RelHamProofs RelProofs RelGfProofs RelFinalProofs RelCorProofs GflModel GflSpec GflProofs GflInstProofs AgrModel AgrSpec AgrProofs AgrInstProofs VisSpec VisProofs VisMainProofs ScrSpec ScrProofs SiamCutProofs ScrRelProofs NanoMatProofs.
Import ListNotations.
Local Open Scope R_scope.

(** Neighbours. *)
Definition near (s p q p' q' : nat) : Prop := match s with O => q' = q /\ (p' = S p \/ p = S p') | _ => p' = p /\ (q' = S q \/ q = S q') end.
Lemma listed_near n s keys p q : (s <= 1)%nat -> (forall key, In key keys -> exists a b, key = [a; b] /\ (a <= n)%nat /\ (b <= n)%nat) -> (p <= n)%nat -> (q <= n)%nat ->
  listed [p; q] (flat_map (targets n (Z.of_nat s)) keys) = true <-> exists a b, In [a; b] keys /\ near s a b p q.
Proof.
  intros Hs HK Hp Hq. unfold listed. rewrite existsb_exists. split.
  - intros (k & I & E). destruct (list_eq_dec Nat.eq_dec [p; q] k) as [<-|]; [|discriminate]. apply in_flat_map in I. destruct I as (key & IK & I). destruct (HK key IK) as (a & b & -> & Ha & Hb). exists a, b. split; [exact IK|].
    unfold targets in I. cbn [flat_map moved] in I. destruct s as [|[|]]; [| |lia]; cbn [Z.of_nat Z.eqb Pos.of_succ_nat] in I; cbn [near].
    + destruct (Nat.ltb_spec a n); destruct a as [|a]; cbn [app In] in I; repeat (destruct I as [ [= <- <-] | I ]); try contradiction; auto.
    + destruct (Nat.ltb_spec b n); destruct b as [|b]; cbn [app In] in I; repeat (destruct I as [ [= <- <-] | I ]); try contradiction; auto.
  - intros (a & b & IK & HN). exists [p; q]. split; [|destruct (list_eq_dec Nat.eq_dec [p; q] [p; q]); congruence]. apply in_flat_map. exists [a; b]. split; [exact IK|]. unfold targets. cbn [flat_map moved].
    destruct s as [|[|]]; [| |lia]; cbn [Z.of_nat Z.eqb Pos.of_succ_nat]; cbn [near] in HN; destruct HN as [-> [ -> | -> ]].
    + rewrite (proj2 (Nat.ltb_lt _ _)) by lia. now left.
    + apply in_or_app. right. now left.
    + rewrite (proj2 (Nat.ltb_lt _ _)) by lia. now left.
    + apply in_or_app. right. now left.
Qed.
Lemma near_image n hole sw s p q p' q' : (s <= 1)%nat -> (p <= n)%nat -> (q <= n)%nat -> (p' <= n)%nat -> (q' <= n)%nat ->
  near (spin' sw s) (image_up n hole sw p q) (image_dw n hole sw p q) (image_up n hole sw p' q') (image_dw n hole sw p' q') <-> near s p q p' q'.
Proof. intros Hs Hp Hq Hp' Hq'. unfold image_up, image_dw, spin'. destruct hole, sw, s as [|[|]]; try lia; cbn [near Nat.sub]; lia. Qed.

Lemma pre n hole sw p' q' : (p' <= n)%nat -> (q' <= n)%nat -> exists p q, (p <= n)%nat /\ (q <= n)%nat /\ image_up n hole sw p q = p' /\ image_dw n hole sw p q = q'.
Proof.
  intros Hp Hq. exists (let r := if sw then q' else p' in if hole then (n - r)%nat else r), (let r := if sw then p' else q' in if hole then (n - r)%nat else r).
  unfold image_up, image_dw. destruct hole, sw; repeat split; lia.
Qed.

Section Final.
Variables (n : nat) (hole sw : bool) (rho : nat -> nat) (sg : nat -> bool).
Variables (big : R -> bool) (half : R) (h : hmat RRing) (fl : hflags) (V : inter RRing) (hf : bool) (mu : R) (z : option (nat -> R)) (U : nat -> nat -> R).
Variables (big' : R -> bool) (half' : R) (h' : hmat RRing) (fl' : hflags) (V' : inter RRing) (hf' : bool) (mu' : R) (z' : option (nat -> R)) (U' : nat -> nat -> R).
Notation P := (params_of big h V hf mu z U). Notation P' := (params_of big' h' V' hf' mu' z' U').
Hypothesis MO : model_ok half n h fl V U. Hypothesis MO' : model_ok half' n h' fl' V' U'.
Hypothesis HRel : related n hole sw rho sg P P'.
Variables (eigh eigh' : dense RRing -> res (list R * list (list R))) (eigsh eigsh' : nat -> Z -> (list R -> res (list R)) -> res (list R * list (list R))).
Hypothesis HC : eigh_contract eigh. Hypothesis HC' : eigh_contract eigh'.
Variables (es es' : espace RRing) (e e' : R).
Hypothesis HB : build_espace RRing Rleb big half eigh eigsh n h fl V hf mu z None "sz" = Ok (es, Some e).
Hypothesis HB' : build_espace RRing Rleb big' half' eigh' eigsh' n h' fl' V' hf' mu' z' None "sz" = Ok (es', Some e').
Variables (tridiag tridiag' : (list R -> res (list R)) -> list R -> res (list R * list R)) (eight eight' : list R -> list R -> res (list R * list (list R))).
Variables (beta bs cutoff : R) (sc sc' : espace RRing) (s : nat) (repr repr' : string).
Hypothesis HSC : screen_espace RRing (boltzmann bs e cutoff) es = (Ok tt, sc).
Hypothesis HSC' : screen_espace RRing (boltzmann bs e' cutoff) es' = (Ok tt, sc').
Hypothesis Hs : (s <= 1)%nat.
Hypothesis HR : repr = "cf"%string \/ repr = "sp"%string /\ GflSpec.eigh_sound eight.
Hypothesis HR' : repr' = "cf"%string \/ repr' = "sp"%string /\ GflSpec.eigh_sound eight'.
Notation shift0 := (offset n P' - offset n P).
Notation iu := (image_up n hole sw). Notation idw := (image_dw n hole sw).
Lemma spins : (spin' sw s <= 1)%nat.
Proof. clear HR HR'. unfold spin'. destruct sw; lia. Qed.
Lemma shifted_ground : e' = e + shift0.
Proof.
  destruct (related_spectrum n hole sw rho sg big half h fl V hf mu z U big' half' h' fl' V' hf' mu' z' U' MO MO' HRel eigh eigh' eigsh eigsh' HC HC' es es' (Some e) (Some e') HB HB') as (e0 & E0 & E1 & _).
  injection E0 as <-. now injection E1.
Qed.
Lemma keep_shift v : boltzmann bs e' cutoff (v + shift0) = boltzmann bs e cutoff v.
Proof. unfold boltzmann. rewrite shifted_ground. do 3 f_equal. ring. Qed.
Lemma weight_shift v : cut_weight (boltzmann bs e' cutoff) beta e' (v + shift0) = cut_weight (boltzmann bs e cutoff) beta e v.
Proof. unfold cut_weight. rewrite keep_shift. destruct (boltzmann bs e cutoff v); [|reflexivity]. rewrite shifted_ground. unfold weight. f_equal. ring. Qed.

(** Which sectors are stored, and how many states. *)
Lemma kept_members m es0 F keep sc0 : lists_family m es0 F -> sc0 = cut_all RRing keep es0 -> forall p q t, In ([p; q], t) sc0 <-> (p <= m)%nat /\ (q <= m)%nat /\ existsb keep (s_vals RRing (F p q)) = true /\ t = cut RRing keep (F p q).
Proof.
  intros LF -> p q t. rewrite in_cut_all. split.
  - intros (t0 & I & K & ->). apply (proj1 (proj2 LF)) in I. destruct I as (a & b & Ha & Hb & [= <- <-] & ->). auto.
  - intros (Hp & Hq & K & ->). exists (F p q). split; [|auto]. apply (proj1 (proj2 LF)). exists p, q. auto.
Qed.
Lemma spectrum_image F F' p q : connected n hole sw rho sg big h V hf mu z U big' h' V' hf' mu' z' U' es es' F F' -> (p <= n)%nat -> (q <= n)%nat ->
  s_vals RRing (F' (iu p q) (idw p q)) = map (fun v => v + shift0) (s_vals RRing (F p q)) /\ (iu p q <= n)%nat /\ (idw p q <= n)%nat.
Proof.
  clear HR HR'. intros (tau & th & HT & HH & LF & LF' & SO & SO') Hp Hq.
  destruct (related_spectrum n hole sw rho sg big half h fl V hf mu z U big' half' h' fl' V' hf' mu' z' U' MO MO' HRel eigh eigh' eigsh eigsh' HC HC' es es' (Some e) (Some e') HB HB') as (e0 & _ & _ & HV).
  assert (B : (iu p q <= n)%nat /\ (idw p q <= n)%nat) by (unfold image_up, image_dw; destruct hole, sw; lia). split; [|exact B].
  apply (HV p q); [apply (proj1 (proj2 LF)); exists p, q; auto|apply (proj1 (proj2 LF')); exists (iu p q), (idw p q); tauto].
Qed.
Lemma filter_shift (l : list R) : filter (boltzmann bs e' cutoff) (map (fun v => v + shift0) l) = map (fun v => v + shift0) (filter (boltzmann bs e cutoff) l).
Proof. induction l as [|v l IH]; [reflexivity|]. cbn [map filter]. rewrite keep_shift, IH. now destruct (boltzmann bs e cutoff v). Qed.
Lemma exists_shift (l : list R) : existsb (boltzmann bs e' cutoff) (map (fun v => v + shift0) l) = existsb (boltzmann bs e cutoff) l.
Proof. induction l as [|v l IH]; [reflexivity|]. cbn [map existsb]. now rewrite keep_shift, IH. Qed.

(** The condition carries over to the second model. *)
Lemma undisturbed_image : undisturbed n (Z.of_nat s) sc -> undisturbed n (Z.of_nat (spin' sw s)) sc'.
Proof.
  clear HR HR'. intros HU. pose proof (sc_cut big half n h fl V hf mu z U MO eigh eigsh HC es (Some e) HB _ sc HSC) as E1. pose proof (sc_cut big' half' n h' fl' V' hf' mu' z' U' MO' eigh' eigsh' HC' es' (Some e') HB' _ sc' HSC') as E1'.
  destruct (families n hole sw rho sg big half h fl V hf mu z U big' half' h' fl' V' hf' mu' z' U' MO MO' HRel eigh eigh' eigsh eigsh' HC HC' es es' (Some e) (Some e') HB HB') as (F & F' & _ & _ & CN & _).
  pose proof CN as (tau & th & HT & HH & LF & LF' & SO & SO').
  pose proof (kept_members n es F _ sc LF E1) as KM. pose proof (kept_members n es' F' _ sc' LF' E1') as KM'.
  assert (KK : forall m es0 F0 keep sc0, lists_family m es0 F0 -> sc0 = cut_all RRing keep es0 -> forall key, In key (map fst sc0) -> exists a b, key = [a; b] /\ (a <= m)%nat /\ (b <= m)%nat).
  { intros m es0 F0 keep sc0 L0 -> key I. apply in_map_iff in I. destruct I as ([k t] & <- & I). apply in_cut_all in I. destruct I as (t0 & I & _). apply (proj1 (proj2 L0)) in I. destruct I as (a & b & Ha & Hb & -> & _). exists a, b. auto. }
  intros p' q' t' I' HD HL. apply KM' in I'. destruct I' as (Hp' & Hq' & EX' & ->).
  destruct (pre n hole sw p' q' Hp' Hq') as (p & q & Hp & Hq & <- & <-). destruct (spectrum_image F F' p q CN Hp Hq) as (SV & _).
  assert (DD : forall a b, (a <= n)%nat -> (b <= n)%nat -> dimn n (iu a b) (idw a b) = dimn n a b).
  { intros a b Ha Hb. destruct (spectrum_image F F' a b CN Ha Hb) as (_ & A1 & A2). rewrite (dimn_sector n _ _ _ (proj2 (proj2 LF') _ _ A1 A2)), (dimn_sector n _ _ _ (proj2 (proj2 LF) a b Ha Hb)).
    destruct (SO' _ _ A1 A2) as (_ & N1 & _). destruct (SO a b Ha Hb) as (_ & N2 & _). rewrite <- N1, <- N2. exact (image_vals n hole sw rho sg tau th (Hmat n P) (Hmat n P') shift0 HT HH F F' SO SO' a b Ha Hb). }
  rewrite DD in HD |- * by auto. apply (listed_near n (spin' sw s)) in HL; [|exact spins|exact (KK n es' F' _ sc' LF' E1')|exact Hp'|exact Hq']. destruct HL as (a' & b' & IK' & HN).
  apply in_map_iff in IK'. destruct IK' as ([k t2] & EK & I2). cbn [fst] in EK. subst k. apply KM' in I2. destruct I2 as (Ha' & Hb' & EX2 & _).
  destruct (pre n hole sw a' b' Ha' Hb') as (a & b & Ha & Hb & <- & <-). destruct (spectrum_image F F' a b CN Ha Hb) as (SV2 & _).
  apply near_image in HN; auto.
  assert (NV : nvals (cut RRing (boltzmann bs e cutoff) (F p q)) = dimn n p q).
  { apply (HU p q); [apply KM; repeat split; auto|exact HD|].
    - rewrite <- EX'. rewrite SV. symmetry. apply exists_shift.
    - apply (listed_near n s); [exact Hs|exact (KK n es F _ sc LF E1)|exact Hp|exact Hq|]. exists a, b. split; [|exact HN]. apply in_map_iff. exists ([a; b], cut RRing (boltzmann bs e cutoff) (F a b)). split; [reflexivity|].
      apply KM. repeat split; auto. rewrite <- EX2, SV2. symmetry. apply exists_shift. }
  rewrite <- NV. unfold nvals. cbn [cut s_vals]. rewrite SV. transitivity (length (map (fun v => v + shift0) (filter (boltzmann bs e cutoff) (s_vals RRing (F p q))))); [f_equal; apply filter_shift|apply map_length].
Qed.

Theorem related_screened pos : (pos < n)%nat -> undisturbed n (Z.of_nat s) sc ->
  krylov n (product_of big half n h fl V hf mu z) tridiag (Z.of_nat s) sc (fun op p' q' t i a => exc n op (Z.of_nat s) pos p' q' t i a) 11 ->
  krylov n (product_of big' half' n h' fl' V' hf' mu' z') tridiag' (Z.of_nat (spin' sw s)) sc' (fun op p' q' t i a => exc n op (Z.of_nat (spin' sw s)) (rho pos) p' q' t i a) 11 ->
  exists ge gh ge' gh',
    gf_lanczos_of big half eigh eigsh n h fl V hf mu z tridiag eight sc beta e pos repr (Z.of_nat s) false = Ok (sc, ge, gh) /\
    gf_lanczos_of big' half' eigh' eigsh' n h' fl' V' hf' mu' z' tridiag' eight' sc' beta e' (rho pos) repr' (Z.of_nat (spin' sw s)) false = Ok (sc', ge', gh') /\
    forall E eta E' eta', CBase.im (zpoint E eta) <> 0 -> zpoint E' eta' = image_z hole (zpoint E eta) ->
      exists g, gl_call ge E eta = Ok g /\ gl_call ge' E' eta' = Ok (cxmul (rcx (pm hole)) g).
Proof.
  intros Hpos HU HK HK'. pose proof (undisturbed_image HU) as HU'. set (HRr := rel_rho _ _ _ _ _ _ _ HRel). pose proof (proj1 HRr pos Hpos) as Hpos'.
  destruct (families n hole sw rho sg big half h fl V hf mu z U big' half' h' fl' V' hf' mu' z' U' MO MO' HRel eigh eigh' eigsh eigsh' HC HC' es es' (Some e) (Some e') HB HB') as (F & F' & _ & _ & (tau & th & HT & HH & LF & LF' & SO & SO') & _).
  destruct (kept_value big half n h fl V hf mu z U MO eigh eigsh HC es (Some e) HB tridiag eight _ sc HSC beta e s repr Hs HR F pos false LF Hpos HU HK) as (ge & gh & E1 & H1).
  destruct (kept_value big' half' n h' fl' V' hf' mu' z' U' MO' eigh' eigsh' HC' es' (Some e') HB' tridiag' eight' _ sc' HSC' beta e' (spin' sw s) repr' spins HR' F' (rho pos) false LF' Hpos' HU' HK') as (ge' & gh' & E1' & H1').
  exists ge, gh, ge', gh'. split; [exact E1|]. split; [exact E1'|]. intros E eta E' eta' Hz HZ. eexists. split; [exact (H1 E eta Hz eq_refl)|].
  assert (Hz' : CBase.im (zpoint E' eta') <> 0) by (rewrite HZ; unfold image_z; destruct hole; [destruct (zpoint E eta); cbn in *; lra|exact Hz]).
  rewrite (H1' E' eta' Hz' eq_refl). f_equal. rewrite HZ.
  rewrite (lehmann_w_image n hole sw rho sg tau th (Hmat n P) (Hmat n P') shift0 HRr HT HH F F' SO SO' _ _ weight_shift s pos pos (zpoint E eta)) by (auto; lia).
  rewrite (Zsum_w_image n hole sw rho sg tau th (Hmat n P) (Hmat n P') shift0 HRr HT HH F F' SO SO' _ _ weight_shift).
  assert (PP : pm (sg pos) * pm (sg pos) = 1) by (destruct (sg pos); unfold pm; ring). rewrite PP, Rmult_1_r. unfold cxdiv. generalize (lehmann_w n s pos pos (cut_weight (boltzmann bs e cutoff) beta e) F (zpoint E eta)) (cxinv (rcx (Zsum_w n (cut_weight (boltzmann bs e cutoff) beta e) F))). intros [a b] [c d]. apply cx_eq; cbv [cxmul rcx re CBase.im fst snd]; ring.
Qed.
End Final.

(** The conjugate point. *)
Lemma lehmann_w_conj n s x y W F z : lehmann_w n s x y W F (cxconj z) = cxconj (lehmann_w n s x y W F z).
Proof.
  unfold lehmann_w. rewrite conj_sum. apply csum_ext. intros m _. rewrite conj_sum. apply csum_ext. intros o _. cbv zeta. rewrite conj_sum. apply csum_ext. intros j _. rewrite conj_sum. apply csum_ext. intros i _.
  rewrite conj_div. f_equal. apply cx_eq; cbv [cxsub cxadd cxopp cxconj rcx re CBase.im fst snd]; ring.
Qed.
Lemma conj_opp_im z : CBase.im z <> 0 -> CBase.im (cxconj z) <> 0.
Proof. destruct z as [a b]. cbn. lra. Qed.

Section Cor.
Variables (n : nat) (big : R -> bool) (half : R) (h : hmat RRing) (fl : hflags) (V : inter RRing) (hf : bool) (mu : R) (z : option (nat -> R)) (U : nat -> nat -> R).
Hypothesis MO : model_ok half n h fl V U.
Variables (eigh : dense RRing -> res (list R * list (list R))) (eigsh : nat -> Z -> (list R -> res (list R)) -> res (list R * list (list R))).
Hypothesis HC : eigh_contract eigh.
Variables (es : espace RRing) (e : R).
Hypothesis HB : build_espace RRing Rleb big half eigh eigsh n h fl V hf mu z None "sz" = Ok (es, Some e).
Variables (tridiag : (list R -> res (list R)) -> list R -> res (list R * list R)) (eight : list R -> list R -> res (list R * list (list R))).
Variables (beta bs cutoff : R) (sc : espace RRing) (repr : string).
Hypothesis HSC : screen_espace RRing (boltzmann bs e cutoff) es = (Ok tt, sc).
Hypothesis HR : repr = "cf"%string \/ repr = "sp"%string /\ GflSpec.eigh_sound eight.
Notation prod := (product_of big half n h fl V hf mu z).
Notation gf := (gf_lanczos_of big half eigh eigsh n h fl V hf mu z tridiag eight sc beta e).
Notation kry s pos := (krylov n prod tridiag (Z.of_nat s) sc (fun op p' q' t i a => exc n op (Z.of_nat s) pos p' q' t i a) 11).
Lemma one_mul g : cxmul (rcx (pm false)) g = g.
Proof. destruct g as [a b]. apply cx_eq; cbv [cxmul rcx re CBase.im fst snd pm]; ring. Qed.
Lemma minus_mul g : cxmul (rcx (pm true)) g = cxopp g.
Proof. destruct g as [a b]. apply cx_eq; cbv [cxmul cxopp rcx re CBase.im fst snd pm]; ring. Qed.
Theorem screened_solver eigh' eigsh' es' e' sc' tridiag' eight' repr' s pos : eigh_contract eigh' -> build_espace RRing Rleb big half eigh' eigsh' n h fl V hf mu z None "sz" = Ok (es', Some e') ->
  screen_espace RRing (boltzmann bs e' cutoff) es' = (Ok tt, sc') -> (s <= 1)%nat -> repr' = "cf"%string \/ repr' = "sp"%string /\ GflSpec.eigh_sound eight' -> (pos < n)%nat -> undisturbed n (Z.of_nat s) sc -> kry s pos ->
  krylov n prod tridiag' (Z.of_nat s) sc' (fun op p' q' t i a => exc n op (Z.of_nat s) pos p' q' t i a) 11 ->
  exists ge gh ge' gh', gf pos repr (Z.of_nat s) false = Ok (sc, ge, gh) /\
    gf_lanczos_of big half eigh' eigsh' n h fl V hf mu z tridiag' eight' sc' beta e' pos repr' (Z.of_nat s) false = Ok (sc', ge', gh') /\
    forall E eta, CBase.im (zpoint E eta) <> 0 -> exists g, gl_call ge E eta = Ok g /\ gl_call ge' E eta = Ok g.
Proof.
  intros HC' HB' HSC' Hs HR' Hpos HU HK HK'.
  destruct (related_screened n false false (fun x => x) (fun _ => false) big half h fl V hf mu z U big half h fl V hf mu z U MO MO (rel_id n _) eigh eigh' eigsh eigsh' HC HC' es es' e e' HB HB' tridiag tridiag' eight eight' beta bs cutoff sc sc' s repr repr' HSC HSC' Hs HR HR' pos Hpos HU HK HK') as (ge & gh & ge' & gh' & E1 & E2 & H).
  exists ge, gh, ge', gh'. split; [exact E1|]. split; [exact E2|]. intros E eta Hz. destruct (H E eta E eta Hz eq_refl) as (g & G1 & G2). rewrite one_mul in G2. exists g. auto.
Qed.
Theorem screened_spin pos : spin_free n h -> (pos < n)%nat -> undisturbed n 0 sc -> kry 0 pos -> kry 1 pos ->
  exists ge gh ge' gh', gf pos repr 0%Z false = Ok (sc, ge, gh) /\ gf pos repr 1%Z false = Ok (sc, ge', gh') /\
    forall E eta, CBase.im (zpoint E eta) <> 0 -> exists g, gl_call ge E eta = Ok g /\ gl_call ge' E eta = Ok g.
Proof.
  intros HS Hpos HU HK HK'.
  destruct (related_screened n false true (fun x => x) (fun _ => false) big half h fl V hf mu z U big half h fl V hf mu z U MO MO (spin_rel n big h V hf mu z U HS) eigh eigh eigsh eigsh HC HC es es e e HB HB tridiag tridiag eight eight beta bs cutoff sc sc 0%nat repr repr HSC HSC ltac:(lia) HR HR pos Hpos HU HK HK') as (ge & gh & ge' & gh' & E1 & E2 & H).
  exists ge, gh, ge', gh'. split; [exact E1|]. split; [exact E2|]. intros E eta Hz. destruct (H E eta E eta Hz eq_refl) as (g & G1 & G2). rewrite one_mul in G2. exists g. auto.
Qed.
(** A model that is its own image under the exchange of electrons and holes. *)
Theorem screened_mirror rho sg s pos : related n true false rho sg (params_of big h V hf mu z U) (params_of big h V hf mu z U) -> (s <= 1)%nat -> (pos < n)%nat -> rho pos = pos -> undisturbed n (Z.of_nat s) sc -> kry s pos ->
  exists ge gh, gf pos repr (Z.of_nat s) false = Ok (sc, ge, gh) /\
    (forall E eta E' eta', CBase.im (zpoint E eta) <> 0 -> zpoint E' eta' = cxopp (zpoint E eta) -> exists g, gl_call ge E eta = Ok g /\ gl_call ge E' eta' = Ok (cxopp g)) /\
    (forall E eta E' eta', CBase.im (zpoint E eta) <> 0 -> zpoint E' eta' = cxconj (zpoint E eta) -> exists g, gl_call ge E eta = Ok g /\ gl_call ge E' eta' = Ok (cxconj g)) /\
    (forall E eta, CBase.im (zpoint E eta) <> 0 -> re (zpoint E eta) = 0 -> exists g, gl_call ge E eta = Ok g /\ re g = 0).
Proof.
  intros HRl Hs Hpos Hr HU HK. assert (HK' : kry s (rho pos)) by (rewrite Hr; exact HK).
  destruct (related_screened n true false rho sg big half h fl V hf mu z U big half h fl V hf mu z U MO MO HRl eigh eigh eigsh eigsh HC HC es es e e HB HB tridiag tridiag eight eight beta bs cutoff sc sc s repr repr HSC HSC Hs HR HR pos Hpos HU HK HK') as (ge & gh & ge' & gh' & E1 & E2 & H).
  rewrite Hr in E2. cbn [spin'] in E2. rewrite E1 in E2. injection E2 as <- <-.
  destruct (inst_family big half n h fl V hf mu z U MO eigh eigsh HC es (Some e) HB) as (F & LF & _).
  destruct (kept_value big half n h fl V hf mu z U MO eigh eigsh HC es (Some e) HB tridiag eight _ sc HSC beta e s repr Hs HR F pos false LF Hpos HU HK) as (ge2 & gh2 & E3 & H3).
  rewrite E1 in E3. injection E3 as <- <-.
  assert (Q1 : forall E eta E' eta', CBase.im (zpoint E eta) <> 0 -> zpoint E' eta' = cxopp (zpoint E eta) -> exists g, gl_call ge E eta = Ok g /\ gl_call ge E' eta' = Ok (cxopp g)).
  { intros E eta E' eta' Hz HZ. destruct (H E eta E' eta' Hz HZ) as (g & G1 & G2). rewrite minus_mul in G2. exists g. auto. }
  assert (Q2 : forall E eta E' eta', CBase.im (zpoint E eta) <> 0 -> zpoint E' eta' = cxconj (zpoint E eta) -> exists g, gl_call ge E eta = Ok g /\ gl_call ge E' eta' = Ok (cxconj g)).
  { intros E eta E' eta' Hz HZ. eexists. split; [exact (H3 E eta Hz eq_refl)|]. rewrite (H3 E' eta'); [|rewrite HZ; now apply conj_opp_im|reflexivity]. rewrite HZ, lehmann_w_conj, <- conj_cdiv. reflexivity. }
  exists ge, gh. split; [exact E1|]. split; [exact Q1|]. split; [exact Q2|]. intros E eta Hz Hre.
  assert (HZ : zpoint (cxconj E) (- eta) = cxconj (zpoint E eta)) by (destruct E as [a b]; apply cx_eq; cbv [zpoint cxconj cxadd re CBase.im fst snd cxmul rcx ci]; ring).
  destruct (Q2 E eta (cxconj E) (- eta) Hz HZ) as (g & G1 & G2).
  destruct (Q1 E eta (cxconj E) (- eta) Hz) as (g' & G1' & G2').
  { rewrite HZ. destruct (zpoint E eta) as [a b]. cbn in Hre. subst a. apply cx_eq; cbv [cxconj cxopp re CBase.im fst snd]; ring. }
  rewrite G1 in G1'. injection G1' as <-. rewrite G2 in G2'. injection G2' as Q. exists g. split; [exact G1|]. destruct g as [a b]. cbn in Q |- *. lra.
Qed.
Theorem screened_half sg s pos : half_filled n big h V hf mu z U sg -> (s <= 1)%nat -> (pos < n)%nat -> undisturbed n (Z.of_nat s) sc -> kry s pos ->
  exists ge gh, gf pos repr (Z.of_nat s) false = Ok (sc, ge, gh) /\
    (forall E eta E' eta', CBase.im (zpoint E eta) <> 0 -> zpoint E' eta' = cxopp (zpoint E eta) -> exists g, gl_call ge E eta = Ok g /\ gl_call ge E' eta' = Ok (cxopp g)) /\
    (forall E eta E' eta', CBase.im (zpoint E eta) <> 0 -> zpoint E' eta' = cxconj (zpoint E eta) -> exists g, gl_call ge E eta = Ok g /\ gl_call ge E' eta' = Ok (cxconj g)) /\
    (forall E eta, CBase.im (zpoint E eta) <> 0 -> re (zpoint E eta) = 0 -> exists g, gl_call ge E eta = Ok g /\ re g = 0).
Proof. intros HS Hs Hpos HU HK. exact (screened_mirror (fun x => x) sg s pos (half_rel n big half h fl V hf mu z U MO sg HS) Hs Hpos eq_refl HU HK). Qed.
End Cor.

(** Dictionaries without partial sectors. *)
Lemma undisturbed_large n ispin es : (forall p q s, In ([p; q], s) es -> (10 < dimn n p q)%nat) -> undisturbed n ispin es.
Proof. intros H p q s I HD. specialize (H p q s I). lia. Qed.
Lemma undisturbed_alone n ispin es : (forall p q s, In ([p; q], s) es -> listed [p; q] (flat_map (targets n ispin) (map fst es)) = false) -> undisturbed n ispin es.
Proof. intros H p q s I _ HL. exfalso. pose proof (eq_trans (eq_sym HL) (H p q s I)) as Q. discriminate Q. Qed.
Lemma undisturbed_apart n ispin es : (forall p q s, In ([p; q], s) es -> (10 < dimn n p q)%nat \/ listed [p; q] (flat_map (targets n ispin) (map fst es)) = false) -> undisturbed n ispin es.
Proof. intros H p q s I HD HL. destruct (H p q s I) as [Q|Q]; [lia|]. pose proof (eq_trans (eq_sym HL) Q) as X. discriminate X. Qed.
