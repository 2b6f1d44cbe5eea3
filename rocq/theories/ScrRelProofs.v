(** Screened Green's functions of related models. *)
From Coq Require Import String Reals List Arith NArith ZArith Bool Lia Lra Ring Permutation.
From Verif Require Import Base RBase RLin CBase OperatorsModel OperatorsSpec OperatorsProofs LookupModel LookupSpec LookupProofs SectorModel SectorSpec SectorProofs FockSpec FockProofs LocalModel LocalSpec HoppingModel CsrSpec NonLocalSpec
  MatvecModel MbModel MbSpec EspaceModel EspaceSpec EspaceRealModel EspaceMoreProofs ProjModel ProjSpec ProjProofs ProjFinalProofs CfModel CfSpec CfMoreProofs GfModel GfSpec GfProofs GfSumProofs GfMoreProofs GmModel GmSpec GmFockProofs GmProofs SpectralProofs ExactSpec ExactProofs ExactMoreProofs
  FlipProofs SymSpec SymProofs RelSpec RelLinProofs RelFockProofs RelHamProofs RelProofs RelGfProofs RelFinalProofs GflModel GflSpec GflProofs GflInstProofs AgrModel AgrSpec AgrProofs AgrInstProofs VisSpec VisProofs VisMainProofs ScrSpec ScrProofs SiamCutProofs.
Import ListNotations.
Local Open Scope R_scope.

Definition gzw (W : R -> R) (z : cx) (a b : R) : cx := cxdiv (rcx (W a + W b)) (cxsub z (rcx (a - b))).
Lemma lehmann_w_parts n Hm F s x y W z : solved n Hm F ->
  lehmann_w n s x y W F z = (lehm n F s (Cr (x + s * n)) (Cr (y + s * n)) (fun a b => re (gzw W z a b)), lehm n F s (Cr (x + s * n)) (Cr (y + s * n)) (fun a b => CBase.im (gzw W z a b))).
Proof.
  intros HF. assert (B : forall m o, (m < n)%nat -> (o < S n)%nat -> (sp s (S m) o <= n)%nat /\ (sp s o (S m) <= n)%nat /\ (sp s m o <= n)%nat /\ (sp s o m <= n)%nat) by (intros; destruct s; cbn [sp]; lia).
  assert (T : forall a b w D, re (cxdiv (rcx (a * b * w)) D) = a * b * re (cxdiv (rcx w) D) /\ CBase.im (cxdiv (rcx (a * b * w)) D) = a * b * CBase.im (cxdiv (rcx w) D)).
  { intros a b w D. cbv [cxdiv cxmul rcx re CBase.im fst snd]. split; ring. }
  apply cx_eq; [change (re (_, _)) with (lehm n F s (Cr (x + s * n)) (Cr (y + s * n)) (fun a b => re (gzw W z a b)))|change (CBase.im (_, _)) with (lehm n F s (Cr (x + s * n)) (Cr (y + s * n)) (fun a b => CBase.im (gzw W z a b)))];
    unfold lehmann_w, lehm; rewrite ?csum_re, ?csum_im; apply rsum_ext; intros m Hm'; rewrite ?csum_re, ?csum_im; apply rsum_ext; intros o Ho; destruct (B m o Hm' Ho) as (B1 & B2 & B3 & B4); cbv zeta; rewrite !of_spin_at;
    destruct (HF _ _ B1 B2) as (_ & -> & _); destruct (HF _ _ B3 B4) as (_ & -> & _); unfold pair_sum, double; rewrite ?csum_re, ?csum_im; apply rsum_ext; intros j _; rewrite ?csum_re, ?csum_im; apply rsum_ext; intros i _.
  - exact (proj1 (T _ _ _ _)).
  - exact (proj2 (T _ _ _ _)).
Qed.
Section Two.
Variables (n : nat) (hole sw : bool) (rho : nat -> nat) (sg : nat -> bool) (tau : N -> N) (th : N -> Z) (Hm Hm' : N -> N -> R) (k0 : R).
Hypothesis HRr : renumbering n rho.
Hypothesis HT : trafo (2 * n) hole (rho2 n sw rho) (fun k => zpm (sg (site n k))) tau th.
Hypothesis HH : forall p q t s, sec n p q t -> sec n p q s -> Hm' (tau t) (tau s) = rth th t * rth th s * Hm t s + (if N.eqb t s then k0 else 0).
Variables F F' : family.
Hypothesis HF : solved n Hm F. Hypothesis HF' : solved n Hm' F'.
Variables W W' : R -> R.
Hypothesis HW : forall e, W' (e + k0) = W e.
Lemma gzw_image z a b : gzw W' (image_z hole z) (a + k0) (b + k0) = if hole then cxopp (gzw W z b a) else gzw W z a b.
Proof.
  unfold gzw, image_z. replace (a + k0 - (b + k0)) with (a - b) by ring. rewrite !HW. destruct hole; [|reflexivity].
  replace (cxsub (cxopp z) (rcx (a - b))) with (cxopp (cxsub z (rcx (b - a)))) by (apply cx_eq; destruct z; cbv [cxsub cxopp cxadd rcx re CBase.im fst snd]; ring).
  unfold cxdiv. rewrite cxinv_opp, (Rplus_comm (W a)). generalize (cxinv (cxsub z (rcx (b - a)))). intros [u v]. apply cx_eq; cbv [cxmul cxopp rcx re CBase.im fst snd]; ring.
Qed.
Theorem lehmann_w_image s x y z : (s < 2)%nat -> (x < n)%nat -> (y < n)%nat ->
  lehmann_w n (spin' sw s) (rho x) (rho y) W' F' (image_z hole z) = cxmul (rcx (pm hole * (pm (sg x) * pm (sg y)))) (lehmann_w n s x y W F z).
Proof.
  intros Hs Hx Hy. rewrite (lehmann_w_parts n Hm' F' _ _ _ _ _ HF'), (lehmann_w_parts n Hm F _ _ _ _ _ HF).
  pose proof (lehm_image n hole sw rho sg tau th Hm Hm' k0 HRr HT HH F F' HF HF') as LI.
  rewrite (LI s x y (fun a b => re (gzw W z a b)) (fun a b => re (gzw W' (image_z hole z) a b)) Hs Hx Hy (fun a b => ltac:(cbv beta; rewrite gzw_image; destruct hole; reflexivity))).
  rewrite (LI s x y (fun a b => CBase.im (gzw W z a b)) (fun a b => CBase.im (gzw W' (image_z hole z) a b)) Hs Hx Hy (fun a b => ltac:(cbv beta; rewrite gzw_image; destruct hole; reflexivity))).
  apply cx_eq; cbv [cxmul rcx re CBase.im fst snd]; ring.
Qed.
Lemma Zsum_w_image : Zsum_w n W' F' = Zsum_w n W F.
Proof.
  unfold Zsum_w. rewrite (grid_image n hole sw rho sg tau th Hm Hm' k0 HT HH (fun p q => rsum (nvals (F' p q)) (fun i => W' (energy (F' p q) i)))). apply rsum_ext. intros p Hp. apply rsum_ext. intros q Hq.
  rewrite (image_vals n hole sw rho sg tau th Hm Hm' k0 HT HH F F' HF HF') by lia. apply rsum_ext. intros i Hi.
  destruct (HF p q ltac:(lia) ltac:(lia)) as (_ & NV & _). rewrite (energy_image n hole sw rho sg tau th Hm Hm' k0 HRr HT HH F F' HF HF') by lia. apply HW.
Qed.
End Two.

(** ** A screened dictionary that the loop leaves alone *)
Lemma listed_incl key l l' : incl l l' -> listed key l = true -> listed key l' = true.
Proof. intros HI. unfold listed. rewrite !existsb_exists. intros (k & I & E). exists k. auto. Qed.
Lemma filter_short {A} (f : A -> bool) l : (length (filter f l) <= length l)%nat.
Proof. induction l as [|a l IH]; [cbn; lia|]. cbn [filter]. destruct (f a); cbn [length]; lia. Qed.
Lemma filter_full {A} (f : A -> bool) l : length (filter f l) = length l -> filter f l = l.
Proof.
  induction l as [|a l IH]; [reflexivity|]. cbn [filter]. destruct (f a); cbn [length]; intros E.
  - f_equal. apply IH. lia.
  - exfalso. pose proof (filter_short f l). lia.
Qed.
Lemma keep_pairs (keep : R -> bool) (c : list (list R)) : forall v, length c = length v -> filter keep v = v ->
  map snd (filter (fun p : R * list R => keep (fst p)) (List.combine v c)) = c.
Proof.
  induction c as [|u c IH]; intros [|a v]; try discriminate; [reflexivity|]. cbn [length]. intros [= L] E. cbn [filter] in E. cbn [List.combine filter fst]. destruct (keep a).
  - injection E as E. cbn [map snd]. f_equal. now apply IH.
  - exfalso. apply (f_equal (@length R)) in E. cbn [length] in E. pose proof (filter_short keep v). lia.
Qed.
Section Alone.
Variables (solve : states_t -> res (list R * list (list R))) (n : nat) (keep : R -> bool) (es : espace RRing) (F : family) (ispin : Z).
Hypothesis HF : lists_family n es F.
Hypothesis EB : forall p q, (p <= n)%nat -> (q <= n)%nat -> eigenbasis (F p q).
Hypothesis HS : settled n solve es.
Notation kept := (cut_all RRing keep es).
Hypothesis HU : undisturbed n ispin kept.
Lemma whole p q sc : In ([p; q], sc) es -> (dimn n p q <= 10)%nat -> nvals (cut RRing keep sc) = dimn n p q -> renewed solve (cut RRing keep sc) = cut RRing keep sc.
Proof.
  intros I HD HV. destruct (HS p q sc I HD) as (U & SV & SO). apply (proj1 (proj2 HF)) in I. destruct I as (p0 & q0 & Hp & Hq & E0 & ->). injection E0 as <- <-.
  pose proof (proj2 (proj2 HF) p q Hp Hq) as IS. rewrite (dimn_sector n p q _ IS) in HV. destruct (EB p q Hp Hq) as [NV _]. rewrite <- NV in HV. unfold nvals in HV. cbn [cut s_vals] in HV.
  apply filter_full in HV. destruct IS as (_ & _ & _ & _ & _ & _ & cs & SV' & LC & _). rewrite SV in SV'. injection SV' as <-.
  unfold renewed. cbn [cut s_states]. rewrite SO. unfold cut, EspaceSpec.pairs. rewrite SV. f_equal; [symmetry; exact HV|]. f_equal.
  symmetry. exact (keep_pairs keep U _ LC HV).
Qed.
Lemma left_alone hits e : incl hits (flat_map (targets n ispin) (map fst kept)) -> In e kept -> refreshed solve n hits e = e.
Proof.
  intros HI I. destruct e as [key sc]. unfold refreshed. cbn [fst snd]. destruct (Nat.leb_spec (dim_of n key) 10) as [HD|]; [|reflexivity]. cbn [andb]. destruct (listed key hits) eqn:L; [|reflexivity]. f_equal.
  pose proof I as I0. apply in_cut_all in I0. destruct I0 as (sc0 & I0 & _ & ->). pose proof (proj1 (proj1 (proj2 HF) _ _) I0) as (p & q & Hp & Hq & -> & _). cbn [dim_of] in HD.
  apply (whole p q sc0 I0 HD). apply (HU p q _ I HD). now apply (listed_incl _ hits).
Qed.
Lemma alone : visits solve n ispin [] kept = kept /\ finally solve n ispin kept = kept.
Proof.
  split.
  - cut (forall l hits, incl l kept -> incl hits (flat_map (targets n ispin) (map fst kept)) -> visits solve n ispin hits l = l); [intros H; apply H; [apply incl_refl|intros x []]|].
    induction l as [|e l IH]; intros hits HL HI; [reflexivity|]. cbn [visits]. rewrite left_alone by (auto; apply HL; now left). f_equal. apply IH; [intros x Ix; apply HL; now right|].
    apply incl_app; [exact HI|]. intros k Hk. apply in_flat_map. exists (fst e). split; [|exact Hk]. apply in_map, HL. now left.
  - unfold finally. etransitivity; [|apply map_id]. apply map_ext_in. intros e I. apply left_alone; [apply incl_refl|exact I].
Qed.
End Alone.

Lemma family_unique n es F F' p q : lists_family n es F -> lists_family n es F' -> (p <= n)%nat -> (q <= n)%nat -> F p q = F' p q.
Proof.
  intros (ND & H & _) (_ & H' & _) Hp Hq. assert (I : In ([p; q], F p q) es) by (apply H; exists p, q; auto). apply H' in I. destruct I as (p0 & q0 & _ & _ & E & ->). injection E as <- <-. reflexivity.
Qed.

Section Code.
Variables (big : R -> bool) (half : R) (n : nat) (h : hmat RRing) (fl : hflags) (V : inter RRing) (hf : bool) (mu : R) (z : option (nat -> R)) (U : nat -> nat -> R).
Hypothesis MO : model_ok half n h fl V U.
Variable eigh : dense RRing -> res (list R * list (list R)).
Variable eigsh : nat -> Z -> (list R -> res (list R)) -> res (list R * list (list R)).
Hypothesis HC : eigh_contract eigh.
Variables (es : espace RRing) (egs : option R).
Hypothesis HB : build_espace RRing Rleb big half eigh eigsh n h fl V hf mu z None "sz" = Ok (es, egs).
Variable tridiag : (list R -> res (list R)) -> list R -> res (list R * list R).
Variable eight : list R -> list R -> res (list R * list (list R)).
Variables (keep : R -> bool) (sc : espace RRing).
Hypothesis HSC : screen_espace RRing keep es = (Ok tt, sc).
Variables (beta e0 : R) (s : nat) (repr : string).
Hypothesis Hs : (s <= 1)%nat. Hypothesis HR : repr = "cf"%string \/ repr = "sp"%string /\ GflSpec.eigh_sound eight.
Notation prod := (product_of big half n h fl V hf mu z).
Notation ispin := (Z.of_nat s).
Lemma sc_cut : sc = cut_all RRing keep es.
Proof.
  pose proof (inst_sectors big half n h fl V hf mu z U MO eigh eigsh HC es egs HB) as SE.
  rewrite (screen_ok RRing keep es (sectors_paired n es SE) (proj1 SE)) in HSC. now injection HSC.
Qed.
Theorem kept_value F pos separate : lists_family n es F -> (pos < n)%nat -> undisturbed n ispin sc -> krylov n prod tridiag ispin sc (fun op p' q' s i a => exc n op ispin pos p' q' s i a) 11 ->
  exists ge gh, gf_lanczos_of big half eigh eigsh n h fl V hf mu z tridiag eight sc beta e0 pos repr ispin separate = Ok (sc, ge, gh) /\
  forall e eta, CBase.im (zpoint e eta) <> 0 -> separate = false -> gl_call ge e eta = Ok (cxdiv (lehmann_w n s pos pos (cut_weight keep beta e0) F (zpoint e eta)) (rcx (Zsum_w n (cut_weight keep beta e0) F))).
Proof.
  intros LF Hpos HU HK. pose proof sc_cut as ESC. destruct (inst_family big half n h fl V hf mu z U MO eigh eigsh HC es egs HB) as (F2 & LF2 & EB2 & EV2).
  assert (EB : forall p q, (p <= n)%nat -> (q <= n)%nat -> eigenbasis (F p q)) by (intros p q Hp Hq; rewrite (family_unique n es F F2 p q LF LF2 Hp Hq); auto).
  assert (EV : forall p q, (p <= n)%nat -> (q <= n)%nat -> forall k a, (k < sdim RRing (F p q))%nat -> (a < sdim RRing (F p q))%nat ->
    rsum (sdim RRing (F p q)) (fun b => Msec big half n h V hf mu z U p q a b * nth b (vec RRing (F p q) k) 0) = energy (F p q) k * nth a (vec RRing (F p q) k) 0)
    by (intros p q Hp Hq; rewrite (family_unique n es F F2 p q LF LF2 Hp Hq); auto).
  pose proof (inst_operators big half n h fl V hf mu z U MO eigsh) as OP. pose proof (inst_sectors big half n h fl V hf mu z U MO eigh eigsh HC es egs HB) as SE.
  pose proof (inst_solver big half n h fl V hf mu z U MO eigh eigsh HC) as SV. pose proof (inst_settled big half n h fl V hf mu z U MO eigh eigsh es egs HB) as ST.
  assert (Hn : (n <= 32)%nat) by (destruct MO as ((_ & Hn & _) & _); exact Hn).
  rewrite ESC in HU. destruct (alone (all_pairs big half eigh eigsh n h fl V hf mu z) n keep es F ispin LF EB ST HU) as [AV AF]. rewrite <- ESC in AV, AF.
  assert (S1 : sectors n sc).
  { destruct (cut_all_wf RRing keep es (sectors_paired n es SE) (proj1 SE)) as [HP ND]. rewrite ESC. split; [exact ND|]. intros key t I. apply in_cut_all in I. destruct I as (t0 & I & _ & ->).
    destruct (proj2 SE key t0 I) as (p & q & -> & IS). exists p, q. split; [reflexivity|].
    destruct (cut_paired RRing keep t0 (sector_paired n p q t0 IS)) as [(cs' & V' & L') _]. destruct IS as (Hp & Hq & Hn' & SZ & GU & GD & cs & VV & LC & LN).
    unfold is_sector. do 6 (split; [assumption|]). exists cs'. split; [exact V'|]. split; [exact L'|]. intros x Hx. cbn [cut s_vecs] in V'. injection V' as <-. unfold EspaceSpec.pairs in Hx. rewrite VV in Hx.
    apply in_map_iff in Hx. destruct Hx as ((a & b) & <- & Hx). apply filter_In in Hx. destruct Hx as [Hx _]. apply in_combine_r in Hx. exact (LN b Hx). }
  assert (IS2 : (ispin = 0 \/ ispin = 1)%Z) by lia.
  destruct (gf_lanczos_visits (all_pairs big half eigh eigsh n h fl V hf mu z) prod tridiag eight n (Msec big half n h V hf mu z U) sc beta e0 ispin pos repr separate Hn Hpos IS2 HR S1 OP SV) as (ge & gh & E & H).
  { rewrite AV. exact HK. }
  rewrite AF in E. exists ge, gh. split; [exact E|]. intros e eta Hz ->.
  destruct (resolved_exists n prod (Msec big half n h V hf mu z U) sc ispin pos (zpoint e eta) Hn S1 OP Hz) as (X & HX).
  destruct (H e eta X Hz) as [H1 _]; [rewrite AV; exact HX|]. rewrite H1, AV, AF. f_equal.
  change (green_over n beta e0 ispin sc sc pos X (ops_e false)) with (green n beta e0 ispin sc pos X [OpCdg; OpC]). rewrite ESC in HX |- *.
  assert (SY : forall p q, (p <= n)%nat -> (q <= n)%nat -> matrix_symmetric (dimn n p q) (Msec big half n h V hf mu z U p q)) by (intros p q Hp Hq; exact (proj1 (OP p q Hp Hq))).
  exact (cut_green n es F _ beta e0 s keep LF Hs EB SY EV pos pos (zpoint e eta) X Hz HX).
Qed.
End Code.
