(** Samples with mirrored poles. *)
From Coq Require Import String Reals List Arith NArith ZArith Bool Lia Lra Psatz.
From Verif Require Import Base RBase RLin CBase OperatorsModel SectorModel LocalModel MatvecModel MbModel MbSpec CsrSpec NonLocalSpec EspaceModel EspaceProofs ProjModel ProjSpec CfModel GfModel GfSpec GmModel GmSpec GmEspaceProofs ExactSpec
  DedModel DedSpec DedRootProofs DedFitProofs DedProofs DedTrialProofs NanoMatProofs SymSpec SymProofs RelSpec RelHamProofs RelGfProofs RelFinalProofs RelCorProofs ImpSpec ImpProofs.
Import ListNotations.
Local Open Scope R_scope.

Lemma mirror_nth poles i : (i < length poles)%nat -> nth i (mirrored poles) 0 = - nth (length poles - 1 - i) poles 0.
Proof.
  intros Hi. unfold mirrored. rewrite rev_nth by (now rewrite map_length). rewrite map_length. replace (length poles - S i)%nat with (length poles - 1 - i)%nat by lia.
  rewrite <- Ropp_0 at 1. apply map_nth.
Qed.
Lemma mirror_length poles : length (mirrored poles) = length poles.
Proof. unfold mirrored. now rewrite rev_length, map_length. Qed.
Lemma mirror_mirror poles : mirrored (mirrored poles) = poles.
Proof. unfold mirrored. rewrite map_rev, rev_involutive, map_map. rewrite <- (map_id poles) at 2. apply map_ext. intros a. apply Ropp_involutive. Qed.
Definition back (n k : nat) : nat := (n - 1 - k)%nat.
Lemma back_ok n : renumbering n (back n).
Proof. split; [intros k Hk|intros j k Hj Hk]; unfold back; lia. Qed.
Lemma back_back n k : (k < n)%nat -> back n (back n k) = k.
Proof. unfold back. lia. Qed.

Section Mirror.
Variables (n : nat) (p p' : nat -> R).
Hypothesis HM : forall i, (i < n)%nat -> p' i = - p (back n i).
Lemma pole_mirror x : pole_sum n p' x = - pole_sum n p (- x).
Proof.
  unfold pole_sum. rewrite <- (rsum_renumber n (back n) (fun i => / (- x - p i)) (back_ok n)), <- (Rmult_1_l (rsum n (fun k => / (- x - _)))), Ropp_mult_distr_l, <- rsum_scal_l.
  apply rsum_ext. intros i Hi. rewrite HM by auto. replace (x - - p (back n i)) with (- (- x - p (back n i))) by ring. rewrite Rinv_opp. ring.
Qed.
Lemma sq_mirror x : rsum n (fun i => / (x - p' i) * / (x - p' i)) = rsum n (fun i => / (- x - p i) * / (- x - p i)).
Proof.
  rewrite <- (rsum_renumber n (back n) (fun i => / (- x - p i) * / (- x - p i)) (back_ok n)). apply rsum_ext. intros i Hi. rewrite HM by auto.
  replace (x - - p (back n i)) with (- (- x - p (back n i))) by ring. rewrite Rinv_opp. ring.
Qed.
Lemma mean_mirror : rsum n p' = - rsum n p.
Proof.
  rewrite <- (rsum_renumber n (back n) p (back_ok n)), <- (Rmult_1_l (rsum n (fun k => p _))), Ropp_mult_distr_l, <- rsum_scal_l. apply rsum_ext. intros i Hi. rewrite HM by auto. ring.
Qed.
Lemma inc_mirror : increasing n p -> increasing n p'.
Proof. intros H i Hi. rewrite !HM by lia. unfold back. replace (n - 1 - i)%nat with (S (n - 1 - S i)) by lia. pose proof (H (n - 1 - S i)%nat ltac:(lia)). lra. Qed.
Lemma roots_mirror e e' : increasing n p -> gap_roots n p e -> gap_roots n p' e' -> forall k, (S k < n)%nat -> e' k = - e (back (n - 1) k).
Proof.
  intros I G G' k Hk. destruct (G' k Hk) as [B R0]. destruct (G (back (n - 1) k) ltac:(unfold back; lia)) as [B' R1].
  destruct (gap_root n p I (back (n - 1) k) ltac:(unfold back; lia)) as (x & _ & _ & U). rewrite (U _ B' R1). assert (Q : - e' k = x); [|lra]. apply U.
  - rewrite !HM in B by lia. unfold back in *. replace (n - 1 - k)%nat with (S (n - 1 - 1 - k)) in B by lia. replace (n - 1 - S k)%nat with (n - 1 - 1 - k)%nat in B by lia. lra.
  - rewrite pole_mirror in R0. lra.
Qed.
Lemma inv_opp a : cxinv (cxopp a) = cxopp (cxinv a).
Proof. destruct a as [c d]. apply cx_eq; cbv [cxinv cxopp cxn2 re CBase.im fst snd]; replace (- c * - c + - d * - d) with (c * c + d * d) by ring; unfold Rdiv; ring. Qed.
Lemma inv_conj a : cxinv (cxconj a) = cxconj (cxinv a).
Proof. destruct a as [c d]. apply cx_eq; cbv [cxinv cxconj cxn2 re CBase.im fst snd]; replace (c * c + - d * - d) with (c * c + d * d) by ring; unfold Rdiv; ring. Qed.
Lemma rsum_opp m f : rsum m (fun i => - f i) = - rsum m f.
Proof. transitivity (-1 * rsum m f); [|ring]. rewrite <- rsum_scal_l. apply rsum_ext. intros i _. ring. Qed.
Lemma csum_opp m f : csum m (fun i => cxopp (f i)) = cxopp (csum m f).
Proof.
  apply cx_eq.
  - change (re (cxopp (csum m f))) with (- re (csum m f)). rewrite !csum_re. exact (rsum_opp m (fun i => re (f i))).
  - change (CBase.im (cxopp (csum m f))) with (- CBase.im (csum m f)). rewrite !csum_im. exact (rsum_opp m (fun i => CBase.im (f i))).
Qed.
Lemma gf_mirror z : mean_gf n p' (cxopp z) = cxopp (mean_gf n p z).
Proof.
  unfold mean_gf. rewrite (csum_ext n _ (fun i => cxopp (cxinv (cxsub z (rcx (p (back n i))))))).
  - rewrite csum_opp, (csum_renumber n (back n) (back_ok n) (fun i => cxinv (cxsub z (rcx (p i))))). unfold cxdiv. generalize (csum n (fun i => cxinv (cxsub z (rcx (p i))))) (cxinv (rcx (INR n))). intros [a b] [c d]. apply cx_eq; cbv [cxmul cxopp re CBase.im fst snd]; ring.
  - intros i Hi. rewrite HM by auto. rewrite <- inv_opp. f_equal. destruct z as [a b]. apply cx_eq; cbv [cxsub cxadd cxopp rcx re CBase.im fst snd]; ring.
Qed.
Lemma gf_conj z : mean_gf n p (cxconj z) = cxconj (mean_gf n p z).
Proof.
  unfold mean_gf. rewrite conj_cdiv, conj_sum. f_equal. apply csum_ext. intros i _. rewrite <- inv_conj. f_equal. destruct z as [a b]. apply cx_eq; cbv [cxsub cxadd cxopp cxconj rcx re CBase.im fst snd]; ring.
Qed.
End Mirror.

(** The fit of the mirrored poles is the mirrored bath. *)
Theorem fit_mirror fsolve fsolve' poles : (0 < length poles)%nat -> increasing (length poles) (fun i => nth i poles 0) -> finds_roots fsolve (length poles) (fun i => nth i poles 0) -> finds_roots fsolve' (length poles) (fun i => nth i (mirrored poles) 0) ->
  let g := gfimp_fit fsolve poles in let g' := gfimp_fit fsolve' (mirrored poles) in let m := (length poles - 1)%nat in
  g_e0 g' = - g_e0 g /\ forall k, (k < m)%nat -> nth k (g_ek g') 0 = - nth (m - 1 - k) (g_ek g) 0 /\ nth k (g_vk2 g') 0 = nth (m - 1 - k) (g_vk2 g) 0.
Proof.
  intros Hn I S S' g g' m. set (n := length poles) in *. set (p := fun i => nth i poles 0) in *. set (p' := fun i => nth i (mirrored poles) 0) in *.
  assert (HM : forall i, (i < n)%nat -> p' i = - p (back n i)) by (intros i Hi; apply (mirror_nth poles i Hi)).
  pose proof (mirror_length poles) as LM. fold n in LM.
  assert (Hn' : (0 < length (mirrored poles))%nat) by (now rewrite LM).
  assert (I' : increasing (length (mirrored poles)) p') by (rewrite LM; exact (inc_mirror n p p' HM I)).
  assert (S'' : finds_roots fsolve' (length (mirrored poles)) p') by (now rewrite LM).
  assert (RT : forall k, (k < m)%nat -> nth k (g_ek g') 0 = - nth (m - 1 - k) (g_ek g) 0).
  { intros k Hk. unfold g, g'. rewrite (ek_nth fsolve' (mirrored poles) k) by (rewrite LM; exact Hk). rewrite (ek_nth fsolve poles (m - 1 - k)) by (fold n; lia).
    apply (roots_mirror n p p' HM (ek fsolve poles) (ek fsolve' (mirrored poles)) I (ek_roots fsolve poles S)); [|lia]. pose proof (ek_roots fsolve' (mirrored poles) S'') as Q. rewrite LM in Q. exact Q. }
  split.
  - unfold g, g'. unfold gfimp_fit. cbn [g_e0]. rewrite LM. fold n. change (rsum n p' / INR n = - (rsum n p / INR n)). rewrite (mean_mirror n p p' HM). unfold Rdiv. ring.
  - intros k Hk. split; [now apply RT|]. unfold g, g'. rewrite (vk2_nth fsolve' (mirrored poles) Hn' I' S'' k) by (rewrite LM; exact Hk). rewrite (vk2_nth fsolve poles Hn I S (m - 1 - k)) by (fold n; lia).
    unfold v2, S2, w. rewrite LM. fold n. replace (Datatypes.S (n - 1)) with n by lia. f_equal.
    rewrite <- (ek_nth fsolve' (mirrored poles) k) by (rewrite LM; exact Hk). rewrite <- (ek_nth fsolve poles (m - 1 - k)) by (fold n; lia). fold g g'. rewrite (RT k Hk).
    change (rsum n (fun i => / (- nth (m - 1 - k) (g_ek g) 0 - p' i) * / (- nth (m - 1 - k) (g_ek g) 0 - p' i)) = rsum n (fun i => / (nth (m - 1 - k) (g_ek g) 0 - p i) * / (nth (m - 1 - k) (g_ek g) 0 - p i))).
    rewrite (sq_mirror n p p' HM), Ropp_involutive. reflexivity.
Qed.

(** Mirrored impurity models. *)
Definition flip_site (n x : nat) : nat := match x with O => O | S k => S (back (n - 1) k) end.
Lemma flip_site_ok n : renumbering n (flip_site n).
Proof. split; [intros [|k] Hk|intros [|j] [|k] Hj Hk]; cbn [flip_site]; unfold back; lia. Qed.
Lemma siam_model half n e0 e v U H V : (1 < n)%nat -> (n <= 32)%nat -> half + half = 1 -> is_siam n e0 e v U H V -> model_ok half n (H2 RRing H) (mkflags true true true) (VArray RRing V) V.
Proof.
  intros H1 H32 Hh HS. split; [auto|]. split; [reflexivity|]. split; [auto|]. split; [split; exact I|]. split; [|reflexivity].
  intros sp a b Ha Hb. cbn [hspin]. rewrite (proj1 (HS a b Ha Hb)), (proj1 (HS b a Hb Ha)). destruct a as [|a], b as [|b]; cbn [star]; auto. rewrite (Nat.eqb_sym b a). destruct (Nat.eqb_spec a b); [now subst|reflexivity].
Qed.
Lemma one1 (l : R) : l = -1 * (-1 * 1) * l.
Proof. ring. Qed.
Lemma one2 (l : R) : l = -1 * (1 * -1) * l.
Proof. ring. Qed.
Lemma siam_related big n e0 e v U H V e0' e' v' H' V' : (0 < n)%nat -> is_siam n e0 e v U H V -> is_siam n e0' e' v' U H' V' -> e0' + U / 2 = - (e0 + U / 2) ->
  (forall k, (S k < n)%nat -> e' (back (n - 1) k) = - e k /\ v' (back (n - 1) k) = v k) ->
  related n true false (flip_site n) (fun x => (x =? 0)%nat) (params_of big (H2 RRing H) (VArray RRing V) false 0 None V) (params_of big (H2 RRing H') (VArray RRing V') false 0 None V').
Proof.
  intros Hn HS HS' HE HK. pose proof (flip_site_ok n) as HF.
  assert (UU : forall x y, (x < n)%nat -> (y < n)%nat -> V' (flip_site n x) (flip_site n y) = V x y).
  { intros x y Hx Hy. rewrite (proj2 (HS x y Hx Hy)), (proj2 (HS' _ _ (proj1 HF x Hx) (proj1 HF y Hy))). destruct x, y; reflexivity. }
  assert (OFF : forall (W : nat -> nat -> R) x, (forall a b, (a < n)%nat -> (b < n)%nat -> a <> b -> W a b = 0) -> (x < n)%nat -> rsum n (fun j => if (x =? j)%nat then 0 else W x j + W j x) = 0).
  { intros W x HW Hx. apply rsum_0. intros j Hj. destruct (Nat.eqb_spec x j); [reflexivity|]. rewrite !HW by auto. ring. }
  assert (VO : forall a b, (a < n)%nat -> (b < n)%nat -> a <> b -> V a b = 0) by (intros a b Ha Hb D; rewrite (proj2 (HS a b Ha Hb)); destruct a, b; auto; contradiction).
  assert (VO' : forall a b, (a < n)%nat -> (b < n)%nat -> a <> b -> V' a b = 0) by (intros a b Ha Hb D; rewrite (proj2 (HS' a b Ha Hb)); destruct a, b; auto; contradiction).
  split; [exact HF| | | | |].
  - intros s x y _ Hx Hy. cbn [params_of P_T spin' hspin]. unfold offdiag.
    destruct (Nat.eqb_spec x y) as [->|D]; [rewrite Nat.eqb_refl; cbn [negb andb]; change (c0 RRing) with 0; change (@eq R 0 (pm true * (pm (y =? 0)%nat * pm (y =? 0)%nat) * 0)); ring|].
    assert (D' : flip_site n x <> flip_site n y) by (intros Q; apply D; now apply (proj2 HF)). apply Nat.eqb_neq in D'. rewrite D'. cbn [negb andb].
    rewrite (proj1 (HS x y Hx Hy)), (proj1 (HS' _ _ (proj1 HF x Hx) (proj1 HF y Hy))). change (c0 RRing) with 0.
    destruct x as [|a], y as [|b]; [contradiction| | |]; cbn [flip_site star Nat.eqb]; change (pm true) with (-1); change (pm false) with 1.
    + rewrite (proj2 (HK b Hy)). apply one1.
    + rewrite (proj2 (HK a Hx)). apply one2.
    + cbn [flip_site] in D'. cbn [Nat.eqb] in D'. rewrite D'. destruct (Nat.eqb_spec a b) as [->|_]; [contradiction|]. destruct (big 0); change (@eq R 0 (-1 * (1 * 1) * 0)); ring.
  - intros x y Hx Hy. cbn [params_of P_U]. now apply UU.
  - intros s x Hs Hx. cbn [spin']. rewrite !centred_plain. rewrite (OFF V x VO Hx), (OFF V' _ VO' (proj1 HF x Hx)), UU by auto. cbn [hspin].
    rewrite (proj1 (HS x x Hx Hx)), (proj1 (HS' _ _ (proj1 HF x Hx) (proj1 HF x Hx))), (proj2 (HS x x Hx Hx)). change (pm true) with (-1).
    destruct x as [|k]; cbn [flip_site star Nat.eqb andb]; [lra|]. rewrite !Nat.eqb_refl, (proj1 (HK k Hx)). ring.
  - intros x y _ _. split; reflexivity.
  - intros x y _ _. split; reflexivity.
Qed.

Section Two.
Variables (big : R -> bool) (n : nat) (half half' : R).
Variables (eigh eigh' : dense RRing -> res (list R * list (list R))) (eigsh eigsh' : nat -> Z -> (list R -> res (list R)) -> res (list R * list (list R))).
Hypothesis HC : eigh_contract eigh. Hypothesis HC' : eigh_contract eigh'.
Hypothesis H1 : (1 < n)%nat. Hypothesis H32 : (n <= 32)%nat. Hypothesis Hh : half + half = 1. Hypothesis Hh' : half' + half' = 1.
Notation build := (build_espace RRing Rleb).
(** The Green's function of the impurity in mirrored models. *)
Lemma siam_green e0 e v U H V e0' e' v' H' V' es eg es' eg' beta gf gf' :
  is_siam n e0 e v U H V -> is_siam n e0' e' v' U H' V' -> e0' + U / 2 = - (e0 + U / 2) -> (forall k, (S k < n)%nat -> e' (back (n - 1) k) = - e k /\ v' (back (n - 1) k) = v k) ->
  build big half eigh eigsh n (H2 RRing H) (mkflags true true true) (VArray RRing V) false 0 None None "sz" = Ok (es, Some eg) ->
  build big half' eigh' eigsh' n (H2 RRing H') (mkflags true true true) (VArray RRing V') false 0 None None "sz" = Ok (es', Some eg') ->
  build_gf_exact n es beta eg 0 0%Z = Ok gf -> build_gf_exact n es' beta eg' 0 0%Z = Ok gf' ->
  forall z G G', gf_call gf (rcx (re z)) (CBase.im z) = Ok G -> (forall z', z' = cxopp z -> gf_call gf' (rcx (re z')) (CBase.im z') = Ok G' -> G' = cxopp G) /\ (forall z', z' = cxopp (cxconj z) -> gf_call gf' (rcx (re z')) (CBase.im z') = Ok G' -> G' = cxopp (cxconj G)).
Proof.
  intros HS HS' HE HK B B' EG EG' z G G' CG.
  pose proof (siam_model half n _ _ _ _ _ _ H1 H32 Hh HS) as MO. pose proof (siam_model half' n _ _ _ _ _ _ H1 H32 Hh' HS') as MO'. pose proof (siam_related big n _ _ _ _ _ _ _ _ _ _ _ ltac:(lia) HS HS' HE HK) as REL.
  destruct (related_green n true false _ _ big half _ _ _ false 0 None V big half' _ _ _ false 0 None V' MO MO' REL eigh eigh' eigsh eigsh' HC HC' es es' _ _ B B' beta 0%nat eg eg' ltac:(lia) eq_refl eq_refl) as (g & g' & BG & BG' & RG).
  destruct (exact_solved big half n _ _ _ false 0 None V MO eigh eigsh HC es _ B) as (F & LF & _). destruct (exact_solved big half' n _ _ _ false 0 None V' MO' eigh' eigsh' HC' es' _ B') as (F' & LF' & _).
  destruct (gm_consistent n es F beta eg LF) as (_ & g2 & BG2 & CON). destruct (gm_consistent n es' F' beta eg' LF') as (_ & g2' & BG2' & CON'). change (Z.of_nat 0) with 0%Z in BG. change (Z.of_nat (spin' false 0)) with 0%Z in BG'. rewrite BG in BG2. injection BG2 as <-. rewrite BG' in BG2'. injection BG2' as <-.
  destruct (CON 0%nat ltac:(lia)) as (g1 & E1 & D1). rewrite EG in E1. injection E1 as <-. destruct (CON' 0%nat ltac:(lia)) as (g1' & E1' & D1'). rewrite EG' in E1'. injection E1' as <-.
  assert (OPP : forall w Gw, gf_call gf (rcx (re w)) (CBase.im w) = Ok Gw -> gf_call gf' (rcx (re (cxopp w))) (CBase.im (cxopp w)) = Ok (cxopp Gw)).
  { intros w Gw Cw. destruct (RG (rcx (re w)) (CBase.im w) (rcx (re (cxopp w))) (CBase.im (cxopp w))) as (M & M' & CM & CM' & Q); [rewrite !zpoint_id; reflexivity|].
    destruct (D1 (rcx (re w)) (CBase.im w)) as (M1 & CM1 & DM1). rewrite CM in CM1. injection CM1 as <-. rewrite Cw in DM1. injection DM1 as ->.
    destruct (D1' (rcx (re (cxopp w))) (CBase.im (cxopp w))) as (M1' & CM1' & DM1'). rewrite CM' in CM1'. injection CM1' as <-. rewrite DM1'. f_equal.
    pose proof (Q 0%nat 0%nat ltac:(lia) ltac:(lia)) as Q0. cbn [flip_site Nat.eqb] in Q0. rewrite Q0. destruct (GmSpec.entry M 0 0) as [a b]. apply cx_eq; cbv [cxmul cxopp rcx re CBase.im fst snd pm]; ring. }
  assert (CONJ : gf_call gf (rcx (re (cxconj z))) (CBase.im (cxconj z)) = Ok (cxconj G)).
  { destruct (reciprocal n es F beta eg 0 LF ltac:(lia)) as (g3 & BG3 & R3). change (Z.of_nat 0) with 0%Z in BG3. rewrite BG in BG3. injection BG3 as <-.
    destruct (R3 (rcx (re z)) (CBase.im z) (rcx (re (cxconj z))) (CBase.im (cxconj z))) as (M & M' & CM & CM' & Q); [rewrite !zpoint_id; reflexivity|].
    destruct (D1 (rcx (re z)) (CBase.im z)) as (M1 & CM1 & DM1). rewrite CM in CM1. injection CM1 as <-. rewrite CG in DM1. injection DM1 as ->.
    destruct (D1 (rcx (re (cxconj z))) (CBase.im (cxconj z))) as (M1' & CM1' & DM1'). rewrite CM' in CM1'. injection CM1' as <-. rewrite DM1'. f_equal. apply (Q 0%nat 0%nat); lia. }
  split; intros z' -> C'.
  - rewrite (OPP z G CG) in C'. now injection C' as <-.
  - rewrite (OPP _ _ CONJ) in C'. now injection C' as <-.
Qed.

Variables (fsolve fsolve' : (R -> R) -> R -> R) (kB kB' : R) (wild wild' : N -> nat -> N).
Variables (U sigma0 sigma0' beta : R) (zs zs' : list cx) (poles : list R).
Hypothesis L : length poles = n. Hypothesis INC : increasing n (fun i => nth i poles 0).
Hypothesis FR : finds_roots fsolve n (fun i => nth i poles 0). Hypothesis FR' : finds_roots fsolve' n (fun i => nth i (mirrored poles) 0).
Hypothesis HU : sigma0 + sigma0' = U.
Theorem trial_mirror i i' :
  siam_trial big half eigh eigsh fsolve kB wild n U sigma0 beta zs poles = Ok (Some i) -> siam_trial big half' eigh' eigsh' fsolve' kB' wild' n U sigma0' beta zs' (mirrored poles) = Ok (Some i') ->
  forall j j', (j < length zs)%nat -> (j' < length zs')%nat ->
    (nth j' zs' (rcx 0) = cxopp (nth j zs (rcx 0)) -> nth j' (i_sigma i') (rcx 0) = cxopp (nth j (i_sigma i) (rcx 0))) /\
    (nth j' zs' (rcx 0) = cxopp (cxconj (nth j zs (rcx 0))) -> nth j' (i_sigma i') (rcx 0) = cxopp (cxconj (nth j (i_sigma i) (rcx 0)))).
Proof.
  intros T T' j j' Hj Hj'.
  destruct (siam_content big half eigh eigsh fsolve kB wild n U sigma0 beta zs poles L ltac:(lia) _ T) as (h0 & v0 & h1 & v1 & es0 & e0 & es1 & e1 & q0 & s0 & q1 & s1 & o0 & _ & HS & _ & B & _ & _ & _ & NE & EQ).
  destruct (list_eq_dec Nat.eq_dec q1 q0) as [Q|Q]; [|specialize (NE Q); discriminate]. destruct (EQ Q) as (i0 & gf & b & eb & E & EG & _ & SE & _). injection E as <-. clear NE EQ Q.
  assert (L' : length (mirrored poles) = n) by (now rewrite mirror_length).
  destruct (siam_content big half' eigh' eigsh' fsolve' kB' wild' n U sigma0' beta zs' (mirrored poles) L' ltac:(lia) _ T') as (h0' & v0' & h1' & v1' & es0' & e0' & es1' & e1' & q0' & s0' & q1' & s1' & o0' & _ & HS' & _ & B' & _ & _ & _ & NE & EQ).
  destruct (list_eq_dec Nat.eq_dec q1' q0') as [Q|Q]; [|specialize (NE Q); discriminate]. destruct (EQ Q) as (i0' & gf' & b' & eb' & E' & EG' & _ & SE' & _). injection E' as <-.
  assert (HM : forall k, (k < n)%nat -> (fun i => nth i (mirrored poles) 0) k = - (fun i => nth i poles 0) (back n k)) by (intros k Hk; rewrite mirror_nth by lia; now rewrite L).
  assert (FM := fit_mirror fsolve fsolve' poles ltac:(lia)). rewrite L in FM. destruct (FM INC FR FR') as [_ FK]. clear FM.
  assert (HE : rsum n (fun i => nth i (mirrored poles) 0) / INR n - sigma0' + U / 2 = - (rsum n (fun i => nth i poles 0) / INR n - sigma0 + U / 2)).
  { rewrite (mean_mirror n _ _ HM). assert (D : - rsum n (fun i => nth i poles 0) / INR n = - (rsum n (fun i => nth i poles 0) / INR n)) by (unfold Rdiv; ring). rewrite D. lra. }
  destruct (SE j Hj) as (G & CG & XG). destruct (SE' j' Hj') as (G' & CG' & XG').
  pose proof (siam_green _ _ _ _ _ _ _ _ _ _ _ es1 e1 es1' e1' beta gf gf' HS HS' HE) as GR.
  assert (HK : forall k, (S k < n)%nat -> nth (back (n - 1) k) (g_ek (gfimp_fit fsolve' (mirrored poles))) 0 = - nth k (g_ek (gfimp_fit fsolve poles)) 0 /\ sqrt (nth (back (n - 1) k) (g_vk2 (gfimp_fit fsolve' (mirrored poles))) 0) = sqrt (nth k (g_vk2 (gfimp_fit fsolve poles)) 0)).
  { intros k Hk. destruct (FK (back (n - 1) k) ltac:(unfold back; lia)) as [A A']. replace (n - 1 - 1 - back (n - 1) k)%nat with k in A, A' by (unfold back; lia). rewrite A, A'. auto. }
  destruct (GR HK B B' EG EG' _ G G' CG) as [R1 R2]. rewrite XG, XG'. split; intros Z.
  - rewrite (R1 _ Z CG'). rewrite Z, (gf_mirror n _ _ HM), !inv_opp. generalize (cxinv G) (cxinv (mean_gf n (fun i => nth i poles 0) (nth j zs (rcx 0)))). intros [a c] [d f]. apply cx_eq; cbv [cxsub cxadd cxopp re CBase.im fst snd]; ring.
  - rewrite (R2 _ Z CG'). rewrite Z, (gf_mirror n _ _ HM), gf_conj, !inv_opp, !inv_conj. generalize (cxinv G) (cxinv (mean_gf n (fun i => nth i poles 0) (nth j zs (rcx 0)))). intros [a c] [d f]. apply cx_eq; cbv [cxsub cxadd cxopp cxconj re CBase.im fst snd]; ring.
Qed.
End Two.
Theorem trial_axis (big : R -> bool) n half eigh eigsh : eigh_contract eigh -> (1 < n)%nat -> (n <= 32)%nat -> half + half = 1 ->
  forall fsolve kB wild U beta zs poles, length poles = n -> increasing n (fun i => nth i poles 0) -> finds_roots fsolve n (fun i => nth i poles 0) -> mirrored poles = poles ->
  forall i, siam_trial big half eigh eigsh fsolve kB wild n U (U / 2) beta zs poles = Ok (Some i) ->
  forall j, (j < length zs)%nat -> re (nth j zs (rcx 0)) = 0 -> re (nth j (i_sigma i) (rcx 0)) = 0.
Proof.
  intros HC H1 H32 Hh fsolve kB wild U beta zs poles L INC FR SY i T j Hj Z.
  assert (T' : siam_trial big half eigh eigsh fsolve kB wild n U (U / 2) beta zs (mirrored poles) = Ok (Some i)) by (rewrite SY; exact T).
  assert (FR' : finds_roots fsolve n (fun i => nth i (mirrored poles) 0)) by (rewrite SY; exact FR).
  destruct (trial_mirror big n half half eigh eigh eigsh eigsh HC HC H1 H32 Hh Hh fsolve fsolve kB kB wild wild U (U / 2) (U / 2) beta zs zs poles L INC FR FR' ltac:(lra) i i T T' j j Hj Hj) as [_ Q].
  assert (E : nth j zs (rcx 0) = cxopp (cxconj (nth j zs (rcx 0)))) by (destruct (nth j zs (rcx 0)) as [a b]; cbn in Z; subst a; unfold cxopp, cxconj, re, CBase.im; cbn; f_equal; lra).
  specialize (Q E). destruct (nth j (i_sigma i) (rcx 0)) as [a b]. unfold cxopp, cxconj in Q. cbn in Q. injection Q as Q _. cbn. lra.
Qed.
