(** Instances for the Lanczos Green's functions, and their failures. *)
From Coq Require Import Reals String List Arith NArith ZArith Bool Lia Lra Psatz Ring Field.
From Verif Require Import Base RBase RLin CBase OperatorsModel OperatorsSpec OperatorsProofs LookupModel SectorModel SectorSpec SectorProofs FockSpec LocalModel MatvecModel EspaceModel
  ProjModel ProjSpec ProjProofs ProjMoreProofs ProjFinalProofs LanczosModel LanczosSpec LanczosRealProofs CfModel CfSpec CfProofs CfMoreProofs GfModel GfSpec GfProofs GfMoreProofs GflModel GflSpec DmftProofs GflProofs GflLoopProofs GflMainProofs GflPairProofs.
Import ListNotations.
Local Open Scope R_scope.

(** ** The systems have solutions *)
Theorem resolved_exists n mvop M es ispin pos z : (n <= 32)%nat -> sectors n es -> operators n mvop M -> im z <> 0 ->
  exists X, resolved n M ispin es pos z X.
Proof.
  intros Hn HES Hop Hz.
  exists (fun op key i => match key with
    | [p; q] => match moved n op ispin p q, es_find es key with
                | Some (p', q'), Some s => resolvent (dimn n p' q') (shifted (side op) (energy s i) (M p' q')) z (fun a => rcx (exc n op ispin pos p' q' s i a))
                | _, _ => fun _ => rcx 0
                end
    | _ => fun _ => rcx 0 end).
  intros op p q s i p' q' I Hi HM. rewrite HM, (es_find_in n es HES _ _ I).
  destruct (proj2 HES _ _ I) as (p0 & q0 & EK & HI). injection EK as <- <-. pose proof HI as (Hp & Hq & _).
  destruct (moved_spec n Hn op p q ispin p' q' Hp Hq HM) as (Hp' & Hq' & _).
  apply resolvent_exists; [|exact Hz]. apply shifted_symmetric. apply Hop; auto.
Qed.

(** ** Runs that stop only on a zero coefficient *)
Section Count.
Variables V F E : Type.
Variable step : V -> V -> res (F * F * V * V).
Variable tiny : F -> bool.
Variable egs : list F -> list F -> res E.
Variable close : option E -> E -> bool.
Variable maxn : nat.
Lemma inner_count k : forall s s' c, l_steps V F s = l_n V F s -> sl_inner V F step tiny maxn k s = Ok (s', c) ->
  if c then l_steps V F s' = S (l_n V F s') else l_steps V F s' = l_n V F s' /\ l_n V F s' = (l_n V F s + k)%nat.
Proof.
  induction k as [|k IH]; intros s s' c HS; cbn [sl_inner].
  - intros E0. apply ok_inj in E0. injection E0 as <- <-. split; [exact HS|lia].
  - destruct (step _ _) as [[[[an bn] l] v]|]; cbn [bind]; [|discriminate].
    destruct (npset (l_a V F s) _ _); cbn [bind]; [|discriminate]. destruct (npset (l_b V F s) _ _); cbn [bind]; [|discriminate].
    destruct (tiny bn || _).
    + destruct (l_n V F s =? 0)%nat; [discriminate|]. intros E0. apply ok_inj in E0. injection E0 as <- <-. cbn [l_steps l_n]. lia.
    + intros E0. apply IH in E0; [|cbn [l_steps l_n]; lia]. cbn [l_n] in E0. destruct c; [exact E0|]. destruct E0. split; [assumption|lia].
Qed.
Lemma outer_count ND : (2 <= ND)%nat -> (forall p e, close p e = false) -> forall fuel prev s s', l_steps V F s = l_n V F s ->
  sl_outer V F E step tiny egs close maxn ND fuel prev s = Ok s' -> l_steps V F s' = S (l_n V F s').
Proof.
  intros HN HC. induction fuel as [|fuel IH]; intros prev s s' HS; cbn [sl_outer]; [discriminate|].
  destruct (sl_inner _ _ _ _ _ _ _) as [[s1 c]|] eqn:Ei; [|discriminate]. cbn [bind]. pose proof (inner_count _ _ _ _ HS Ei) as HI.
  destruct (Nat.eqb_spec (l_n V F s1) 1) as [E1|].
  - intros E0. apply ok_inj in E0. subst s'. destruct c; [exact HI|]. exfalso. lia.
  - destruct (egs _ _); cbn [bind]; [|discriminate]. rewrite HC, orb_false_r. destruct c.
    + intros E0. apply ok_inj in E0. now subst.
    + apply IH. apply HI.
Qed.
End Count.

Theorem ideal_exhausts (E : Type) maxn ND tiny (egs : list R -> list R -> res E) close ga gb d M mv phi :
  matrix_symmetric d M -> multiplies d M mv -> (forall x, tiny x = true <-> x = 0) -> (forall a b, exists e, egs a b = Ok e) -> (forall p e, close p e = false) ->
  length phi = d -> (2 <= ND)%nat -> (1 < maxn)%nat -> (d < maxn)%nat -> exhausts d mv phi (tridiag_with maxn ND tiny egs close ga gb mv phi).
Proof.
  intros HM Hmv Ht He HC Lp HN Hm Hd. pose proof (multiplies_symmetric d M mv HM Hmv) as HS.
  assert (T0 : tiny 0 = true) by (apply Ht; reflexivity).
  destruct (real_build_outcome E tiny egs close d mv phi ga gb maxn ND HS Lp ltac:(lia) He) as (_ & O2 & O3).
  unfold tridiag_with, exhausts. destruct (tiny (sqrt (@ip RField d phi phi))) eqn:ET.
  - rewrite O2 by (auto; lia). cbn [bind]. split; [reflexivity|]. apply Ht in ET.
    assert (N0 : rsum d (fun i => nth i phi 0 * nth i phi 0) = 0).
    { apply sqrt_eq_0; [|exact ET]. apply rsum_nonneg. intros. apply Rle_0_sqr. }
    intros i Hi. pose proof (rsum_nonneg_0 d _ (fun i _ => Rle_0_sqr (nth i phi 0)) N0 i Hi) as Z. now apply Rsqr_0_uniq.
  - destruct (O3 Hm eq_refl) as (s & ES). rewrite ES. cbn [bind].
    destruct (real_build_lanczos E tiny egs close d mv phi ga gb maxn ND s HS T0 Lp ltac:(lia) ES) as (vs & rv & HL & [L1 L2] & L3 & L4 & L5).
    exists vs, rv. split; [exact HL|]. split; [lia|].
    assert (LA : length vs = @length R (ret_a _ _ s)) by (symmetry; apply HL).
    assert (LN : (length vs <= l_n _ _ s)%nat) by (rewrite LA; unfold ret_a; rewrite firstn_length; lia).
    unfold real_sl_tridiag, build_sl_tridiag in ES. apply outer_count in ES; auto.
    destruct L5 as [L5|[L5 [L6|L6]]]; [lia| |].
    + apply Ht in L6. assert (N0 : rsum d (fun i => nth i rv 0 * nth i rv 0) = 0).
      { apply sqrt_eq_0; [|exact L6]. apply rsum_nonneg. intros. apply Rle_0_sqr. }
      intros i Hi. pose proof (rsum_nonneg_0 d _ (fun i _ => Rle_0_sqr (nth i rv 0)) N0 i Hi) as Z. now apply Rsqr_0_uniq.
    + apply L4. lia.
Qed.

(** A zero start vector always fails. *)
Lemma vdot_zero (phi : list R) : (forall a, nth a phi 0 = 0) -> @vdot RField phi phi = 0.
Proof.
  induction phi as [|x phi IH]; intros H; [reflexivity|]. unfold vdot in *.
  pose proof (H 0%nat) as H0. cbn [nth] in H0. subst x.
  etransitivity; [apply (f_equal2 Rplus); [reflexivity|exact (IH (fun a => H (S a)))]|]. cbn. ring.
Qed.
Theorem zero_start_fails (E : Type) maxn ND tiny (egs : list R -> list R -> res E) close ga gb mv phi : tiny 0 = true -> (0 < ND)%nat ->
  (forall a, nth a phi 0 = 0) -> exists e, tridiag_with maxn ND tiny egs close ga gb mv phi = Err e.
Proof.
  intros Ht HN H0. unfold tridiag_with, real_sl_tridiag, build_sl_tridiag. destruct ND as [|ND]; [lia|]. cbn [sl_outer sl_inner l_v l_l l_a l_b l_n].
  destruct (sl_step RField sqrt mv phi (map (fun _ => 0) phi)) as [[[[a b] l] v]|e] eqn:ES; cbn [bind]; [|eexists; reflexivity].
  assert (b = 0) as ->.
  { unfold sl_step in ES. destruct (mv _); cbn [bind] in ES; [|discriminate]. destruct (dot _ _ _); cbn [bind] in ES; [|discriminate].
    destruct (axpy _ _ _ _); cbn [bind] in ES; [|discriminate]. destruct (axpy _ _ _ _); cbn [bind] in ES; [|discriminate].
    apply ok_inj in ES. injection ES as _ <- _ _. unfold norm. rewrite (vdot_zero phi H0). apply sqrt_0. }
  do 2 (match goal with |- context[npset ?x ?i ?y] => destruct (npset x i y) end; cbn [bind]; [|eexists; reflexivity]).
  rewrite Ht. cbn [orb Nat.eqb]. eexists. reflexivity.
Qed.

(** ** An annihilated state makes the off-diagonal builder fail *)
Lemma foldM_fails {A B} (f : B -> A -> res B) l b x : In x l -> (forall b, exists e, f b x = Err e) -> exists e, foldM f l b = Err e.
Proof.
  intros I H. revert b. induction l as [|y l IH]; [destruct I|]. intros b. cbn [foldM]. destruct I as [->|I].
  - destruct (H b) as (e & ->). eexists. reflexivity.
  - destruct (f b y); cbn [bind]; [auto|eexists; reflexivity].
Qed.
Lemma bind_fails {A B} (r : res A) (k : A -> res B) : (forall x, r = Ok x -> exists e, k x = Err e) -> exists e, bind r k = Err e.
Proof. destruct r as [a|e]; cbn [bind]; intros H; [now apply H|eexists; reflexivity]. Qed.

Section Fails.
Variable mvop : states_t -> res (list R -> res (list R)).
Variable tridiag : (list R -> res (list R)) -> list R -> res (list R * list R).
Variable eigh : list R -> list R -> res (list R * list (list R)).
Variable n : nat.
Variable es : espace RRing.
Hypothesis Hn : (n <= 32)%nat.
Hypothesis HES : sectors n es.
Hypothesis Hzero : forall mv phi, (forall a, nth a phi 0 = 0) -> exists e, tridiag mv phi = Err e.

Theorem offdiag_fails beta egs ispin i j repr separate op p q s k p' q' : (ispin = 0 \/ ispin = 1)%Z -> (i < n)%nat -> (j < n)%nat ->
  In ([p; q], s) es -> (k < nvals s)%nat -> moved n op ispin p q = Some (p', q') ->
  (forall a, (a < dimn n p' q')%nat -> pair_excited n ispin i j op p' q' s k a = 0) ->
  exists e, build_gf_offdiag mvop tridiag eigh n es beta i j ispin egs repr separate = Err e.
Proof.
  intros Hsp Hi Hj I Hk HM H0. unfold build_gf_offdiag. apply bind_fails. intros kn _. apply bind_fails. intros _ _.
  assert (SIDE : exists e, off_side mvop tridiag eigh n kn op i j ispin es p q s (exponents beta egs s) = Err e).
  { destruct (proj2 HES _ _ I) as (p0 & q0 & EK & HI). injection EK as <- <-. pose proof HI as (Hp & Hq & _).
    destruct (moved_spec n Hn op p q ispin p' q' Hp Hq HM) as (Hp' & Hq' & _).
    unfold off_side. rewrite (target_moved n Hn op p q ispin Hsp), HM. cbn [bind].
    destruct (arrive_ok n Hn es HES p' q' Hp' Hq') as (sJ & EA & EJ). rewrite EA. cbn [bind].
    destruct (project_ok n Hn op ispin p q p' q' s sJ Hsp HI HM EJ) as (pr & sg & EP & Hsg & HP). rewrite EP. cbn [bind].
    destruct (HP i Hi) as (vi & EVi & LVi & HVi). destruct (HP j Hj) as (vj & EVj & LVj & HVj). rewrite EVi. cbn [bind]. rewrite EVj. cbn [bind].
    unfold lanczos_side. apply bind_fails. intros mv _. apply (foldM_fails _ _ _ k); [apply in_seq; fold (nvals s); lia|].
    intros acc. cut (exists e, tridiag mv (nth k (vsum vi vj) []) = Err e); [intros (e & ->); destruct e; eexists; reflexivity|]. apply Hzero. intros a.
    destruct (HVi k Hk) as [L1 V1]. destruct (HVj k Hk) as [L2 V2].
    rewrite vsum_row; [|change (k < @length (list (car RRing)) vi)%nat; rewrite LVi; exact Hk|exact (eq_trans LVi (eq_sym LVj))].
    rewrite nth_addrow by exact (eq_trans L1 (eq_sym L2)).
    destruct (Nat.lt_ge_cases a (dimn n p' q')) as [Ha|Ha].
    - etransitivity; [apply (f_equal2 Rplus); [exact (V1 a Ha)|exact (V2 a Ha)]|]. transitivity (sg * pair_excited n ispin i j op p' q' s k a); [unfold pair_excited; ring|].
      rewrite (H0 a Ha). ring.
    - rewrite !nth_overflow; [ring| |].
      + apply (Nat.le_trans _ (dimn n p' q')); [apply Nat.eq_le_incl; exact L2|exact Ha].
      + apply (Nat.le_trans _ (dimn n p' q')); [apply Nat.eq_le_incl; exact L1|exact Ha]. }
  apply bind_fails. intros [fe fh] EF. exfalso. revert EF.
  destruct (foldM_fails (off_step mvop tridiag eigh n kn beta egs i j ispin separate es) (map fst es) ([], []) [p; q]) as (e & E).
  - change [p; q] with (fst ([p; q], s)). now apply in_map.
  - intros [fe' fh']. unfold off_step, es_get. rewrite (es_find_in n es HES _ _ I). cbn [bind]. destruct SIDE as (e & SE). destruct op.
    + apply bind_fails. intros f1 _. rewrite SE. eexists. reflexivity.
    + rewrite SE. eexists. reflexivity.
  - rewrite E. discriminate.
Qed.
End Fails.

(** ** Final statements *)
Lemma repr_cases repr (eigh : list R -> list R -> res (list R * list (list R))) : repr = "cf"%string \/ repr = "sp"%string /\ eigh_sound eigh ->
  exists k, repr_of repr = Ok k /\ (k = KSp -> eigh_sound eigh).
Proof. intros [-> | [-> H]]; [exists KCf|exists KSp]; split; auto. discriminate. Qed.

Theorem gf_lanczos_green solve mvop tridiag eigh n M es beta egs ispin pos repr separate :
  (n <= 32)%nat -> (pos < n)%nat -> (ispin = 0 \/ ispin = 1)%Z -> repr = "cf"%string \/ repr = "sp"%string /\ eigh_sound eigh ->
  sectors n es -> operators n mvop M -> solver n solve M -> settled n solve es ->
  krylov n mvop tridiag ispin es (fun op p' q' s i a => exc n op ispin pos p' q' s i a) 11 ->
  exists ge gh, build_gf_lanczos solve mvop tridiag eigh n es beta egs pos repr ispin separate = Ok (es, ge, gh) /\
  forall e eta X, im (zpoint e eta) <> 0 -> resolved n M ispin es pos (zpoint e eta) X ->
    gl_call ge e eta = Ok (green n beta egs ispin es pos X (ops_e separate)) /\ gl_call gh e eta = Ok (green n beta egs ispin es pos X (ops_h separate)).
Proof.
  intros Hn Hpos Hsp HR HES Hop Hs Hset HK. destruct (repr_cases repr eigh HR) as (k & ER & Hk).
  exact (build_gf_lanczos_k solve mvop tridiag eigh n M es beta egs ispin k Hn HES Hop Hsp Hk pos Hpos Hs Hset HK repr separate ER).
Qed.

Theorem gf2_matrix solve mvop tridiag eigh n M es beta egs ispin repr separate :
  (n <= 32)%nat -> (ispin = 0 \/ ispin = 1)%Z -> repr = "cf"%string \/ repr = "sp"%string /\ eigh_sound eigh ->
  sectors n es -> operators n mvop M -> solver n solve M -> settled n solve es ->
  (forall i, (i < n)%nat -> krylov n mvop tridiag ispin es (fun op p' q' s k a => exc n op ispin i p' q' s k a) 11) ->
  (forall i j, (i < j < n)%nat -> krylov n mvop tridiag ispin es (pair_excited n ispin i j) 0 /\ never_zero n ispin es (pair_excited n ispin i j)) ->
  exists g, build_gf2_lanczos solve mvop tridiag eigh n es beta egs ispin repr separate = Ok (es, g) /\
  forall mem e eta X, length mem = n -> (forall i, (i < n)%nat -> length (nth i mem []) = n) -> im (zpoint e eta) <> 0 ->
  (forall i, (i < n)%nat -> resolved n M ispin es i (zpoint e eta) (X i)) ->
  exists Gs, gf2_call g mem e eta = Ok Gs /\ length Gs = length (if separate then [[OpCdg]; [OpC]] else [[OpCdg; OpC]]) /\
    (forall l i j, (l < length Gs)%nat -> (i < n)%nat -> (j < n)%nat ->
      nth j (nth i (nth l Gs []) []) (rcx 0) = green n beta egs ispin es j (X i) (nth l (if separate then [[OpCdg]; [OpC]] else [[OpCdg; OpC]]) [])) /\
    (forall i j, (i <= j < n)%nat -> gf2_get g i j e eta = Ok (green n beta egs ispin es j (X i) [OpCdg; OpC])) /\
    (forall i j, (j < i < n)%nat -> gf2_get g i j e eta = Err TypeError).
Proof.
  intros Hn Hsp HR HES Hop Hs Hset HKd HKo. destruct (repr_cases repr eigh HR) as (k & ER & Hk).
  destruct (build_gf2_k solve mvop tridiag eigh n M es beta egs ispin k Hn HES Hop Hsp Hk Hs Hset HKd HKo repr separate ER) as (te & th & EB & F1 & F2).
  eexists. split; [exact EB|]. intros mem e eta X Lm Rm Hz HX.
  assert (SYM : forall ops i j, (i < n)%nat -> (j < n)%nat -> green n beta egs ispin es j (X i) ops = green n beta egs ispin es i (X j) ops).
  { intros ops i j Hi Hj. unfold green. f_equal. apply csuml_ext. intros op _. apply csuml_ext. intros [key s] I.
    destruct (proj2 HES _ _ I) as (p & q & -> & HI). pose proof HI as (Hp & Hq & _). unfold contribution. cbn [fst snd].
    destruct (moved n op ispin p q) as [[p' q']|] eqn:HM; [|reflexivity]. destruct (moved_spec n Hn op p q ispin p' q' Hp Hq HM) as (Hp' & Hq' & _).
    apply csum_ext. intros m Hm. f_equal.
    apply (resolvent_bilinear (dimn n p' q') (shifted (side op) (energy s m) (M p' q')) (zpoint e eta)).
    - apply shifted_symmetric. apply Hop; auto.
    - exact (HX i Hi op p q s m p' q' I Hm HM).
    - exact (HX j Hj op p q s m p' q' I Hm HM). }
  assert (VAL : forall ops i j, (i < n)%nat -> (j < n)%nat -> green n beta egs ispin es (max i j) (X (min i j)) ops = green n beta egs ispin es j (X i) ops).
  { intros ops i j Hi Hj. destruct (Nat.le_ge_cases i j).
    - now rewrite Nat.max_r, Nat.min_l.
    - rewrite Nat.max_l, Nat.min_r by auto. now apply SYM. }
  assert (ADD : forall i j, green n beta egs ispin es j (X i) [OpCdg] +c green n beta egs ispin es j (X i) [OpC] = green n beta egs ispin es j (X i) [OpCdg; OpC]).
  { intros i j. unfold green. cbn [map csuml fold_right]. unfold cxdiv. ring. }
  assert (Sm : square n mem) by (split; auto).
  destruct separate; cbn [ops_e ops_h] in F1, F2.
  - destruct (evaluate_ok n M es beta egs ispin Hn te [OpCdg] mem e eta X F1 Sm Hz HX) as (G1 & E1 & _ & V1).
    destruct (evaluate_ok n M es beta egs ispin Hn th [OpC] mem e eta X F2 Sm Hz HX) as (G2 & E2 & _ & V2).
    cbn [gf2_call gf2_get]. rewrite E1. cbn [bind]. rewrite E2. cbn [bind]. exists [G1; G2]. split; [reflexivity|]. split; [reflexivity|]. split; [|split].
    + intros l i j Hl Hi Hj. destruct l as [|[|l]]; cbn [nth length] in *; [rewrite V1 by auto; now apply VAL|rewrite V2 by auto; now apply VAL|lia].
    + intros i j Hij. rewrite (item_ok n M es beta egs ispin Hn te [OpCdg] i j e eta X F1 Hij Hz HX), (item_ok n M es beta egs ispin Hn th [OpC] i j e eta X F2 Hij Hz HX).
      cbn [bind]. f_equal. apply ADD.
    + intros i j Hij. rewrite (item_lower n M es beta egs ispin Hn te [OpCdg] i j e eta F1 (proj1 Hij)). reflexivity.
  - destruct (evaluate_ok n M es beta egs ispin Hn te [OpCdg; OpC] mem e eta X F1 Sm Hz HX) as (G1 & E1 & _ & V1).
    cbn [gf2_call gf2_get]. rewrite E1. cbn [bind]. exists [G1]. split; [reflexivity|]. split; [reflexivity|]. split; [|split].
    + intros l i j Hl Hi Hj. destruct l as [|l]; cbn [nth length] in *; [rewrite V1 by auto; now apply VAL|lia].
    + intros i j Hij. exact (item_ok n M es beta egs ispin Hn te [OpCdg; OpC] i j e eta X F1 Hij Hz HX).
    + intros i j Hij. exact (item_lower n M es beta egs ispin Hn te [OpCdg; OpC] i j e eta F1 (proj1 Hij)).
Qed.

Theorem ideal_krylov (E : Type) maxn ND tiny (egs : list R -> list R -> res E) close ga gb n mvop M ispin es f least :
  (n <= 32)%nat -> sectors n es -> operators n mvop M -> (forall x, tiny x = true <-> x = 0) -> (forall a b, exists e, egs a b = Ok e) -> (forall p e, close p e = false) ->
  (2 <= ND)%nat -> (1 < maxn)%nat -> (forall p q, (p <= n)%nat -> (q <= n)%nat -> (dimn n p q < maxn)%nat) ->
  krylov n mvop (tridiag_with maxn ND tiny egs close ga gb) ispin es f least.
Proof.
  intros Hn HES Hop Ht He HC HN Hm Hd p' q' phi mv _ (op & p & q & s & i & sg & I & _ & HM & _ & Lp & _) Emv.
  destruct (proj2 HES _ _ I) as (p0 & q0 & EK & HI). injection EK as <- <-. pose proof HI as (Hp & Hq & _).
  destruct (moved_spec n Hn op p q ispin p' q' Hp Hq HM) as (Hp' & Hq' & _).
  destruct (Hop p' q' Hp' Hq') as (HS & mv' & Emv' & Hmv). rewrite Emv in Emv'. apply ok_inj in Emv'. subst mv'.
  apply (ideal_exhausts E maxn ND tiny egs close ga gb (dimn n p' q') (M p' q')); auto.
Qed.
