(** The Lanczos method over the real numbers. *)
From Coq Require Import List Arith Reals Lra Lia Psatz.
From Verif Require Import Base RBase RLin CBase LanczosModel LanczosSpec LanczosProofs LanczosOrthoProofs LanczosSolveProofs CfModel CfSpec CfProofs CfMoreProofs.
Import ListNotations.
Local Open Scope R_scope.

Lemma ip_nonneg d (x : list R) : 0 <= @ip RField d x x.
Proof. apply (rsum_nonneg d (fun i => nth i x 0 * nth i x 0)). intros. nra. Qed.
Lemma ip_sqrt d (x : list R) : sqrt (@ip RField d x x) * sqrt (@ip RField d x x) = @ip RField d x x.
Proof. apply sqrt_sqrt, ip_nonneg. Qed.

Lemma multiplies_symmetric d M mv : matrix_symmetric d M -> multiplies d M mv -> @symmetric_op RField d mv.
Proof.
  intros HM Hmv. unfold symmetric_op. cbn [car fring RField RRing]. split.
  - intros x Lx. destruct (Hmv x Lx) as (y & E & L & _). eauto.
  - intros x y X Y Lx Ly EX EY. destruct (Hmv x Lx) as (X' & EX' & _ & HX). rewrite EX in EX'. injection EX' as <-.
    destruct (Hmv y Ly) as (Y' & EY' & _ & HY). rewrite EY in EY'. injection EY' as <-.
    change (rsum d (fun i => nth i X 0 * nth i y 0) = rsum d (fun i => nth i x 0 * nth i Y 0)).
    rewrite (rsum_ext d _ (fun i => rsum d (fun j => nth i y 0 * (M i j * nth j x 0)))) by (intros i Hi; rewrite (HX i Hi), (rsum_scal_l d (nth i y 0)); apply Rmult_comm).
    rewrite rsum_swap. apply rsum_ext. intros j Hj. rewrite HY by auto. rewrite <- rsum_scal_l. apply rsum_ext.
    intros i Hi. rewrite (HM i j) by auto. ring.
Qed.

Lemma sl_run_len mv d phi0 tr v l : @symmetric_op RField d mv -> length phi0 = d ->
  run (sl_step RField sqrt mv) phi0 (map (fun _ => 0) phi0) tr v l -> length v = d /\ length l = d.
Proof.
  intros Hm Hp H. induction H as [|tr v1 l1 a b l2 v2 H IH E]; [rewrite map_length; auto|].
  destruct IH as [L1 L2]. destruct (step_spec RField sqrt d mv Hm v1 l1 L1 L2) as (a' & v' & w & w' & E' & Lv & Lw & _).
  change (sl_step RField sqrt mv v1 l1 = Ok (a, b, l2, v2)) in E. rewrite E in E'. injection E' as _ _ -> ->. auto.
Qed.

Theorem real_build_outcome (E : Type) tiny (egs : list R -> list R -> res E) close d mv phi0 ga gb maxn ND :
  @symmetric_op RField d mv -> length phi0 = d -> (0 < ND)%nat -> (forall a b, exists e, egs a b = Ok e) ->
  (maxn = 0%nat -> real_sl_tridiag tiny egs close mv phi0 ga gb maxn ND = Err IndexError) /\
  ((0 < maxn)%nat -> tiny (sqrt (@ip RField d phi0 phi0)) = true \/ maxn = 1%nat ->
     real_sl_tridiag tiny egs close mv phi0 ga gb maxn ND = Err ZeroNormInitialVector) /\
  ((1 < maxn)%nat -> tiny (sqrt (@ip RField d phi0 phi0)) = false ->
     exists s, real_sl_tridiag tiny egs close mv phi0 ga gb maxn ND = Ok s).
Proof.
  intros Hm Hp HN He.
  destruct (step_spec RField sqrt d mv Hm phi0 (map (fun _ => 0) phi0) Hp ltac:(rewrite map_length; exact Hp)) as (a & v' & w & w' & E0 & _).
  unfold real_sl_tridiag.
  refine (build_total (list R) R E (sl_step RField sqrt mv) tiny egs close (map (fun _ => 0) phi0) phi0 maxn ga gb ND HN _ He a _ v' w' E0).
  intros tr v l Hr. destruct (sl_run_len mv d phi0 tr v l Hm Hp Hr) as [Lv Ll].
  destruct (step_spec RField sqrt d mv Hm v l Lv Ll) as (a1 & v1 & w1 & w1' & E1 & _). eauto.
Qed.

Theorem real_build_lanczos (E : Type) tiny (egs : list R -> list R -> res E) close d mv phi0 ga gb maxn ND s :
  @symmetric_op RField d mv -> tiny 0 = true -> length phi0 = d -> (0 < ND)%nat ->
  real_sl_tridiag tiny egs close mv phi0 ga gb maxn ND = Ok s ->
  exists vs rv, @lanczos RField d mv phi0 (ret_a _ _ s) (ret_b _ _ s) vs rv /\
    (1 <= length vs < maxn)%nat /\ (length vs <= d)%nat /\ (length vs = d -> forall i, (i < d)%nat -> nth i rv 0 = 0) /\
    (l_steps _ _ s = length vs \/
     l_steps _ _ s = S (length vs) /\ (tiny (sqrt (@ip RField d rv rv)) = true \/ length vs = maxn - 1)%nat).
Proof.
  intros Hm Ht Hp HN H.
  destruct (build_lanczos RField E sqrt d mv tiny egs close phi0 ga gb maxn ND s Hm (fun x _ => ip_sqrt d x) Ht Hp HN H) as (vs & rv & HL & Hn & Hst).
  destruct (lanczos_dim d mv phi0 _ _ vs rv HL) as [D1 D2]. exists vs, rv. auto.
Qed.

Theorem real_build_resolvent (E : Type) tiny (egs : list R -> list R -> res E) close d M mv phi0 ga gb maxn ND s :
  matrix_symmetric d M -> multiplies d M mv -> tiny 0 = true -> length phi0 = d -> (0 < ND)%nat ->
  real_sl_tridiag tiny egs close mv phi0 ga gb maxn ND = Ok s ->
  exists vs rv, @lanczos RField d mv phi0 (ret_a _ _ s) (ret_b _ _ s) vs rv /\
    ((forall i, (i < d)%nat -> nth i rv 0 = 0) \/ length vs = d ->
     forall z x, im z <> 0 -> solves d M z x (fun i => rcx (nth i phi0 0)) ->
     cf_pyx z (ret_a _ _ s) (map (fun b => b * b) (ret_b _ _ s)) = Ok (csum d (fun i => cxmul (rcx (nth i phi0 0)) (x i)))).
Proof.
  intros HM Hmv Ht Hp HN H.
  destruct (real_build_lanczos E tiny egs close d mv phi0 ga gb maxn ND s (multiplies_symmetric d M mv HM Hmv) Ht Hp HN H)
    as (vs & rv & HL & Hn & _ & D & _).
  exists vs, rv. split; [exact HL|]. intros Hz z x Iz Hx.
  apply (exhausted_cf d M mv phi0 _ _ vs rv HM Hmv HL (proj1 Hn)); auto. destruct Hz; auto.
Qed.

Theorem real_solve_ritz (E : Type) d mv tiny (egs : list R -> list R -> res E) close phi0 v0 ga gb maxn ND s eigh w U :
  @symmetric_op RField d mv -> tiny 0 = true -> length phi0 = d -> (0 < ND)%nat ->
  real_sl_tridiag tiny egs close mv phi0 ga gb maxn ND = Ok s ->
  v0 = phi0 \/ (length v0 = d /\ forall i, nth i phi0 0 = nth 0 (ret_b _ _ s) 0 * nth i v0 0) ->
  eigh (ret_a _ _ s) (skipn 1 (ret_b _ _ s)) = Ok (w, U) -> @tri_eigen RField (ret_a _ _ s) (skipn 1 (ret_b _ _ s)) w U ->
  exists vs rv X, @lanczos RField d mv phi0 (ret_a _ _ s) (ret_b _ _ s) vs rv /\
    sl_solve RField sqrt eigh mv (ret_a _ _ s) (ret_b _ _ s) v0 = Ok (w, X) /\
    length X = length w /\ (forall x, In x X -> length x = d) /\
    forall i, (i < length w)%nat -> exists HX, mv (nth i X []) = Ok HX /\ length HX = d /\
      (forall k, (k < d)%nat -> nth k HX 0 = nth i w 0 * @ent RField X i k + @ent RField U (length vs - 1) i * nth k rv 0) /\
      forall j, (j < length w)%nat -> @ip RField d (nth j X []) (nth i X []) = (if (j =? i)%nat then 1 else 0) /\
        @ip RField d (nth j X []) HX = if (j =? i)%nat then nth i w 0 else 0.
Proof.
  intros Hm Ht Hp HN H Hv He HE.
  exact (solve_ritz RField E sqrt d mv tiny egs close phi0 v0 ga gb maxn ND s eigh w U Hm (fun x _ => ip_sqrt d x) sqrt_1 Ht Hp HN H Hv He HE).
Qed.
