(** Resolvents: existence, shifts, polarisation and spectral sums. *)
From Coq Require Import Reals List Arith NArith ZArith Bool Lia Lra Psatz Ring Field.
From Verif Require Import Base RBase RLin CBase LanczosSpec CfModel CfSpec CfProofs CfMoreProofs GflSpec DmftProofs.
Import ListNotations.
Local Open Scope R_scope.

(** ** Existence *)
(** Elimination of the last unknown from A x = f. *)
Fixpoint rsolve (d : nat) (A : nat -> nat -> cx) (f : nat -> cx) : nat -> cx :=
  match d with
  | O => fun _ => rcx 0
  | S d =>
      let y := rsolve d A f in
      let w := rsolve d A (fun i => A i d) in
      let s := cxsub (A d d) (csum d (fun j => cxmul (A d j) (w j))) in
      let t := cxdiv (cxsub (f d) (csum d (fun j => cxmul (A d j) (y j)))) s in
      fun i => if (i =? d)%nat then t else cxsub (y i) (cxmul (w i) t)
  end.
Definition solvesA (d : nat) (A : nat -> nat -> cx) (x f : nat -> cx) : Prop :=
  forall i, (i < d)%nat -> csum d (fun j => A i j *c x j) = f i.
Definition injA (d : nat) (A : nat -> nat -> cx) : Prop :=
  forall x, solvesA d A x (fun _ => rcx 0) -> forall i, (i < d)%nat -> x i = rcx 0.

Lemma csum_S n f : csum (S n) f = csum n f +c f n.
Proof. exact (nsum_S CxRing n f). Qed.

Lemma rsolve_ok d A : (forall k, (k <= d)%nat -> injA k A) -> forall f, solvesA d A (rsolve d A f) f.
Proof.
  induction d as [|d IH]; intros HI f; [intros i Hi; lia|].
  assert (IH' : forall f, solvesA d A (rsolve d A f) f) by (apply IH; intros; apply HI; lia).
  cbn [rsolve]. set (y := rsolve d A f). set (w := rsolve d A (fun i => A i d)).
  set (s := A d d -c csum d (fun j => A d j *c w j)). set (t := (f d -c csum d (fun j => A d j *c y j)) /c s).
  assert (Hy : solvesA d A y f) by apply IH'. assert (Hw : solvesA d A w (fun i => A i d)) by apply IH'.
  assert (Hs : s <> rcx 0).
  { intros E. pose proof (HI (S d) (le_n _) (fun i => if (i =? d)%nat then rcx 1 else cxopp (w i))) as H.
    assert (E1 : solvesA (S d) A (fun i => if (i =? d)%nat then rcx 1 else cxopp (w i)) (fun _ => rcx 0)).
    { intros i Hi. rewrite csum_S, Nat.eqb_refl.
      rewrite (csum_ext d _ (fun j => cxopp (rcx 1) *c (A i j *c w j))).
      2:{ intros j Hj. destruct (Nat.eqb_spec j d); [lia|]. ring. }
      rewrite csum_scal_l. destruct (Nat.eq_dec i d) as [->|N].
      - transitivity s; [unfold s; ring|exact E].
      - rewrite (Hw i ltac:(lia)). ring. }
    specialize (H E1 d ltac:(lia)). cbn beta in H. rewrite Nat.eqb_refl in H. apply (f_equal re) in H. simpl in H. lra. }
  intros i Hi. rewrite csum_S, Nat.eqb_refl.
  rewrite (csum_ext d _ (fun j => (A i j *c y j) -c (t *c (A i j *c w j)))).
  2:{ intros j Hj. destruct (Nat.eqb_spec j d); [lia|]. ring. }
  rewrite csum_sub, csum_scal_l. destruct (Nat.eq_dec i d) as [->|N].
  - transitivity (csum d (fun j => A d j *c y j) +c t *c s); [unfold s; ring|]. unfold t. field. exact Hs.
  - rewrite (Hw i ltac:(lia)), (Hy i ltac:(lia)). ring.
Qed.

(** z - T as a matrix. *)
Definition zmat (z : cx) (T : nat -> nat -> R) (i j : nat) : cx := (if (i =? j)%nat then z else rcx 0) -c rcx (T i j).
Lemma zmat_solves d T z x f : solves d T z x f <-> solvesA d (zmat z T) x f.
Proof.
  assert (E : forall i, (i < d)%nat -> csum d (fun j => zmat z T i j *c x j) = z *c x i -c csum d (fun j => rcx (T i j) *c x j)).
  { intros i Hi. rewrite (csum_ext d _ (fun j => (if (i =? j)%nat then z *c x j else rcx 0) -c (rcx (T i j) *c x j))).
    2:{ intros j Hj. unfold zmat. destruct (i =? j)%nat; ring. }
    rewrite csum_sub. f_equal. rewrite (csum_single d _ i Hi).
    - now rewrite Nat.eqb_refl.
    - intros j _ N. destruct (Nat.eqb_spec i j); [congruence|reflexivity]. }
  unfold solves, solvesA. split; intros H i Hi; rewrite <- (H i Hi), E by auto; reflexivity.
Qed.
Lemma solves_0 d T z : solves d T z (fun _ => rcx 0) (fun _ => rcx 0).
Proof. intros i Hi. rewrite (csum_0 d) by (intros; ring). ring. Qed.
Definition resolvent (d : nat) (T : nat -> nat -> R) (z : cx) (f : nat -> cx) : nat -> cx := rsolve d (zmat z T) f.
Theorem resolvent_exists d T z f : matrix_symmetric d T -> im z <> 0 -> solves d T z (resolvent d T z f) f.
Proof.
  intros HT Hz. apply zmat_solves. apply rsolve_ok. intros k Hk x Hx i Hi. apply zmat_solves in Hx.
  apply (resolvent_unique k T z x (fun _ => rcx 0) (fun _ => rcx 0)); auto using solves_0.
  intros a b Ha Hb. apply HT; lia.
Qed.

(** ** Linear combinations, shifts *)
Lemma solves_ext d T z x f g : (forall i, (i < d)%nat -> f i = g i) -> solves d T z x f -> solves d T z x g.
Proof. intros E H i Hi. rewrite <- (E i Hi). now apply H. Qed.
Lemma solves_scal d T z c x f : solves d T z x f -> solves d T z (fun i => c *c x i) (fun i => c *c f i).
Proof.
  intros H i Hi. rewrite <- (H i Hi). rewrite (csum_ext d _ (fun j => c *c (rcx (T i j) *c x j))) by (intros; ring).
  rewrite csum_scal_l. ring.
Qed.
Lemma solves_add d T z x y f g : solves d T z x f -> solves d T z y g -> solves d T z (fun i => x i +c y i) (fun i => f i +c g i).
Proof.
  intros H H' i Hi. rewrite <- (H i Hi), <- (H' i Hi).
  rewrite (csum_ext d _ (fun j => (rcx (T i j) *c x j) +c (rcx (T i j) *c y j))) by (intros; ring). rewrite csum_add. ring.
Qed.
Lemma shifted_symmetric s E d T : matrix_symmetric d T -> matrix_symmetric d (shifted s E T).
Proof. intros H i j Hi Hj. unfold shifted. rewrite (H i j Hi Hj). rewrite (Nat.eqb_sym i j). reflexivity. Qed.
Lemma side_sq op : side op * side op = 1.
Proof. destruct op; simpl; ring. Qed.
Lemma shifted_side op E T i j : shifted (side op) E T i j = side op * (T i j - if (i =? j)%nat then E else 0).
Proof. unfold shifted, Rltb. destruct op; simpl side; destruct Rlt_dec; try lra. Qed.

(** The point at which the resolvent of the unshifted matrix is taken. *)
Definition at_side (op : ProjModel.fop) (E : R) (z : cx) : cx := rcx (side op) *c z +c rcx E.
Lemma at_side_im op E z : im z <> 0 -> im (at_side op E z) <> 0.
Proof. unfold at_side. destruct op; destruct z as [u v]; simpl; intros; lra. Qed.
Lemma solves_shift op E d T z x f : solves d (shifted (side op) E T) z x f <-> solves d T (at_side op E z) (fun i => rcx (side op) *c x i) f.
Proof.
  assert (Q : rcx (side op) *c rcx (side op) = rcx 1) by (rewrite <- rcx_mul, side_sq; reflexivity).
  assert (H : forall i, (i < d)%nat -> at_side op E z *c (rcx (side op) *c x i) -c csum d (fun j => rcx (T i j) *c (rcx (side op) *c x j)) =
                z *c x i -c csum d (fun j => rcx (shifted (side op) E T i j) *c x j)).
  { intros i Hi.
    rewrite (csum_ext d (fun j => rcx (shifted (side op) E T i j) *c x j) (fun j => (rcx (T i j) *c (rcx (side op) *c x j)) -c (if (i =? j)%nat then rcx (side op) *c rcx E *c x j else rcx 0))).
    2:{ intros j Hj. rewrite shifted_side, rcx_mul, rcx_sub. destruct (i =? j)%nat; ring. }
    rewrite csum_sub. rewrite (csum_single d (fun j => if (i =? j)%nat then _ else _) i Hi).
    2:{ intros j _ N. destruct (Nat.eqb_spec i j); [congruence|reflexivity]. }
    rewrite Nat.eqb_refl. unfold at_side. transitivity ((rcx (side op) *c rcx (side op)) *c (z *c x i) +c rcx E *c (rcx (side op) *c x i) -c csum d (fun j => rcx (T i j) *c (rcx (side op) *c x j))); [ring|].
    rewrite Q. ring. }
  unfold solves. split; intros A i Hi; [rewrite H|rewrite <- H]; auto.
Qed.

(** Symmetry of the bilinear form of the resolvent. *)
Lemma resolvent_bilinear d T z x y f g : matrix_symmetric d T -> solves d T z x f -> solves d T z y g ->
  csum d (fun i => g i *c x i) = csum d (fun i => f i *c y i).
Proof.
  intros HT Hx Hy.
  rewrite (csum_ext d _ (fun i => (z *c (y i *c x i)) -c csum d (fun j => rcx (T i j) *c y j *c x i))).
  2:{ intros i Hi. rewrite <- (Hy i Hi). rewrite (csum_ext d (fun j => rcx (T i j) *c y j *c x i) (fun j => x i *c (rcx (T i j) *c y j))) by (intros; ring).
      rewrite csum_scal_l. ring. }
  rewrite (csum_ext d (fun i => f i *c y i) (fun i => (z *c (y i *c x i)) -c csum d (fun j => rcx (T j i) *c y i *c x j))).
  2:{ intros i Hi. rewrite <- (Hx i Hi). rewrite (csum_ext d (fun j => rcx (T j i) *c y i *c x j) (fun j => y i *c (rcx (T i j) *c x j))).
      2:{ intros j Hj. rewrite (HT j i) by auto. ring. } rewrite csum_scal_l. ring. }
  rewrite !csum_sub. f_equal. apply csum_swap.
Qed.
(** Polarisation: from the two diagonal elements and that of the sum. *)
Theorem polarisation d T z xi xj fi fj xs : matrix_symmetric d T -> im z <> 0 ->
  solves d T z xi fi -> solves d T z xj fj -> solves d T z xs (fun i => fi i +c fj i) ->
  csum d (fun i => (fi i +c fj i) *c xs i) -c csum d (fun i => fi i *c xi i) -c csum d (fun i => fj i *c xj i)
  = rcx 2 *c csum d (fun i => fj i *c xi i).
Proof.
  intros HT Hz Hi Hj Hs.
  rewrite (csum_ext d (fun i => _ *c xs i) (fun i => (fi i *c xi i +c fj i *c xj i) +c (fj i *c xi i +c fi i *c xj i))).
  2:{ intros k Hk. rewrite (resolvent_unique d T z xs (fun i => xi i +c xj i) _ HT Hz Hs (solves_add _ _ _ _ _ _ _ Hi Hj) k Hk). ring. }
  rewrite !csum_add. rewrite <- (resolvent_bilinear d T z xi xj fi fj HT Hi Hj).
  replace (rcx 2) with (rcx 1 +c rcx 1) by (apply cx_eq; simpl; lra). ring.
Qed.

(** ** Krylov spaces *)
Theorem krylov_coeff d M mv (phi a b : list R) (vs : list (list R)) (rv : list R) op E ex e eta : matrix_symmetric d M -> multiplies d M mv ->
  @lanczos RField d mv phi a b vs rv -> (0 < length vs)%nat -> (forall i, (i < d)%nat -> nth i rv 0 = 0) -> im (zpoint e eta) <> 0 ->
  exists ac bc, build_gf_coeff_cf a b E ex (side op) = Ok (ac, bc) /\
  forall x, solves d (shifted (side op) E M) (zpoint e eta) x (fun i => rcx (nth i phi 0)) ->
    k_cf ac bc e eta = Ok (rcx ex *c csum d (fun i => rcx (nth i phi 0) *c x i)).
Proof.
  intros HM Hmv HL Hn Hr Hz. set (z := zpoint e eta) in *.
  assert (La : length a = length vs) by apply HL. assert (Lb : length b = length vs) by apply HL.
  assert (Lba : length b = length a) by (etransitivity; [exact Lb|symmetry; exact La]).
  assert (Pa : (0 < length a)%nat) by (eapply Nat.lt_le_trans; [exact Hn|]; apply Nat.eq_le_incl; symmetry; exact La).
  destruct (cf_coefficients a b E ex (side op) e eta Hz) as (ac & bc & G & EC & EG & (u & Hu) & HG); [exact Lba|exact Pa|].
  exists ac, bc. split; [exact EC|]. intros x Hx. rewrite EG. f_equal. rewrite (HG u Hu).
  apply solves_shift in Hx. apply solves_shift in Hu. fold z in Hx, Hu.
  pose proof (exhausted_cf d M mv phi a b vs rv HM Hmv HL Hn Hr _ _ (at_side_im op E z Hz) Hx) as EX.
  destruct (cf_resolvent (at_side op E z) a b (at_side_im op E z Hz)) as (G' & EG' & HG' & _); [exact Lba|exact Pa|].
  unfold sqs in EX. rewrite EG' in EX. apply ok_inj in EX. specialize (HG' _ Hu). rewrite EX in HG'. cbn beta in HG'.
  rewrite (csum_ext d _ (fun i => rcx (side op) *c (rcx (nth i phi 0) *c x i))) in HG'.
  2:{ intros i Hi. set (t := rcx (nth i phi 0)). match goal with |- ?y *c _ = _ => change y with t end. ring. }
  rewrite csum_scal_l in HG'.
  assert (Q : rcx (side op) *c rcx (side op) = rcx 1) by (rewrite <- rcx_mul, side_sq; reflexivity).
  set (S := csum d (fun i => rcx (nth i phi 0) *c x i)) in *. cbn [car fring RField RRing c0] in *.
  assert (E2 : rcx (side op) *c (rcx (side op) *c S) = rcx (side op) *c (rcx (nth 0 b 0 * nth 0 b 0) *c (rcx (side op) *c u 0%nat))) by (now rewrite HG').
  assert (E3 : S = rcx (nth 0 b 0 * nth 0 b 0) *c u 0%nat).
  { transitivity ((rcx (side op) *c rcx (side op)) *c S); [rewrite Q; ring|]. transitivity (rcx (side op) *c (rcx (side op) *c S)); [ring|].
    rewrite E2. transitivity ((rcx (side op) *c rcx (side op)) *c (rcx (nth 0 b 0 * nth 0 b 0) *c u 0%nat)); [ring|]. rewrite Q. ring. }
  rewrite E3. rewrite (rcx_mul (nth 0 b 0 * nth 0 b 0)). ring.
Qed.

(** ** Spectral sums *)
Theorem eigen_resolvent d M w U s E z f x : matrix_symmetric d M -> eigensystem d M w U -> im z <> 0 ->
  solves d (shifted (side s) E M) z x (fun i => rcx (f i)) ->
  csum d (fun i => rcx (f i) *c x i) =
  csum d (fun k => rcx (rsum d (fun i => nth i (nth k U []) 0 * f i) ^ 2) /c (z -c rcx (side s * (nth k w 0 - E)))).
Proof.
  intros HM (Lw & LU & Lu & HO & HE) Hz Hx.
  set (u := fun k i => nth i (nth k U []) 0) in *. set (g := fun k => z -c rcx (side s * (nth k w 0 - E))).
  assert (Hg : forall k, g k <> rcx 0).
  { intros k. apply im_neq. unfold g, cxsub, cxadd, cxopp, rcx, im. simpl. unfold im in Hz. lra. }
  set (cf := fun k => rsum d (fun i => u k i * f i)).
  set (X := fun i => csum d (fun k => rcx (u k i * cf k) /c g k)).
  pose proof (orthonormal_complete d d u HO eq_refl) as OC.
  assert (EV : forall k i, (k < d)%nat -> (i < d)%nat -> rsum d (fun j => shifted (side s) E M i j * u k j) = side s * (nth k w 0 - E) * u k i).
  { intros k i Hk Hi. rewrite (rsum_ext d _ (fun j => side s * (M i j * u k j - (if (i =? j)%nat then E * u k j else 0)))).
    2:{ intros j Hj. rewrite shifted_side. destruct (i =? j)%nat; ring. }
    rewrite rsum_scal_l, rsum_sub. unfold u at 1. rewrite (HE k i Hk Hi). fold (u k i).
    rewrite (rsum_single d _ i Hi). 2:{ intros j _ N. destruct (Nat.eqb_spec i j); [congruence|reflexivity]. }
    rewrite Nat.eqb_refl. ring. }
  assert (SX : solves d (shifted (side s) E M) z X (fun i => rcx (f i))).
  { intros i Hi. unfold X.
    rewrite (csum_ext d (fun j => rcx _ *c csum d _) (fun j => csum d (fun k => rcx (shifted (side s) E M i j) *c (rcx (u k j * cf k) /c g k)))).
    2:{ intros j Hj. now rewrite csum_scal_l. }
    rewrite csum_swap. rewrite <- csum_scal_l, <- csum_sub.
    rewrite (csum_ext d _ (fun k => rcx (u k i * cf k))).
    2:{ intros k Hk. rewrite (csum_ext d _ (fun j => (rcx (cf k) *c cxinv (g k)) *c rcx (shifted (side s) E M i j * u k j))).
        2:{ intros j Hj. unfold cxdiv. rewrite !rcx_mul. ring. }
        rewrite csum_scal_l, <- rcx_sum, EV by auto. rewrite !rcx_mul. pose proof (Hg k) as G.
        transitivity ((z -c rcx (side s) *c rcx (nth k w 0 - E)) *c (rcx (u k i) *c rcx (cf k)) /c g k); [unfold cxdiv; ring|].
        rewrite <- (rcx_mul (side s)). fold (g k). field. exact G. }
    rewrite <- rcx_sum. f_equal. unfold cf.
    rewrite (rsum_ext d _ (fun k => rsum d (fun j => u k i * u k j * f j))).
    2:{ intros k _. rewrite <- rsum_scal_l. apply rsum_ext. intros; ring. }
    rewrite rsum_swap. rewrite (rsum_ext d _ (fun j => (if (i =? j)%nat then f j else 0))).
    2:{ intros j Hj. rewrite rsum_scal_r, OC by auto. destruct (i =? j)%nat; ring. }
    rewrite (rsum_single d _ i Hi). 2:{ intros j _ N. destruct (Nat.eqb_spec i j); [congruence|reflexivity]. }
    now rewrite Nat.eqb_refl. }
  rewrite (csum_ext d _ (fun i => rcx (f i) *c X i)).
  2:{ intros i Hi. f_equal. now apply (resolvent_unique d _ z x X _ (shifted_symmetric _ _ _ _ HM) Hz Hx SX). }
  unfold X. rewrite (csum_ext d _ (fun i => csum d (fun k => (rcx (cf k) *c cxinv (g k)) *c rcx (u k i * f i)))).
  2:{ intros i Hi. rewrite <- csum_scal_l. apply csum_ext. intros k _. unfold cxdiv. rewrite !rcx_mul. ring. }
  rewrite csum_swap. apply csum_ext. intros k Hk. rewrite csum_scal_l, <- rcx_sum. fold (cf k).
  fold (u k). change (rsum d (fun i => nth i (nth k U []) 0 * f i)) with (cf k).
  replace (cf k ^ 2) with (cf k * cf k) by ring. rewrite rcx_mul. unfold g, cxdiv. ring.
Qed.
