(** Spectral form, and Lanczos resolvents of the full operator. *)
From Coq Require Import List Arith Reals Lra Lia Psatz Ring Field.
From Verif Require Import Base RBase RLin CBase LanczosSpec LanczosSolveProofs CfModel CfSpec CfProofs.
Import ListNotations.
Local Open Scope R_scope.

Lemma tri_affine (s E : R) (a b : list R) i j : (i < length a)%nat -> (j < length a)%nat ->
  @tri RField (map (fun x => s * (x - E)) a) (map (fun x => s * x) b) i j =
  s * (@tri RField a b i j - if (i =? j)%nat then E else 0).
Proof.
  intros Hi Hj. unfold tri. cbn [car fring RField RRing c0].
  destruct (i =? j)%nat.
  - rewrite (nth_indep _ 0 (s * (0 - E))) by (now rewrite map_length). rewrite (map_nth (fun x => s * (x - E)) a 0). reflexivity.
  - assert (Z : forall k, nth k (map (fun x => s * x) b) 0 = s * nth k b 0).
    { intros k. rewrite <- (map_nth (fun x => s * x) b 0). now rewrite Rmult_0_r. }
    destruct (j =? S i)%nat; [rewrite Z; ring|]. destruct (i =? S j)%nat; [rewrite Z; ring|ring].
Qed.

Theorem cf_resolvent (z : cx) (a b : list R) : im z <> 0 -> length b = length a -> (0 < length a)%nat ->
  exists G, cf_pyx z a (map (fun x => x * x) b) = Ok G /\
    (forall x, solves (length a) (@tri RField a b) z x e0 -> G = cxmul (rcx (nth 0 b 0 * nth 0 b 0)) (x 0%nat)) /\
    (exists x, solves (length a) (@tri RField a b) z x e0) /\
    im G * im z <= 0 /\ (nth 0 b 0 <> 0 -> im G * im z < 0).
Proof.
  intros Hz L P. destruct (cf_value z a b (nth 0 b 0 * nth 0 b 0) Hz L P) as (G & EG & HG & HX).
  assert (E : nth 0 b 0 * nth 0 b 0 :: skipn 1 (sqs b) = map (fun x => x * x) b) by (destruct b; [simpl in L; lia|reflexivity]).
  rewrite E in EG. exists G. split; [exact EG|]. split; [exact HG|]. split; [exact HX|]. exact (cf_im z a b G Hz L EG).
Qed.

Lemma zpoint_value e eta : zpoint e eta = (re e, im e + eta)%R.
Proof. apply cx_eq; cbv [zpoint cxadd cxmul ci rcx re im fst snd]; ring. Qed.

Theorem cf_coefficients (a b : list R) (Ei ex sign : R) e eta : im (zpoint e eta) <> 0 -> length b = length a -> (0 < length a)%nat ->
  exists ac bc G, build_gf_coeff_cf a b Ei ex sign = Ok (ac, bc) /\ k_cf ac bc e eta = Ok G /\
  (exists x, solves (length a) (shifted sign Ei (@tri RField a b)) (zpoint e eta) x e0) /\
  forall x, solves (length a) (shifted sign Ei (@tri RField a b)) (zpoint e eta) x e0 ->
    G = cxmul (rcx (nth 0 b 0 * nth 0 b 0 * ex)) (x 0%nat).
Proof.
  intros Hz Lb P. set (s := if Rltb sign 0 then -1 else 1).
  destruct b as [|b0 b]; [simpl in Lb; lia|]. unfold build_gf_coeff_cf. cbn [map].
  assert (Ea : (if Rltb sign 0 then map (fun e => e * (-1)) (map (fun e => e - Ei) a) else map (fun e => e - Ei) a) = map (fun x => s * (x - Ei)) a).
  { unfold s. destruct (Rltb sign 0); rewrite ?map_map; apply map_ext; intros; ring. }
  rewrite Ea. set (a' := map (fun x => s * (x - Ei)) a). set (b' := map (fun x => s * x) (b0 :: b)).
  assert (La : length a' = length a) by (unfold a'; apply map_length).
  destruct (cf_value (zpoint e eta) a' b' (b0 * b0 * ex) Hz) as (G & EG & HG & HX); [unfold b'; rewrite map_length; lia|lia|].
  assert (Hs : s * s = 1) by (unfold s; destruct (Rltb sign 0); ring).
  assert (Eb : skipn 1 (sqs b') = map (fun x => x * x) b).
  { unfold b', sqs. simpl. rewrite map_map. apply map_ext. intros x. transitivity (s * s * (x * x)); [ring|]. rewrite Hs. ring. }
  rewrite Eb in EG. rewrite La in HG, HX.
  assert (EQ : forall i j, (i < length a)%nat -> (j < length a)%nat -> @tri RField a' b' i j = shifted sign Ei (@tri RField a (b0 :: b)) i j).
  { intros i j Hi Hj. unfold a', b'. rewrite tri_affine by auto. unfold shifted, s. match goal with |- @eq _ ?x ?y => change (@eq R x y) end. destruct (Rltb sign 0); ring. }
  assert (SQ : forall x, solves (length a) (@tri RField a' b') (zpoint e eta) x e0 <-> solves (length a) (shifted sign Ei (@tri RField a (b0 :: b))) (zpoint e eta) x e0).
  { intros x. unfold solves. split; intros H i Hi; rewrite <- (H i Hi); f_equal; apply csum_ext; intros j Hj; rewrite EQ by auto; reflexivity. }
  exists a', (b0 * b0 * ex :: map (fun x => x * x) b), G. split; [reflexivity|]. split; [exact EG|]. split.
  - destruct HX as (x & HX). exists x. now apply SQ.
  - intros x Hx. simpl nth. apply HG. now apply SQ.
Qed.

(** The spectral sum solves the tridiagonal system. *)
Lemma spectral_solves (s E : R) (a b w : list R) (U : list (list R)) z : length w = length a -> @tri_eigen RField a (skipn 1 b) w U -> im z <> 0 ->
  solves (length a) (@tri RField (map (fun x => s * (x - E)) a) (map (fun x => s * x) b)) z
    (fun i => csum (length a) (fun r => rcx (@ent RField U i r * @ent RField U 0 r) /c (z -c rcx (s * (nth r w 0 - E))))) e0.
Proof.
  intros Lw (LU & HU & HO & HE) Hz i Hi. set (n := length a) in *.
  set (g := fun r => z -c rcx (s * (nth r w 0 - E))).
  assert (Hg : forall r, g r <> rcx 0).
  { intros r. apply im_neq. unfold g, cxsub, cxadd, cxopp, rcx, im. simpl. unfold im in Hz. lra. }
  set (u := @ent RField U).
  assert (EV : forall i r, (i < n)%nat -> (r < n)%nat -> rsum n (fun j => @tri RField (map (fun x => s * (x - E)) a) (map (fun x => s * x) b) i j * u j r) = s * (nth r w 0 - E) * u i r).
  { clear i Hi. intros i r Hi Hr.
    rewrite (rsum_ext n _ (fun j => s * (@tri RField a b i j * u j r - (if (i =? j)%nat then E * u j r else 0)))).
    2:{ intros j Hj. rewrite tri_affine by auto. destruct (i =? j)%nat; ring. }
    rewrite rsum_scal_l, rsum_sub.
    rewrite (rsum_single n (fun j => if (i =? j)%nat then E * u j r else 0) i Hi).
    2:{ intros j _ N. destruct (Nat.eqb_spec i j); [congruence|reflexivity]. }
    rewrite Nat.eqb_refl.
    assert (Hr' : (r < length w)%nat) by (rewrite Lw; exact Hr). specialize (HE r i Hr' Hi). fold n in HE. cbn [car fring RField RRing c0 cmul] in HE.
    rewrite (rsum_ext n _ (fun k => @tri RField a (0 :: skipn 1 b) i k * u k r)).
    2:{ intros k _. pose proof (tri_skip RField a b i k) as TS. cbn [car fring RField RRing c0] in TS. rewrite <- TS. reflexivity. }
    change (rsum n (fun k => @tri RField a (0 :: skipn 1 b) i k * u k r)) with (@nsum RRing n (fun k => Rmult (@tri RField a (0 :: skipn 1 b) i k) (u k r))).
    etransitivity; [apply (f_equal (fun t => s * (t - E * u i r))); exact HE|]. fold u. ring. }
  rewrite <- csum_scal_l.
  rewrite (csum_ext n (fun j => rcx _ *c csum n _)
    (fun j => csum n (fun r => rcx (@tri RField (map (fun x => s * (x - E)) a) (map (fun x => s * x) b) i j) *c (rcx (u j r * u 0%nat r) /c g r)))).
  2:{ intros j Hj. rewrite csum_scal_l. reflexivity. }
  rewrite csum_swap.
  rewrite (csum_ext n (fun r => csum n _) (fun r => rcx (s * (nth r w 0 - E) * (u i r * u 0%nat r)) /c g r)).
  2:{ intros r Hr. replace (s * (nth r w 0 - E) * (u i r * u 0%nat r)) with ((s * (nth r w 0 - E) * u i r) * u 0%nat r) by ring.
      rewrite <- EV by auto. rewrite rcx_mul, rcx_sum. unfold cxdiv.
      transitivity ((rcx (u 0%nat r) *c cxinv (g r)) *c csum n (fun j => rcx (@tri RField (map (fun x => s * (x - E)) a) (map (fun x => s * x) b) i j * u j r))); [|ring].
      rewrite <- csum_scal_l. apply csum_ext. intros j Hj. rewrite !rcx_mul. ring. }
  rewrite <- csum_sub.
  rewrite (csum_ext n _ (fun r => rcx (u i r * u 0%nat r))).
  2:{ intros r Hr. specialize (Hg r). fold (g r). rewrite (rcx_mul (s * _)).
      transitivity (rcx (u i r * u 0%nat r) *c (z -c rcx (s * (nth r w 0 - E))) /c g r); [field; exact Hg|]. fold (g r). field. exact Hg. }
  rewrite <- rcx_sum. unfold e0.
  assert (OC : forall p q, (p < n)%nat -> (q < n)%nat -> rsum n (fun r => u p r * u q r) = if (p =? q)%nat then 1 else 0).
  { intros p q Hp Hq. apply (orthonormal_complete n n (fun r k => u k r)); auto.
    intros r r' Hr Hr'. rewrite <- Lw in Hr, Hr'. specialize (HO r r' Hr Hr'). cbn [car fring RField RRing c0 c1 cmul] in HO. exact HO. }
  rewrite OC by (unfold n in *; lia). destruct (i =? 0)%nat; reflexivity.
Qed.

(** The two forms of the coefficients describe the same function. *)
Theorem sp_is_cf eigh (a b w : list R) (U : list (list R)) Ei ex sign e eta :
  length b = length a -> (0 < length a)%nat -> eigh a (skipn 1 b) = Ok (w, U) -> length w = length a ->
  @tri_eigen RField a (skipn 1 b) w U -> im (zpoint e eta) <> 0 ->
  exists l q ac bc G, build_gf_coeff_sp eigh a b Ei ex sign = Ok (l, q) /\ build_gf_coeff_cf a b Ei ex sign = Ok (ac, bc) /\
    k_sp l q e eta = Ok G /\ k_cf ac bc e eta = Ok G.
Proof.
  intros Lb P EU Lw TE Hz. pose proof TE as (LU & HU & HO & HE).
  cbn [car fring RField RRing c0 c1 cmul cadd] in LU, HU, HO, HE.
  set (s := if Rltb sign 0 then -1 else 1).
  destruct b as [|b0 b]; [simpl in Lb; lia|].
  destruct U as [|u0 U]; [simpl in LU; lia|].
  unfold build_gf_coeff_sp. rewrite EU. cbn [bind]. unfold build_gf_coeff_cf. cbn [map].
  assert (El : (if Rltb sign 0 then map (fun e => e * (-1)) (map (fun e => e - Ei) w) else map (fun e => e - Ei) w) = map (fun x => s * (x - Ei)) w).
  { unfold s. destruct (Rltb sign 0); rewrite ?map_map; apply map_ext; intros; ring. }
  assert (Ea : (if Rltb sign 0 then map (fun e => e * (-1)) (map (fun e => e - Ei) a) else map (fun e => e - Ei) a) = map (fun x => s * (x - Ei)) a).
  { unfold s. destruct (Rltb sign 0); rewrite ?map_map; apply map_ext; intros; ring. }
  rewrite El, Ea.
  set (a' := map (fun x => s * (x - Ei)) a). set (b' := map (fun x => s * x) (b0 :: b)).
  assert (La : length a' = length a) by (unfold a'; apply map_length).
  destruct (cf_value (zpoint e eta) a' b' (b0 * b0 * ex) Hz) as (G & EG & HG & _); [unfold b'; rewrite map_length; lia|lia|].
  assert (Hs : s * s = 1) by (unfold s; destruct (Rltb sign 0); ring).
  assert (Eb : skipn 1 (sqs b') = map (fun x => x * x) b).
  { unfold b', sqs. simpl. rewrite map_map. apply map_ext. intros x. transitivity (s * s * (x * x)); [ring|]. rewrite Hs. ring. }
  rewrite Eb in EG.
  exists (map (fun x => s * (x - Ei)) w), (map (fun u => (u * b0) * (u * b0) * ex) u0), a', (b0 * b0 * ex :: map (fun x => x * x) b), G.
  split; [reflexivity|]. split; [reflexivity|]. split; [|exact EG].
  assert (L0 : length u0 = length w) by (apply HU; left; reflexivity).
  unfold k_sp. rewrite !map_length, L0, Nat.eqb_refl. f_equal.
  pose proof (spectral_solves s Ei a (b0 :: b) w (u0 :: U) (zpoint e eta) Lw TE Hz) as SS. fold a' b' in SS. rewrite <- La in SS.
  rewrite (HG _ SS). rewrite La, Lw. rewrite <- csum_scal_l. apply csum_ext. intros r Hr.
  set (z := zpoint e eta) in *.
  replace (nth r (map (fun x => s * (x - Ei)) w) 0) with (s * (nth r w 0 - Ei)).
  2:{ rewrite (nth_indep (map (fun x => s * (x - Ei)) w) 0 (s * (0 - Ei))) by (rewrite map_length; lia). now rewrite (map_nth (fun x => s * (x - Ei)) w 0). }
  replace (nth r (map (fun u => u * b0 * (u * b0) * ex) u0) 0) with (b0 * b0 * ex * (nth r u0 0 * nth r u0 0)).
  2:{ rewrite (nth_indep (map (fun u => u * b0 * (u * b0) * ex) u0) 0 ((fun u => u * b0 * (u * b0) * ex) 0)) by (rewrite map_length; lia).
      rewrite (map_nth (fun u => u * b0 * (u * b0) * ex) u0 0). ring. }
  unfold ent. simpl nth. unfold cxdiv. rewrite (rcx_mul (b0 * b0 * ex)). cbn [car fring RField RRing c0]. ring.
Qed.

(** Lanczos data with zero residual: the fraction is the diagonal element of the
    resolvent of the full matrix. *)
Section Exhausted.
Variables (d : nat) (M : nat -> nat -> R) (mv : list R -> res (list R)) (phi0 a b : list R) (vs : list (list R)) (rv : list R).
Hypothesis HM : matrix_symmetric d M.
Hypothesis Hmv : multiplies d M mv.
Hypothesis HL : @lanczos RField d mv phi0 a b vs rv.
Hypothesis Hn : (0 < length vs)%nat.
Hypothesis Hr : forall i, (i < d)%nat -> nth i rv 0 = 0.

Lemma exhausted_cf z x : im z <> 0 -> solves d M z x (fun i => rcx (nth i phi0 0)) ->
  cf_pyx z a (sqs b) = Ok (csum d (fun i => rcx (nth i phi0 0) *c x i)).
Proof.
  intros Hz Hx. destruct HL as [La Lb Lvs Lb0 Lfirst Lorth Lnz Lrec Ltri Lres].
  cbn [car fring RField RRing c0 c1 cmul cadd] in *. set (n := length vs) in *.
  destruct b as [|b0 b'] eqn:Eqb; [simpl in Lb; lia|]. rewrite <- Eqb in *.
  destruct (cf_value z a b (b0 * b0) Hz) as (G & EG & HG & (y & Hy)); [lia|lia|].
  assert (sqs b = b0 * b0 :: skipn 1 (sqs b)) as Es by (rewrite Eqb; reflexivity).
  rewrite Es, EG. f_equal. rewrite (HG y Hy). assert (B0 : nth 0 b 0 = b0) by (rewrite Eqb; reflexivity).
  set (v := @ent RField vs). fold v in Lfirst.
  set (X := fun i => rcx b0 *c csum n (fun k => rcx (v k i) *c y k)).
  assert (SX : solves d M z X (fun i => rcx (nth i phi0 0))).
  { intros i Hi. unfold X.
    assert (R : forall k, (k < n)%nat -> rsum d (fun j => M i j * v k j) = rsum n (fun l => @tri RField a b l k * v l i)).
    { intros k Hk. destruct (Hmv (nth k vs [])) as (w & Ew & Lw & Hw); [apply Lvs; exact Hk|].
      destruct (Lrec k Hk) as (w' & Ew' & _ & Hw'). rewrite Ew in Ew'. injection Ew' as <-.
      unfold v at 1. unfold ent. etransitivity; [symmetry; apply Hw; exact Hi|]. rewrite (Hw' i Hi).
      pose proof (tri_sum RField a b n k (fun l => v l i) Hk) as TS. cbn [car fring RField RRing c0 cmul cadd] in TS.
      etransitivity; [|symmetry; exact TS]. rewrite Hr by exact Hi. reflexivity. }
    rewrite (csum_ext d _ (fun j => csum n (fun k => (rcx b0 *c y k) *c rcx (M i j * v k j)))).
    2:{ intros j Hj. rewrite <- !csum_scal_l. apply csum_ext. intros k _. rewrite rcx_mul. ring. }
    rewrite csum_swap.
    rewrite (csum_ext n (fun k => csum d _) (fun k => csum n (fun l => (rcx b0 *c rcx (v l i)) *c (rcx (@tri RField a b l k) *c y k)))).
    2:{ intros k Hk. rewrite csum_scal_l, <- rcx_sum, R, rcx_sum by exact Hk. rewrite <- csum_scal_l. apply csum_ext. intros l _. rewrite rcx_mul. ring. }
    rewrite csum_swap.
    rewrite <- !csum_scal_l, <- csum_sub.
    rewrite (csum_ext n _ (fun l => (rcx b0 *c rcx (v l i)) *c e0 l)).
    2:{ intros l Hl. rewrite csum_scal_l. rewrite <- (Hy l) by lia. rewrite La. fold n. ring. }
    rewrite (csum_single n _ 0%nat Hn).
    2:{ intros j _ N. unfold e0. destruct (Nat.eqb_spec j 0); [congruence|ring]. }
    unfold e0. simpl. rewrite (Lfirst i Hi), B0, rcx_mul. ring. }
  rewrite (csum_ext d _ (fun i => rcx (nth i phi0 0) *c X i)).
  2:{ intros i Hi. f_equal. now apply (resolvent_unique d M z x X _ HM Hz Hx SX). }
  unfold X.
  rewrite (csum_ext d _ (fun i => csum n (fun k => (rcx (b0 * b0) *c y k) *c rcx (v 0%nat i * v k i)))).
  2:{ intros i Hi. rewrite <- !csum_scal_l. apply csum_ext. intros k _. rewrite (Lfirst i Hi), B0. rewrite !rcx_mul. ring. }
  rewrite csum_swap.
  rewrite (csum_ext n _ (fun k => (rcx (b0 * b0) *c y k) *c (if (0 =? k)%nat then rcx 1 else rcx 0))).
  2:{ intros k Hk. rewrite csum_scal_l, <- rcx_sum. f_equal. specialize (Lorth 0%nat k Hn Hk). unfold ip in Lorth.
      etransitivity; [apply (f_equal rcx); exact Lorth|]. destruct k; reflexivity. }
  rewrite (csum_single n _ 0%nat Hn).
  2:{ intros j _ N. destruct j; [congruence|]. simpl. ring. }
  simpl. ring.
Qed.
End Exhausted.

(** There are at most [d] coefficients, and with [d] of them the residual vanishes. *)
Theorem lanczos_dim d mv (phi0 a b : list R) vs (rv : list R) : @lanczos RField d mv phi0 a b vs rv ->
  (length vs <= d)%nat /\ (length vs = d -> forall i, (i < d)%nat -> nth i rv 0 = 0).
Proof.
  intros [La Lb Lvs Lb0 Lfirst Lorth Lnz Lrec Ltri Lres].
  cbn [car fring RField RRing c0 c1 cmul cadd] in *. set (n := length vs) in *.
  assert (HO : orthonormal d n (@ent RField vs)).
  { intros j k Hj Hk. exact (Lorth j k Hj Hk). }
  split; [exact (orthonormal_dim _ _ _ HO)|]. intros E i Hi.
  pose proof (orthonormal_complete d n _ HO E) as OC.
  assert (Z : rsum d (fun j => (if (i =? j)%nat then 1 else 0) * nth j rv 0) = 0).
  { rewrite (rsum_ext d _ (fun j => rsum n (fun k => @ent RField vs k i * (@ent RField vs k j * nth j rv 0)))).
    2:{ intros j Hj. rewrite <- (OC i j Hi Hj). rewrite <- rsum_scal_r. rewrite E. apply rsum_ext. intros; ring. }
    rewrite rsum_swap. apply rsum_0. intros k Hk. rewrite rsum_scal_l. destruct Lres as [_ Lr].
    assert (rsum d (fun j => @ent RField vs k j * nth j rv 0) = 0) as -> by exact (Lr k Hk). ring. }
  rewrite (rsum_single d _ i Hi) in Z.
  2:{ intros j _ N. destruct (Nat.eqb_spec i j); [congruence|ring]. }
  rewrite Nat.eqb_refl in Z. lra.
Qed.
