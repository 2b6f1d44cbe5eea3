(** The continued fraction is a resolvent element. *)
From Coq Require Import List Arith Reals Lra Lia Psatz Ring Field.
From Verif Require Import Base RBase RLin CBase LanczosSpec LanczosSolveProofs CfModel CfSpec.
Import ListNotations.
Local Open Scope R_scope.
Add Field Cxf : cx_field.
Notation "x +c y" := (cxadd x y) (at level 50, left associativity).
Notation "x -c y" := (cxsub x y) (at level 50, left associativity).
Notation "x *c y" := (cxmul x y) (at level 40, left associativity).
Notation "x /c y" := (cxdiv x y) (at level 40, left associativity).

(** The fraction as a recursion over the coefficients. *)
Fixpoint cfl (z : cx) (l : list (R * R)) : cx :=
  match l with [] => rcx 0 | (a, b) :: l => rcx b /c (z -c rcx a -c cfl z l) end.

Lemma calc_cfl z a b : length a = length b -> calc z (length a) (map rcx a) (map rcx b) = Ok (cfl z (combine a b)).
Proof.
  unfold calc. intros H.
  assert (G : forall k n, (k + n = length a)%nat ->
    foldM (fun r i => do ai <- ptr (map rcx a) i; do bi <- ptr (map rcx b) i; Ok (bi /c (z -c ai -c r))) (rev (seq k n)) (rcx 0)
    = Ok (cfl z (combine (skipn k a) (skipn k b)))).
  { intros k n. revert k. induction n as [|n IH]; intros k Hk.
    - rewrite !skipn_all2 by lia. reflexivity.
    - simpl seq. simpl rev.
      assert (FA : forall (f : cx -> nat -> res cx) l1 l2 r, foldM f (l1 ++ l2) r = do r' <- foldM f l1 r; foldM f l2 r').
      { clear. induction l1; simpl; auto. intros. destruct (f r a); simpl; auto. }
      rewrite FA, (IH (S k)) by lia. cbn [bind foldM].
      destruct (nth_error a k) as [ak|] eqn:Ea; [|apply nth_error_None in Ea; lia].
      destruct (nth_error b k) as [bk|] eqn:Eb; [|apply nth_error_None in Eb; lia].
      unfold ptr. rewrite !nth_error_map, Ea, Eb. cbn [option_map bind].
      assert (SK : forall (l : list R) x, nth_error l k = Some x -> skipn k l = x :: skipn (S k) l).
      { clear. induction k as [|k IH]; intros [|y l] x E; try discriminate; [injection E as ->; reflexivity|].
        change (skipn (S k) (y :: l)) with (skipn k l). rewrite (IH _ _ E). reflexivity. }
      rewrite (SK _ _ Ea), (SK _ _ Eb). reflexivity. }
  specialize (G 0%nat (length a) eq_refl). simpl in G. exact G.
Qed.

(** Sign of the imaginary part; the denominators do not vanish. *)
Lemma im_sub z a r : im (z -c rcx a -c r) = im z - im r.
Proof. unfold cxsub, cxadd, cxopp, rcx, im, re; simpl. ring. Qed.
Lemma im_rdiv b D : im (rcx b /c D) = - (b * im D) / cxn2 D.
Proof. unfold cxdiv, cxmul, cxinv, rcx, re, im; simpl. unfold Rdiv. ring. Qed.
Lemma cfl_im z l : im z <> 0 -> (forall p, In p l -> 0 <= snd p) ->
  im (cfl z l) * im z <= 0 /\ (forall p l', l = p :: l' -> 0 < snd p -> im (cfl z l) * im z < 0).
Proof.
  intros Hz. induction l as [|[a b] l IH]; intros Hp; [split; [simpl; lra|discriminate]|].
  destruct IH as [IH _]; [intros p Ip; apply Hp; simpl; auto|]. simpl cfl.
  assert (Hb : 0 <= b) by (apply (Hp (a, b)); simpl; auto).
  set (D := z -c rcx a -c cfl z l). assert (HD : im D = im z - im (cfl z l)) by apply im_sub.
  assert (P : 0 < im D * im z).
  { rewrite HD. assert (0 < im z * im z) by nra. nra. }
  assert (N : 0 < cxn2 D) by (unfold cxn2; assert (im D <> 0) by nra; nra).
  rewrite im_rdiv. split.
  - replace (- (b * im D) / cxn2 D * im z) with (- ((b * (im D * im z)) / cxn2 D)) by (field; lra).
    assert (0 <= b * (im D * im z) / cxn2 D) by (apply Rmult_le_pos; [nra|left; now apply Rinv_0_lt_compat]). lra.
  - intros p l' [= <- <-] Hb'. simpl in Hb'.
    replace (- (b * im D) / cxn2 D * im z) with (- ((b * (im D * im z)) / cxn2 D)) by (field; lra).
    assert (0 < b * (im D * im z) / cxn2 D) by (apply Rmult_lt_0_compat; [nra|now apply Rinv_0_lt_compat]). lra.
Qed.
Lemma cfl_den z a l : im z <> 0 -> (forall p, In p l -> 0 <= snd p) -> z -c rcx a -c cfl z l <> rcx 0.
Proof.
  intros Hz Hp. destruct (cfl_im z l Hz Hp) as [H _]. apply im_neq. rewrite im_sub. nra.
Qed.

(** One row of (z - T) x for the tridiagonal matrix. *)
Definition trow (z : cx) (a b : list R) (n : nat) (x : nat -> cx) (i : nat) : cx :=
  z *c x i -c ((if (S i <? n)%nat then rcx (nth (S i) b 0) *c x (S i) else rcx 0) +c rcx (nth i a 0) *c x i
    +c match i with O => rcx 0 | S i' => rcx (nth i b 0) *c x i' end).

Lemma tri_comm (a b : list R) i j : @tri RField a b i j = @tri RField a b j i.
Proof.
  unfold tri. destruct (Nat.eqb_spec i j) as [->|]; [now rewrite Nat.eqb_refl|].
  destruct (Nat.eqb_spec j i); [lia|]. destruct (Nat.eqb_spec j (S i)), (Nat.eqb_spec i (S j)); try lia; reflexivity.
Qed.
Lemma rcx_tri a b i j : rcx (@tri RField a b i j) = @tri CxField (map rcx a) (map rcx b) i j.
Proof.
  unfold tri. cbn [car fring RField CxField c0 RRing CxRing].
  destruct (i =? j)%nat; [symmetry; apply (map_nth rcx)|]. destruct (j =? S i)%nat; [symmetry; apply (map_nth rcx)|].
  destruct (i =? S j)%nat; [symmetry; apply (map_nth rcx)|reflexivity].
Qed.
Lemma trow_eq z a b n x i : (i < n)%nat ->
  z *c x i -c csum n (fun j => rcx (@tri RField a b i j) *c x j) = trow z a b n x i.
Proof.
  intros Hi. unfold trow. f_equal. unfold csum.
  rewrite (nsum_ext CxRing n _ (fun j => cmul CxField (@tri CxField (map rcx a) (map rcx b) j i) (x j))).
  2:{ intros j Hj. rewrite tri_comm, rcx_tri. reflexivity. }
  pose proof (tri_sum CxField (map rcx a) (map rcx b) n i x Hi) as E. cbn [fring CxField car CxRing c0 cadd cmul] in E.
  etransitivity; [exact E|]. rewrite !(map_nth rcx). destruct i; reflexivity.
Qed.

Definition sqs (b : list R) : list R := map (fun x => x * x) b.
Lemma sqs_nonneg (a b : list R) p : In p (combine a (sqs b)) -> 0 <= snd p.
Proof.
  destruct p as [u v]. intros I. apply in_combine_r in I. apply in_map_iff in I. destruct I as (x & <- & _). simpl. nra.
Qed.

Lemma cx_sub0 x y : x -c y = rcx 0 -> x = y.
Proof. intros H. transitivity (x -c y +c y); [ring|]. rewrite H. ring. Qed.

(** The solution of the tridiagonal system with right-hand side (c, 0, 0, ...). *)
Lemma trow_shift z a0 a b0 b n x i : (i < n)%nat ->
  trow z (a0 :: a) (b0 :: b) (S n) x (S i) = trow z a b n (fun k => x (S k)) i -c
    (if (i =? 0)%nat then rcx (nth 0 b 0) *c x 0%nat else rcx 0).
Proof.
  intros Hi. unfold trow. simpl nth. change (S (S i) <? S n)%nat with (S i <? n)%nat.
  destruct i as [|i]; simpl Nat.eqb; destruct (_ <? _)%nat; cbn [nth]; ring.
Qed.
Lemma tri_solution z : im z <> 0 -> forall a b c, length b = length a -> (0 < length a)%nat ->
  (exists x, forall i, (i < length a)%nat -> trow z a b (length a) x i = if (i =? 0)%nat then c else rcx 0) /\
  (forall x, (forall i, (i < length a)%nat -> trow z a b (length a) x i = if (i =? 0)%nat then c else rcx 0) ->
     x 0%nat *c (z -c rcx (nth 0 a 0) -c cfl z (combine (skipn 1 a) (sqs (skipn 1 b)))) = c).
Proof.
  intros Hz. induction a as [|a0 a IH]; intros b c L P; [simpl in P; lia|].
  destruct b as [|b0 b]; [discriminate|]. injection L as L. simpl skipn. simpl (nth 0 (a0 :: a) 0).
  pose proof (cfl_den z a0 (combine a (sqs b)) Hz (sqs_nonneg a b)) as HD.
  destruct a as [|a1 a].
  - simpl length in *. destruct b; [|discriminate]. simpl combine in *. simpl cfl in *. split.
    + exists (fun _ => c /c (z -c rcx a0 -c rcx 0)). intros i Hi. assert (i = 0%nat) as -> by lia.
      unfold trow. simpl. field. intros C. apply HD. rewrite C. ring.
    + intros x Hx. specialize (Hx 0%nat ltac:(lia)). simpl in Hx. unfold trow in Hx. simpl in Hx.
      rewrite <- Hx. ring.
  - destruct b as [|b1 b]; [discriminate|].
    pose proof (cfl_den z a1 (combine a (sqs b)) Hz (sqs_nonneg a b)) as HD1.
    set (G := cfl z (combine a (sqs b))) in *.
    assert (EC : cfl z (combine (a1 :: a) (sqs (b1 :: b))) = rcx (b1 * b1) /c (z -c rcx a1 -c G)) by reflexivity.
    rewrite EC in *.
    set (D := z -c rcx a0 -c rcx (b1 * b1) /c (z -c rcx a1 -c G)) in *.
    split.
    + destruct (IH (b1 :: b) (rcx b1 *c (c /c D)) L ltac:(simpl; lia)) as [(y & Hy) U].
      specialize (U y Hy). simpl in U. fold G in U.
      exists (fun i => match i with O => c /c D | S i => y i end). intros i Hi.
      destruct i as [|i].
      * unfold trow. simpl length in *. change (1 <? S (S (length a)))%nat with true. simpl nth. cbn [nth Nat.eqb].
        assert (Y0 : y 0%nat = rcx b1 *c (c /c D) /c (z -c rcx a1 -c G)) by (rewrite <- U; field; exact HD1).
        rewrite Y0. assert (EE : (c /c D) *c D = c) by (field; exact HD). set (E := c /c D) in *.
        rewrite <- EE. unfold D. rewrite rcx_mul. field. exact HD1.
      * simpl length in *. rewrite trow_shift by lia. simpl (S i =? 0)%nat. rewrite Hy by lia. simpl nth.
        destruct (Nat.eqb_spec i 0); [ring|ring].
    + intros x Hx. destruct (IH (b1 :: b) (rcx b1 *c x 0%nat) L ltac:(simpl; lia)) as [_ U].
      specialize (U (fun k => x (S k))). simpl in U. fold G in U.
      assert (Y0 : x 1%nat *c (z -c rcx a1 -c G) = rcx b1 *c x 0%nat).
      { apply U. intros i Hi. simpl length in *. specialize (Hx (S i) ltac:(lia)). rewrite trow_shift in Hx by lia. simpl (S i =? 0)%nat in Hx. simpl (nth 0 (b1 :: b) 0) in Hx.
        destruct (i =? 0)%nat.
        - now apply cx_sub0.
        - now apply cx_sub0. }
      assert (X1 : x 1%nat = rcx b1 *c x 0%nat /c (z -c rcx a1 -c G)) by (rewrite <- Y0; field; exact HD1).
      specialize (Hx 0%nat ltac:(simpl; lia)). simpl in Hx. unfold trow in Hx. simpl length in Hx.
      change (1 <? S (S (length a)))%nat with true in Hx. simpl in Hx. rewrite X1 in Hx. rewrite <- Hx.
      unfold D. rewrite rcx_mul. field. exact HD1.
Qed.

(** The fraction with first numerator [B0] and the squares of [b] after it. *)
Theorem cf_value z a b B0 : im z <> 0 -> length b = length a -> (0 < length a)%nat ->
  exists G, cf_pyx z a (B0 :: skipn 1 (sqs b)) = Ok G /\
  (forall x, solves (length a) (@tri RField a b) z x e0 -> G = rcx B0 *c x 0%nat) /\
  (exists x, solves (length a) (@tri RField a b) z x e0).
Proof.
  intros Hz L P. destruct a as [|a0 a]; [simpl in P; lia|]. destruct b as [|b0 b]; [discriminate|].
  exists (cfl z (combine (a0 :: a) (B0 :: sqs b))). simpl skipn. split; [|split].
  - unfold cf_pyx. apply calc_cfl. simpl. unfold sqs. rewrite map_length. simpl in L. lia.
  - intros x Hx. destruct (tri_solution z Hz (a0 :: a) (b0 :: b) (rcx 1) L P) as [_ U].
    specialize (U x). simpl in U. assert (E := U (fun i Hi => eq_trans (eq_sym (trow_eq z _ _ _ x i Hi)) (Hx i Hi))).
    simpl. pose proof (cfl_den z a0 (combine a (sqs b)) Hz (sqs_nonneg a b)) as HD.
    assert (X0 : x 0%nat = rcx 1 /c (z -c rcx a0 -c cfl z (combine a (sqs b)))) by (rewrite <- E; field; exact HD).
    rewrite X0. field. exact HD.
  - destruct (tri_solution z Hz (a0 :: a) (b0 :: b) (rcx 1) L P) as [(x & Hx) _]. exists x. intros i Hi.
    rewrite trow_eq by exact Hi. apply Hx. exact Hi.
Qed.
Theorem cf_im z a b G : im z <> 0 -> length b = length a -> cf_pyx z a (sqs b) = Ok G ->
  im G * im z <= 0 /\ (nth 0 b 0 <> 0 -> im G * im z < 0).
Proof.
  intros Hz L E. unfold cf_pyx in E. destruct a as [|a0 a]; [discriminate|]. destruct b as [|b0 b]; [discriminate|].
  change (sqs (b0 :: b)) with (b0 * b0 :: sqs b) in E. rewrite calc_cfl in E by (simpl in *; unfold sqs; rewrite map_length; congruence).
  injection E as <-. change (b0 * b0 :: sqs b) with (sqs (b0 :: b)).
  destruct (cfl_im z (combine (a0 :: a) (sqs (b0 :: b))) Hz (sqs_nonneg _ _)) as [H1 H2].
  split; [exact H1|]. intros Hb. simpl in Hb. eapply H2; [reflexivity|]. simpl. nra.
Qed.

(** z - T is injective for a symmetric real matrix and z off the real axis. *)
Lemma resolvent_unique n T z x y f : matrix_symmetric n T -> im z <> 0 -> solves n T z x f -> solves n T z y f ->
  forall i, (i < n)%nat -> x i = y i.
Proof.
  intros HT Hz Hx Hy.
  assert (S : forall i, (i < n)%nat -> z *c (x i -c y i) = csum n (fun j => rcx (T i j) *c (x j -c y j))).
  { intros i Hi. pose proof (Hx i Hi) as E1. rewrite <- (Hy i Hi) in E1.
    rewrite (csum_ext n (fun j => rcx (T i j) *c (x j -c y j)) (fun j => (rcx (T i j) *c x j) -c (rcx (T i j) *c y j))) by (intros; ring).
    rewrite csum_sub. set (A := csum n (fun j => rcx (T i j) *c x j)) in *. set (B := csum n (fun j => rcx (T i j) *c y j)) in *.
    transitivity (z *c x i -c A +c A -c z *c y i); [ring|]. rewrite E1. ring. }
  set (p := fun i => re (x i -c y i)). set (q := fun i => im (x i -c y i)).
  assert (S1 : forall i, (i < n)%nat -> re z * p i - im z * q i = rsum n (fun j => T i j * p j)).
  { intros i Hi. pose proof (f_equal re (S i Hi)) as E. rewrite csum_re in E. etransitivity; [|etransitivity; [exact E|]]; [reflexivity|].
    apply rsum_ext. intros j _. unfold p. destruct (x j -c y j); unfold cxmul, rcx, re, im; simpl; ring. }
  assert (S2 : forall i, (i < n)%nat -> re z * q i + im z * p i = rsum n (fun j => T i j * q j)).
  { intros i Hi. pose proof (f_equal im (S i Hi)) as E. rewrite csum_im in E. etransitivity; [|etransitivity; [exact E|]]; [reflexivity|].
    apply rsum_ext. intros j _. unfold q. destruct (x j -c y j); unfold cxmul, rcx, re, im; simpl; ring. }
  assert (Z : rsum n (fun i => p i * p i + q i * q i) = 0).
  { apply (Rmult_eq_reg_l (im z)); [|exact Hz]. rewrite Rmult_0_r, <- rsum_scal_l.
    rewrite (rsum_ext n _ (fun i => p i * rsum n (fun j => T i j * q j) - q i * rsum n (fun j => T i j * p j))).
    2:{ intros i Hi. rewrite <- S1, <- S2 by auto. ring. }
    rewrite rsum_sub.
    rewrite (rsum_ext n (fun i => p i * _) (fun i => rsum n (fun j => p i * T i j * q j))) by (intros; rewrite <- rsum_scal_l; apply rsum_ext; intros; ring).
    rewrite (rsum_ext n (fun i => q i * _) (fun i => rsum n (fun j => q i * T i j * p j))) by (intros; rewrite <- rsum_scal_l; apply rsum_ext; intros; ring).
    rewrite (rsum_swap n n (fun i j => q i * T i j * p j)).
    rewrite (rsum_ext n (fun i => rsum n (fun j => q j * T j i * p i)) (fun i => rsum n (fun j => p i * T i j * q j))); [lra|].
    intros i Hi. apply rsum_ext. intros j Hj. rewrite (HT j i) by auto. ring. }
  intros i Hi.
  assert (E : p i * p i + q i * q i = 0) by (apply (rsum_nonneg_0 n (fun i => p i * p i + q i * q i)); auto; intros; nra).
  assert (p i = 0 /\ q i = 0) as [Ep Eq] by (split; nra). unfold p, q in *.
  unfold cxsub, cxadd, cxopp, re, im in Ep, Eq. simpl in Ep, Eq. apply cx_eq; unfold re, im; lra.
Qed.
