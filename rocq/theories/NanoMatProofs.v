(** Diagonal elements of inverses: Schur complement and causality. *)
From Coq Require Import Reals List Arith Lia Lra Psatz Bool.
From Verif Require Import Base RBase RLin CBase NanoSpec.
Import ListNotations.
Local Open Scope R_scope.
Add Ring cxr : cx_ring.
Add Field cxf : cx_field.

Lemma csum_one n i f : (i < n)%nat -> csum n (fun j => cxmul (delta i j) (f j)) = f i.
Proof.
  intros H. rewrite (csum_single n _ i H).
  - unfold delta. rewrite Nat.eqb_refl. ring.
  - intros j _ E. unfold delta. destruct (Nat.eqb_spec i j); [congruence|ring].
Qed.
Lemma csum_one' n i f : (i < n)%nat -> csum n (fun j => cxmul (f j) (delta j i)) = f i.
Proof.
  intros H. rewrite (csum_single n _ i H).
  - unfold delta. rewrite Nat.eqb_refl. ring.
  - intros j _ E. unfold delta. destruct (Nat.eqb_spec j i); [congruence|ring].
Qed.
Lemma csum_scal_r n c f : csum n (fun i => cxmul (f i) c) = cxmul (csum n f) c.
Proof. rewrite (csum_ext n _ (fun i => cxmul c (f i))) by (intros; ring). rewrite csum_scal_l. ring. Qed.
Lemma split_at n i f : (i < n)%nat -> csum n f = cxadd (f i) (csum n (fun l => if (l =? i)%nat then rcx 0 else f l)).
Proof.
  intros H. transitivity (csum n (fun l => cxadd (cxmul (delta i l) (f l)) (if (l =? i)%nat then rcx 0 else f l))).
  - apply csum_ext. intros l _. unfold delta. rewrite (Nat.eqb_sym i l). destruct (l =? i)%nat; ring.
  - rewrite csum_add, (csum_one n i f H). reflexivity.
Qed.

(** If x w = s e_i then w_j = g_ji s. *)
Lemma solve_unit n x g i w s : inverse n x g -> (i < n)%nat ->
  (forall j, (j < n)%nat -> csum n (fun l => cxmul (x j l) (w l)) = cxmul (delta j i) s) ->
  forall j, (j < n)%nat -> w j = cxmul (g j i) s.
Proof.
  intros I Hi E j Hj.
  assert (L : csum n (fun k => cxmul (g j k) (csum n (fun l => cxmul (x k l) (w l)))) = w j).
  { rewrite (csum_ext n _ (fun k => csum n (fun l => cxmul (cxmul (g j k) (x k l)) (w l)))).
    2:{ intros k _. rewrite <- csum_scal_l. apply csum_ext. intros; ring. }
    rewrite csum_swap. rewrite (csum_ext n _ (fun l => cxmul (delta j l) (w l))).
    2:{ intros l Hl. rewrite csum_scal_r. now rewrite (proj2 (I j l Hj Hl)). }
    now apply csum_one. }
  rewrite <- L. rewrite (csum_ext n _ (fun k => cxmul (cxmul (g j k) s) (delta k i))).
  - rewrite (csum_one' n i (fun k => cxmul (g j k) s)) by auto. reflexivity.
  - intros k Hk. rewrite E by auto. ring.
Qed.

Lemma inverse_unique n x g g' : inverse n x g -> inverse n x g' -> forall i j, (i < n)%nat -> (j < n)%nat -> g i j = g' i j.
Proof.
  intros I I' i j Hi Hj. symmetry. rewrite (solve_unit n x g j (fun l => g' l j) (rcx 1) I Hj); auto; [ring|].
  intros k Hk. rewrite (proj1 (I' k j Hk Hj)). ring.
Qed.
Lemma inverse_ext n x x' g : (forall i j, (i < n)%nat -> (j < n)%nat -> x i j = x' i j) -> inverse n x g -> inverse n x' g.
Proof.
  intros E I i j Hi Hj. destruct (I i j Hi Hj) as [A B]. split; [rewrite <- A|rewrite <- B]; apply csum_ext; intros l Hl; rewrite E; auto.
Qed.

(** The Schur complement. *)
Lemma schur n x g i y : inverse n x g -> (i < n)%nat -> through n x i y ->
  cxmul (g i i) (cxsub (x i i) (csum n (fun l => if (l =? i)%nat then rcx 0 else cxmul (x i l) (y l)))) = rcx 1.
Proof.
  intros I Hi T. set (s := cxsub _ _). set (w := fun l => if (l =? i)%nat then rcx 1 else cxopp (y l)).
  assert (W : w i = cxmul (g i i) s).
  { apply (solve_unit n x g i w s I Hi); auto. intros j Hj. rewrite (split_at n i) by auto. unfold w. rewrite Nat.eqb_refl.
    rewrite (csum_ext n _ (fun l => cxmul (cxopp (rcx 1)) (if (l =? i)%nat then rcx 0 else cxmul (x j l) (y l)))).
    2:{ intros l _. destruct (l =? i)%nat; ring. }
    rewrite csum_scal_l. unfold delta. destruct (Nat.eqb_spec j i) as [->|E].
    - unfold s. ring.
    - rewrite T by auto. ring. }
  rewrite <- W. unfold w. now rewrite Nat.eqb_refl.
Qed.
Lemma through_exists n x g i : inverse n x g -> (i < n)%nat -> g i i <> rcx 0 -> through n x i (fun l => cxopp (cxdiv (g l i) (g i i))).
Proof.
  intros I Hi N j Hj E. pose proof (proj1 (I j i Hj Hi)) as A. rewrite (split_at n i) in A by auto.
  rewrite (csum_ext n _ (fun l => cxmul (cxopp (cxinv (g i i))) (if (l =? i)%nat then rcx 0 else cxmul (x j l) (g l i)))).
  2:{ intros l _. destruct (l =? i)%nat; [ring|]. unfold cxdiv. ring. }
  rewrite csum_scal_l. unfold delta in A. destruct (Nat.eqb_spec j i); [congruence|].
  set (t := csum n _) in *. assert (t = cxopp (cxmul (x j i) (g i i))) as ->.
  { transitivity (cxsub (cxadd (cxmul (x j i) (g i i)) t) (cxmul (x j i) (g i i))); [ring|]. rewrite A. ring. }
  field. auto.
Qed.

(** Permutations of the sites that leave x unchanged leave the inverse unchanged. *)
Lemma symmetric_sites n x g (p q : nat -> nat) : inverse n x g ->
  (forall i, (i < n)%nat -> (p i < n)%nat /\ (q i < n)%nat /\ q (p i) = i /\ p (q i) = i) ->
  (forall i j, (i < n)%nat -> (j < n)%nat -> x (p i) (p j) = x i j) ->
  forall i j, (i < n)%nat -> (j < n)%nat -> g (p i) (p j) = g i j.
Proof.
  intros I P X i j Hi Hj.
  assert (R : forall f, csum n (fun l => f (p l)) = csum n f).
  { intros f. transitivity (csum n (fun l => csum n (fun k => cxmul (delta (p l) k) (f k)))).
    - apply csum_ext. intros l Hl. symmetry. apply csum_one. now apply P.
    - rewrite csum_swap. apply csum_ext. intros k Hk.
      rewrite (csum_ext n _ (fun l => cxmul (delta (q k) l) (f k))).
      + now rewrite (csum_one n (q k) (fun _ => f k)) by now apply P.
      + intros l Hl. f_equal. unfold delta. destruct (P l Hl) as (_ & _ & E1 & E2), (P k Hk) as (_ & _ & E3 & E4).
        destruct (Nat.eqb_spec (p l) k), (Nat.eqb_spec (q k) l); congruence. }
  apply (inverse_unique n x (fun i j => g (p i) (p j)) g); auto. clear i j Hi Hj. intros i j Hi Hj.
  destruct (P i Hi) as (Pi & _ & Qi & _), (P j Hj) as (Pj & _ & Qj & _). destruct (I (p i) (p j) Pi Pj) as [A B].
  assert (D : delta (p i) (p j) = delta i j).
  { unfold delta. destruct (Nat.eqb_spec (p i) (p j)) as [E|E], (Nat.eqb_spec i j) as [E'|E']; subst; congruence. }
  rewrite D in A, B. split; [rewrite <- A|rewrite <- B].
  - rewrite <- (R (fun l => cxmul (x (p i) l) (g l (p j)))). apply csum_ext. intros l Hl. now rewrite X.
  - rewrite <- (R (fun l => cxmul (g (p i) l) (x l (p j)))). apply csum_ext. intros l Hl. now rewrite X.
Qed.

(** ** Quadratic forms *)
Lemma conj_mul x y : cxconj (cxmul x y) = cxmul (cxconj x) (cxconj y).
Proof. apply cx_eq; unfold cxconj, cxmul, re, im; cbn [fst snd]; ring. Qed.
Lemma conj_sum n f : cxconj (csum n f) = csum n (fun i => cxconj (f i)).
Proof.
  apply cx_eq; unfold cxconj at 1; unfold re at 1, im at 1; cbn [fst snd]; rewrite ?csum_re, ?csum_im.
  - apply rsum_ext. reflexivity.
  - rewrite <- (Rmult_1_l (rsum _ _)), Ropp_mult_distr_l, <- rsum_scal_l. apply rsum_ext. intros i _. unfold cxconj, im; cbn [fst snd]. ring.
Qed.
Lemma form_hermitian n x v : hermitian n x -> im (form n x v) = 0.
Proof.
  intros H. assert (E : cxconj (form n x v) = form n x v).
  { unfold form. rewrite conj_sum. rewrite (csum_ext n _ (fun i => csum n (fun j => cxmul (cxmul (v i) (cxconj (v j))) (x j i)))).
    2:{ intros i Hi. rewrite conj_mul, conj_sum, <- csum_scal_l. apply csum_ext. intros j Hj. rewrite conj_mul, (H j i) by auto.
        replace (cxconj (cxconj (v i))) with (v i) by (apply cx_eq; unfold cxconj, re, im; cbn [fst snd]; ring). ring. }
    rewrite csum_swap. apply csum_ext. intros i Hi. rewrite <- csum_scal_l. apply csum_ext. intros; ring. }
  apply (f_equal im) in E. change (im (cxconj (form n x v))) with (- im (form n x v)) in E. lra.
Qed.
Lemma form_lat n mu H S Hyb sg z v :
  form n (lat mu H S Hyb sg z) v = cxsub (cxsub (cxsub (cxmul (cxadd z (rcx mu)) (form n S v)) (form n H v)) (form n (Hyb z) v))
    (csum n (fun i => cxmul (rcx (cxn2 (v i))) (sg i))).
Proof.
  unfold form. rewrite <- csum_scal_l, <- !csum_sub. apply csum_ext. intros i Hi.
  transitivity (cxmul (cxconj (v i)) (cxsub (cxsub (cxsub (cxmul (cxadd z (rcx mu)) (csum n (fun j => cxmul (S i j) (v j)))) (csum n (fun j => cxmul (H i j) (v j)))) (csum n (fun j => cxmul (Hyb z i j) (v j)))) (cxmul (sg i) (v i)))).
  - f_equal. rewrite <- csum_scal_l, <- !csum_sub. rewrite <- (csum_one n i (fun j => cxmul (sg i) (v j))) by auto. rewrite <- csum_sub. apply csum_ext. intros j Hj. unfold lat. ring.
  - assert (Q : rcx (cxn2 (v i)) = cxmul (cxconj (v i)) (v i)) by (apply cx_eq; unfold rcx, cxn2, cxconj, cxmul, re, im; cbn [fst snd]; ring). rewrite Q. ring.
Qed.
Lemma form_column n x g i : inverse n x g -> (i < n)%nat -> form n x (fun l => g l i) = cxconj (g i i).
Proof.
  intros I Hi. unfold form. rewrite (csum_ext n _ (fun j => cxmul (cxconj (g j i)) (delta j i))).
  - now rewrite (csum_one' n i (fun j => cxconj (g j i))).
  - intros j Hj. f_equal. now apply I.
Qed.
Lemma im_csum_scaled n (v : nat -> cx) sg : im (csum n (fun i => cxmul (rcx (cxn2 (v i))) (sg i))) = rsum n (fun i => cxn2 (v i) * im (sg i)).
Proof. rewrite csum_im. apply rsum_ext. intros i _. unfold cxmul, rcx, re, im; cbn [fst snd]. ring. Qed.
Lemma column_nonzero n x g i : inverse n x g -> (i < n)%nat -> exists j, (j < n)%nat /\ g j i <> rcx 0.
Proof.
  intros I Hi. destruct (Forall_Exists_dec (fun j => g j i = rcx 0)) with (l := seq 0 n) as [F|E].
  - intros j. destruct (g j i) as [a b]. destruct (Req_EM_T a 0) as [->|N]; [destruct (Req_EM_T b 0) as [->|N]|]; [now left|right..]; intros E; injection E; auto.
  - exfalso. pose proof (proj1 (I i i Hi Hi)) as A. rewrite csum_0 in A.
    + unfold delta in A. rewrite Nat.eqb_refl in A. apply (f_equal re) in A. cbn in A. lra.
    + intros l Hl. rewrite Forall_forall in F. rewrite (F l) by (apply in_seq; lia). ring.
  - apply Exists_exists in E. destruct E as (j & Hj & N). exists j. apply in_seq in Hj. split; [lia|auto].
Qed.
Lemma cxn2_nonneg v : 0 <= cxn2 v.
Proof. unfold cxn2. nra. Qed.

Theorem green_causal n mu H S Hyb sg z g i : inverse n (lat mu H S Hyb sg z) g -> (i < n)%nat ->
  hermitian n H -> hermitian n S -> positive n S -> causal n (Hyb z) -> (forall j, (j < n)%nat -> im (sg j) <= 0) -> 0 < im z ->
  im (g i i) < 0.
Proof.
  intros I Hi HH HS PS CH CS Z. pose proof (form_column _ _ _ _ I Hi) as F. rewrite form_lat in F. set (v := fun l => g l i) in *.
  apply (f_equal im) in F. unfold cxsub in F. 
  assert (E : im (cxconj (g i i)) = - im (g i i)) by reflexivity. rewrite E in F.
  assert (Ad : forall a b, im (cxadd a b) = im a + im b) by reflexivity. assert (Op : forall a, im (cxopp a) = - im a) by reflexivity.
  rewrite !Ad, !Op, im_csum_scaled, (form_hermitian n H v HH) in F.
  assert (M : im (cxmul (cxadd z (rcx mu)) (form n S v)) = im z * re (form n S v)).
  { pose proof (form_hermitian n S v HS) as S0. unfold cxmul. unfold im at 1. cbn [snd]. rewrite S0. rewrite Ad. unfold rcx, im, re; cbn [fst snd]. ring. }
  rewrite M in F. pose proof (PS v (column_nonzero _ _ _ _ I Hi)) as P. pose proof (CH v) as C.
  assert (N : rsum n (fun j => cxn2 (v j) * im (sg j)) <= 0).
  { rewrite <- (rsum_0 n (fun _ => 0)) by auto. apply rsum_le. intros j Hj. pose proof (cxn2_nonneg (v j)). pose proof (CS j Hj). nra. }
  change (rsum n (fun i0 => cxn2 (g i0 i) * im (sg i0))) with (rsum n (fun j => cxn2 (v j) * im (sg j))) in F.
  pose proof (Rmult_lt_0_compat _ _ Z P). lra.
Qed.

Lemma form_identity n v : re (form n delta v) = rsum n (fun i => cxn2 (v i)).
Proof.
  unfold form. rewrite csum_re. apply rsum_ext. intros i Hi. rewrite (csum_one n i v Hi). unfold cxmul, cxconj, cxn2, re, im; cbn [fst snd]. ring.
Qed.
Lemma identity_hermitian n : hermitian n delta.
Proof. intros i j _ _. unfold delta. rewrite Nat.eqb_sym. destruct (j =? i)%nat; apply cx_eq; unfold cxconj, rcx, re, im; cbn [fst snd]; ring. Qed.
Lemma rsum_pick n f i : (i < n)%nat -> (forall j, (j < n)%nat -> 0 <= f j) -> f i <= rsum n f.
Proof.
  intros Hi P. induction n as [|n IH]; [lia|]. rewrite rsum_S. destruct (Nat.eq_dec i n) as [->|N].
  - assert (0 <= rsum n f) by (rewrite <- (rsum_0 n (fun _ => 0)) by auto; apply rsum_le; intros; apply P; lia). lra.
  - pose proof (IH ltac:(lia) ltac:(intros; apply P; lia)). pose proof (P n ltac:(lia)). lra.
Qed.
Lemma identity_positive n : positive n delta.
Proof.
  intros v (i & Hi & N). rewrite form_identity. pose proof (cxn2_pos _ N). pose proof (rsum_pick n (fun j => cxn2 (v j)) i Hi (fun j _ => cxn2_nonneg _)). cbn beta in *. lra.
Qed.

(** The hybridisation of site i: z + mu - H_ii - Sigma_i - 1/G_ii. *)
Definition hybridisation (mu : R) (H : nat -> nat -> cx) (sg : nat -> cx) (z : cx) (i : nat) (G : cx) : cx :=
  cxsub (cxsub (cxsub (cxadd z (rcx mu)) (H i i)) (sg i)) (cxinv G).

Theorem hybridisation_schur n mu H S Hyb sg z g i y : inverse n (lat mu H S Hyb sg z) g -> (i < n)%nat -> S i i = rcx 1 ->
  through n (lat mu H S Hyb sg z) i y ->
  hybridisation mu H sg z i (g i i) = cxadd (Hyb z i i) (csum n (fun l => if (l =? i)%nat then rcx 0 else cxmul (lat mu H S Hyb sg z i l) (y l))).
Proof.
  intros I Hi S1 T. pose proof (schur _ _ _ _ _ I Hi T) as E. set (t := csum n _) in *.
  assert (G : g i i <> rcx 0). { intros G. rewrite G in E. apply (f_equal re) in E. unfold cxmul, re, rcx, im in E; cbn [fst snd] in E. lra. }
  assert (cxinv (g i i) = cxsub (lat mu H S Hyb sg z i i) t) as Q.
  { transitivity (cxmul (cxinv (g i i)) (cxmul (g i i) (cxsub (lat mu H S Hyb sg z i i) t))); [rewrite E; ring|field; auto]. }
  unfold hybridisation. rewrite Q. unfold lat. rewrite S1. unfold delta. rewrite Nat.eqb_refl. ring.
Qed.

Lemma im_inv G : G <> rcx 0 -> im (cxinv G) = - im G / cxn2 G.
Proof. reflexivity. Qed.

Theorem hybridisation_causal n mu H Hyb sg z g i : inverse n (lat mu H delta Hyb sg z) g -> (i < n)%nat ->
  hermitian n H -> causal n (Hyb z) -> (forall j, (j < n)%nat -> im (sg j) <= 0) -> 0 < im z ->
  im (hybridisation mu H sg z i (g i i)) <= 0.
Proof.
  intros I Hi HH CH CS Z.
  pose proof (green_causal n mu H delta Hyb sg z g i I Hi HH (identity_hermitian n) (identity_positive n) CH CS Z) as GN.
  assert (GZ : g i i <> rcx 0) by (intros E; rewrite E in GN; cbn in GN; lra). pose proof (cxn2_pos _ GZ) as NP.
  pose proof (form_column _ _ _ _ I Hi) as F. rewrite form_lat in F. set (v := fun l => g l i) in *.
  apply (f_equal im) in F. unfold cxsub in F.
  assert (E : im (cxconj (g i i)) = - im (g i i)) by reflexivity. rewrite E in F.
  assert (Ad : forall a b, im (cxadd a b) = im a + im b) by reflexivity. assert (Op : forall a, im (cxopp a) = - im a) by reflexivity.
  rewrite !Ad, !Op, im_csum_scaled, (form_hermitian n H v HH) in F.
  assert (M : im (cxmul (cxadd z (rcx mu)) (form n delta v)) = im z * re (form n delta v)).
  { pose proof (form_hermitian n delta v (identity_hermitian n)) as S0. unfold cxmul. unfold im at 1. cbn [snd]. rewrite S0. rewrite Ad. unfold rcx, im, re; cbn [fst snd]. ring. }
  rewrite M, form_identity in F. pose proof (CH v) as C.
  change (rsum n (fun i0 => cxn2 (g i0 i) * im (sg i0))) with (rsum n (fun j => cxn2 (v j) * im (sg j))) in F.
  change (rsum n (fun i0 => cxn2 (g i0 i))) with (rsum n (fun j => cxn2 (v j))) in F.
  assert (N : cxn2 (v i) * (im z - im (sg i)) <= rsum n (fun j => cxn2 (v j) * (im z - im (sg j)))).
  { apply (rsum_pick n (fun j => cxn2 (v j) * (im z - im (sg j)))); auto. intros j Hj. pose proof (cxn2_nonneg (v j)). pose proof (CS j Hj). nra. }
  assert (N' : rsum n (fun j => cxn2 (v j) * (im z - im (sg j))) = im z * rsum n (fun j => cxn2 (v j)) - rsum n (fun j => cxn2 (v j) * im (sg j))).
  { rewrite <- rsum_scal_l, <- rsum_sub. apply rsum_ext. intros j _. ring. }
  unfold hybridisation, cxsub. rewrite !Ad, !Op, im_inv by auto.
  assert (H0 : im (H i i) = 0). { pose proof (f_equal im (HH i i Hi Hi)) as Q. unfold cxconj in Q. unfold im at 2 in Q. cbn [snd] in Q. lra. }
  rewrite H0. change (im (rcx mu)) with 0. change (v i) with (g i i) in N.
  assert (B : (im z - im (sg i)) * cxn2 (g i i) <= - im (g i i)) by nra.
  assert (- im (g i i) / cxn2 (g i i) >= im z - im (sg i)); [|lra].
  apply Rle_ge. apply Rmult_le_reg_r with (cxn2 (g i i)); auto. unfold Rdiv. rewrite Rmult_assoc, Rinv_l by lra. lra.
Qed.

(** An overlap between two sites. *)
Lemma hybridisation_overlap (s mu : R) z : s * s <> 1 -> cxadd z (rcx mu) <> rcx 0 ->
  let S := fun i j => if (i =? j)%nat then rcx 1 else rcx s in
  let x := lat mu (fun _ _ => rcx 0) S (fun _ _ _ => rcx 0) (fun _ => rcx 0) z in
  exists g, inverse 2 x g /\ forall i, (i < 2)%nat ->
    hybridisation mu (fun _ _ => rcx 0) (fun _ => rcx 0) z i (g i i) = cxmul (rcx (s * s)) (cxadd z (rcx mu)).
Proof.
  intros N Z S x. set (w := cxadd z (rcx mu)) in *.
  assert (D : rcx (1 - s * s) <> rcx 0) by (intros E; apply rcx_inj in E; lra).
  assert (Sq : cxsub (rcx 1) (cxmul (rcx s) (rcx s)) = rcx (1 - s * s)) by (apply cx_eq; unfold cxsub, cxadd, cxopp, cxmul, rcx, re, im; cbn [fst snd]; ring).
  exists (fun i j => cxdiv (if (i =? j)%nat then rcx 1 else rcx (- s)) (cxmul w (rcx (1 - s * s)))). split.
  - assert (X : forall i j, x i j = cxmul w (S i j)) by (intros i j; unfold x, lat; cbv beta; fold w; ring).
    intros i j Hi Hj. assert (Two : forall f, csum 2 f = cxadd (f 0%nat) (f 1%nat)) by (intros f; unfold csum; rewrite !(nsum_S CxRing); change (@nsum CxRing 0 f) with (rcx 0); change (cadd CxRing) with cxadd; ring).
    rewrite !Two, !X. unfold S, delta.
    assert (O : rcx (- s) = cxopp (rcx s)) by apply rcx_opp. rewrite O, <- Sq. rewrite <- Sq in D.
    destruct i as [|[|]], j as [|[|]]; try lia; cbn [Nat.eqb]; split; field; auto.
  - intros i Hi. rewrite Nat.eqb_refl. unfold hybridisation. change (cxadd z (rcx mu)) with w. rewrite <- Sq.
    assert (rcx (s * s) = cxmul (rcx s) (rcx s)) as -> by apply rcx_mul. rewrite <- Sq in D. field. repeat split; auto. intros E. apply (f_equal re) in E. cbn in E. lra.
Qed.
