(** Proofs about the fit of the bath (dedlib.py). *)
From Coq Require Import Reals List Arith ZArith Bool Lia Lra Psatz Ring.
From Verif Require Import Base RBase RLin CBase DedSpec.
Import ListNotations.
Local Open Scope R_scope.

Section Star.
Variables (m : nat) (p e : nat -> R).
Notation n := (S m).
Hypothesis off : forall k i, (k < m)%nat -> (i < n)%nat -> e k <> p i.
Hypothesis root : forall k, (k < m)%nat -> pole_sum n p (e k) = 0.
Hypothesis dist : forall k l, (k < m)%nat -> (l < m)%nat -> k <> l -> e k <> e l.

Definition w (k i : nat) : R := / (e k - p i).
Definition S2 (k : nat) : R := rsum n (fun i => w k i * w k i).
Lemma w_ok k i : (k < m)%nat -> (i < n)%nat -> (e k - p i) * w k i = 1.
Proof. intros Hk Hi. unfold w. field. pose proof (off k i Hk Hi). lra. Qed.
Lemma S2_pos k : (k < m)%nat -> 0 < S2 k.
Proof.
  intros Hk. unfold S2. rewrite rsum_S_l.
  assert (0 < w k 0 * w k 0). { pose proof (w_ok k 0 Hk ltac:(lia)). apply Rsqr_pos_lt. intros E. rewrite E in H. lra. }
  assert (0 <= rsum m (fun i => w k (S i) * w k (S i))) by (apply rsum_nonneg; intros; apply Rle_0_sqr). lra.
Qed.
Lemma w_sum k : (k < m)%nat -> rsum n (w k) = 0.
Proof. exact (root k). Qed.
Lemma w_prod k l i : (k < m)%nat -> (l < m)%nat -> (i < n)%nat -> (e l - e k) * (w k i * w l i) = w k i - w l i.
Proof.
  intros Hk Hl Hi. pose proof (w_ok k i Hk Hi) as A. pose proof (w_ok l i Hl Hi) as B.
  transitivity (((e l - p i) * w l i) * w k i - ((e k - p i) * w k i) * w l i); [ring|]. rewrite A, B. ring.
Qed.
Lemma w_orth k l : (k < m)%nat -> (l < m)%nat -> k <> l -> rsum n (fun i => w k i * w l i) = 0.
Proof.
  intros Hk Hl N. pose proof (dist k l Hk Hl N) as D. apply (Rmult_eq_reg_l (e l - e k)); [|lra]. rewrite Rmult_0_r, <- rsum_scal_l.
  rewrite (rsum_ext n _ (fun i => w k i - w l i)) by (intros; now apply w_prod). rewrite rsum_sub, !w_sum by auto. lra.
Qed.

Definition u (a i : nat) : R := match a with O => / sqrt (INR n) | S k => w k i / sqrt (S2 k) end.
Lemma n_pos : 0 < INR n.
Proof. apply lt_0_INR. lia. Qed.
Lemma sq_n : / sqrt (INR n) * / sqrt (INR n) = / INR n.
Proof. rewrite <- Rinv_mult. rewrite sqrt_sqrt by (left; apply n_pos). reflexivity. Qed.
Lemma sq_k k : (k < m)%nat -> 0 < sqrt (S2 k) /\ sqrt (S2 k) * sqrt (S2 k) = S2 k.
Proof. intros Hk. pose proof (S2_pos k Hk). split; [now apply sqrt_lt_R0|apply sqrt_sqrt; lra]. Qed.
Lemma u_orth : orthonormal n n u.
Proof.
  intros a b Ha Hb. destruct a as [|k], b as [|l]; cbn [u Nat.eqb].
  - rewrite rsum_const, sq_n. field. pose proof n_pos. lra.
  - rewrite (rsum_ext n _ (fun i => (/ sqrt (INR n) / sqrt (S2 l)) * w l i)) by (intros; unfold Rdiv; ring). rewrite rsum_scal_l, w_sum by lia. ring.
  - rewrite (rsum_ext n _ (fun i => (/ sqrt (INR n) / sqrt (S2 k)) * w k i)) by (intros; unfold Rdiv; ring). rewrite rsum_scal_l, w_sum by lia. ring.
  - destruct (sq_k k ltac:(lia)) as [P1 Q1]. destruct (sq_k l ltac:(lia)) as [P2 Q2].
    rewrite (rsum_ext n _ (fun i => (/ sqrt (S2 k) * / sqrt (S2 l)) * (w k i * w l i))) by (intros; unfold Rdiv; ring). rewrite rsum_scal_l.
    destruct (Nat.eqb_spec k l) as [->|N].
    + fold (S2 l). rewrite <- Q2 at 3. field. lra.
    + rewrite w_orth by lia. ring.
Qed.
Lemma u_cols i j : (i < n)%nat -> (j < n)%nat -> rsum n (fun a => u a i * u a j) = if (i =? j)%nat then 1 else 0.
Proof. exact (orthonormal_complete n n u u_orth eq_refl i j). Qed.

Definition mean : R := rsum n p / INR n.
Definition v2 (k : nat) : R := INR n / S2 k.
Notation H := (star mean e (fun k => sqrt (v2 k))).
Lemma v2_pos k : (k < m)%nat -> 0 < v2 k.
Proof. intros Hk. apply Rmult_lt_0_compat; [apply n_pos|]. apply Rinv_0_lt_compat. now apply S2_pos. Qed.
Lemma pw k i : (k < m)%nat -> (i < n)%nat -> p i * w k i = e k * w k i - 1.
Proof. intros Hk Hi. pose proof (w_ok k i Hk Hi). lra. Qed.
Lemma pw_sum k : (k < m)%nat -> rsum n (fun i => p i * w k i) = - INR n.
Proof.
  intros Hk. rewrite (rsum_ext n _ (fun i => e k * w k i - 1)) by (intros; now apply pw). rewrite rsum_sub, rsum_scal_l, w_sum, rsum_const by auto. ring.
Qed.
Lemma star_diag a b : (a < n)%nat -> (b < n)%nat -> rsum n (fun i => p i * u a i * u b i) = H a b.
Proof.
  intros Ha Hb.
  assert (C : forall k, (k < m)%nat -> - INR n * / sqrt (INR n) * / sqrt (S2 k) = - sqrt (v2 k)).
  { intros k Hk. destruct (sq_k k Hk) as [P Q]. pose proof n_pos as NP. pose proof (sqrt_lt_R0 _ NP) as NS. unfold v2. rewrite sqrt_div_alt by (now apply S2_pos).
    rewrite <- (sqrt_sqrt (INR n)) at 1 by lra. field. split; lra. }
  destruct a as [|k], b as [|l]; cbn [u star].
  - rewrite (rsum_ext n _ (fun i => (/ sqrt (INR n) * / sqrt (INR n)) * p i)) by (intros; ring). rewrite rsum_scal_l, sq_n. unfold mean, Rdiv. ring.
  - rewrite (rsum_ext n _ (fun i => (/ sqrt (INR n) * / sqrt (S2 l)) * (p i * w l i))) by (intros; unfold Rdiv; ring). rewrite rsum_scal_l, pw_sum by lia.
    rewrite <- C by lia. ring.
  - rewrite (rsum_ext n _ (fun i => (/ sqrt (INR n) * / sqrt (S2 k)) * (p i * w k i))) by (intros; unfold Rdiv; ring). rewrite rsum_scal_l, pw_sum by lia.
    rewrite <- C by lia. ring.
  - destruct (sq_k k ltac:(lia)) as [P1 Q1]. destruct (sq_k l ltac:(lia)) as [P2 Q2].
    rewrite (rsum_ext n _ (fun i => (/ sqrt (S2 k) * / sqrt (S2 l)) * (e k * (w k i * w l i) - w l i))).
    2: { intros i Hi. transitivity ((/ sqrt (S2 k) * / sqrt (S2 l)) * ((p i * w k i) * w l i)); [unfold Rdiv; ring|]. rewrite pw by lia. ring. }
    rewrite rsum_scal_l, rsum_sub, rsum_scal_l, w_sum by lia. destruct (Nat.eqb_spec k l) as [->|N].
    + fold (S2 l). rewrite <- Q2 at 3. field. lra.
    + rewrite w_orth by lia. ring.
Qed.
Lemma star_sym a b : H a b = H b a.
Proof. destruct a as [|k], b as [|l]; cbn [star]; auto. rewrite (Nat.eqb_sym l k). destruct (Nat.eqb_spec k l) as [->|]; reflexivity. Qed.
Lemma star_eigen i a : (i < n)%nat -> (a < n)%nat -> rsum n (fun b => H a b * u b i) = p i * u a i.
Proof.
  intros Hi Ha. transitivity (rsum n (fun b => rsum n (fun j => (p j * u a j) * (u b j * u b i)))).
  - apply rsum_ext. intros b Hb. rewrite <- star_diag by auto. rewrite <- rsum_scal_r. apply rsum_ext. intros; ring.
  - rewrite rsum_swap. rewrite (rsum_ext n _ (fun j => (p j * u a j) * (if (j =? i)%nat then 1 else 0))).
    2: { intros j Hj. rewrite rsum_scal_l. f_equal. now apply u_cols. }
    rewrite (rsum_single n _ i Hi), Nat.eqb_refl; [ring|]. intros j Hj N. destruct (Nat.eqb_spec j i); [congruence|ring].
Qed.

(** The Green's function on the impurity. *)
Lemma pole_off z x : im z <> 0 -> cxsub z (rcx x) <> rcx 0.
Proof. intros Hz E. apply (f_equal im) in E. cbn in E. lra. Qed.
Add Ring cxr : cx_ring. Add Field cxf : cx_field.
Definition xs (z : cx) (a : nat) : cx := csum n (fun i => cxmul (rcx (u a i * u 0 i)) (cxinv (cxsub z (rcx (p i))))).
Lemma xs_eq z a : im z <> 0 -> (a < n)%nat -> cxsub (cxmul z (xs z a)) (csum n (fun b => cxmul (rcx (H a b)) (xs z b))) = rcx (if (a =? 0)%nat then 1 else 0).
Proof.
  intros Hz Ha.
  assert (E : csum n (fun b => cxmul (rcx (H a b)) (xs z b)) = csum n (fun i => cxmul (rcx (p i * u a i * u 0 i)) (cxinv (cxsub z (rcx (p i)))))).
  { unfold xs. rewrite (csum_ext n _ (fun b => csum n (fun i => cxmul (rcx (H a b * u b i * u 0 i)) (cxinv (cxsub z (rcx (p i))))))).
    2: { intros b Hb. rewrite <- csum_scal_l. apply csum_ext. intros i Hi. rewrite !rcx_mul. ring. }
    rewrite csum_swap. apply csum_ext. intros i Hi. rewrite <- (star_eigen i a Hi Ha). rewrite (rcx_mul (rsum _ _)), rcx_sum.
    rewrite (csum_ext n _ (fun b => cxmul (cxmul (rcx (u 0 i)) (cxinv (cxsub z (rcx (p i))))) (rcx (H a b * u b i)))) by (intros; rewrite !rcx_mul; ring).
    rewrite csum_scal_l. ring. }
  rewrite E. unfold xs. rewrite <- csum_scal_l, <- csum_sub.
  rewrite (csum_ext n _ (fun i => rcx (u a i * u 0 i))).
  - rewrite <- rcx_sum. f_equal. etransitivity; [exact (u_orth a 0%nat Ha ltac:(lia))|]. reflexivity.
  - intros i Hi. pose proof (pole_off z (p i) Hz) as P. rewrite !rcx_mul. field. exact P.
Qed.
Lemma xs_0 z : xs z 0 = mean_gf n p z.
Proof.
  unfold xs, mean_gf. rewrite (csum_ext n _ (fun i => cxmul (rcx (/ INR n)) (cxinv (cxsub z (rcx (p i)))))).
  - rewrite csum_scal_l. assert (NN : rcx (INR n) <> rcx 0). { intros E. apply rcx_inj in E. pose proof n_pos. lra. }
    replace (rcx (/ INR n)) with (cxinv (rcx (INR n))); [unfold cxdiv; ring|].
    apply cx_eq; unfold cxinv, rcx, re, im, cxn2; cbn -[INR]; pose proof n_pos; [field; lra|unfold Rdiv; rewrite Ropp_0; ring].
  - intros i _. cbn [u]. now rewrite sq_n.
Qed.
Theorem star_gf_mean z : im z <> 0 -> star_gf m mean e v2 z = mean_gf n p z.
Proof.
  intros Hz. rewrite <- xs_0. set (X := xs z).
  assert (R0 : cxsub (cxmul z (X 0%nat)) (csum n (fun b => cxmul (rcx (H 0 b)) (X b))) = rcx 1) by (exact (xs_eq z 0 Hz ltac:(lia))).
  assert (RK : forall k, (k < m)%nat -> X (S k) = cxopp (cxmul (rcx (sqrt (v2 k))) (cxmul (X 0%nat) (cxinv (cxsub z (rcx (e k))))))).
  { intros k Hk. pose proof (xs_eq z (S k) Hz ltac:(lia)) as Q. fold X in Q. cbn [Nat.eqb] in Q.
    assert (SP : csum n (fun b => cxmul (rcx (H (S k) b)) (X b)) = cxadd (cxmul (rcx (- sqrt (v2 k))) (X 0%nat)) (cxmul (rcx (e k)) (X (S k)))).
    { unfold csum. rewrite nsum_S_l. change (@nsum CxRing) with csum. change (cadd CxRing) with cxadd. f_equal. cbn [star].
      rewrite (csum_single m _ k Hk); [now rewrite Nat.eqb_refl|]. intros j Hj N. destruct (Nat.eqb_spec k j); [congruence|]. change (c0 CxRing) with (rcx 0). ring. }
    rewrite SP, rcx_opp in Q. pose proof (pole_off z (e k) Hz) as P.
    assert (Q' : cxmul (cxsub z (rcx (e k))) (X (S k)) = cxopp (cxmul (rcx (sqrt (v2 k))) (X 0%nat))).
    { transitivity (cxsub (cxsub (cxmul z (X (S k))) (cxadd (cxmul (cxopp (rcx (sqrt (v2 k)))) (X 0%nat)) (cxmul (rcx (e k)) (X (S k))))) (cxmul (rcx (sqrt (v2 k))) (X 0%nat))); [ring|]. rewrite Q. ring. }
    transitivity (cxmul (cxinv (cxsub z (rcx (e k)))) (cxmul (cxsub z (rcx (e k))) (X (S k)))); [field; exact P|]. rewrite Q'. ring. }
  assert (Q : cxmul (X 0%nat) (cxsub (cxsub z (rcx mean)) (csum m (fun k => cxdiv (rcx (v2 k)) (cxsub z (rcx (e k)))))) = rcx 1).
  { etransitivity; [|exact R0]. unfold csum at 2. rewrite nsum_S_l. change (@nsum CxRing) with csum. change (cadd CxRing) with cxadd. cbn [star].
    rewrite (csum_ext m (fun k => cxmul (rcx (- sqrt (v2 k))) (X (S k))) (fun k => cxmul (X 0%nat) (cxdiv (rcx (v2 k)) (cxsub z (rcx (e k)))))).
    - rewrite csum_scal_l. ring.
    - intros k Hk. rewrite RK by auto. rewrite <- (sqrt_sqrt (v2 k)) at 3 by (left; now apply v2_pos). rewrite rcx_opp, rcx_mul. unfold cxdiv. ring. }
  unfold star_gf. set (Y := cxsub (cxsub z (rcx mean)) _) in *.
  assert (NY : Y <> rcx 0). { intros E. rewrite E in Q. apply (f_equal re) in Q. cbn in Q. lra. }
  transitivity (cxmul (cxmul (X 0%nat) Y) (cxinv Y)); [rewrite Q; ring|]. field. exact NY.
Qed.
End Star.
