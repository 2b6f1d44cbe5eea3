(** Two symmetric matrices and their Gibbs states (Peierls-Bogoliubov), sector by sector. *)
From Coq Require Import Reals List Arith Lia Lra Psatz.
From Verif Require Import Base RBase RLin GfSumProofs EntProofs.
Import ListNotations.
Local Open Scope R_scope.

Section Sector.
Variables (d : nat) (A : nat -> nat -> R) (v w : nat -> nat -> R) (f : nat -> R).
Hypothesis OV : orthonormal d d v.
Hypothesis OW : orthonormal d d w.
(** [w j] are eigenvectors of [A] with eigenvalues [f j]. *)
Hypothesis EW : forall j a, (j < d)%nat -> (a < d)%nat -> rsum d (fun b => A a b * w j b) = f j * w j a.
Definition ov (i j : nat) : R := rsum d (fun a => w j a * v i a).
Definition quad (i : nat) : R := rsum d (fun a => v i a * rsum d (fun b => A a b * v i b)).

Lemma ov_row i : (i < d)%nat -> rsum d (fun j => ov i j * ov i j) = 1.
Proof.
  intros Hi. pose proof (parseval d w (v i) OW) as P. pose proof (OV i i Hi Hi) as Q. rewrite Nat.eqb_refl in Q.
  rewrite (rsum_ext d _ (fun j => rsum d (fun a => w j a * v i a) ^ 2)) by (intros; unfold ov; ring). rewrite P, <- Q. apply rsum_ext. intros. ring.
Qed.
Lemma ov_col j : (j < d)%nat -> rsum d (fun i => ov i j * ov i j) = 1.
Proof.
  intros Hj. pose proof (parseval d v (w j) OV) as P. pose proof (OW j j Hj Hj) as Q. rewrite Nat.eqb_refl in Q.
  rewrite (rsum_ext d _ (fun i => rsum d (fun a => v i a * w j a) ^ 2)).
  - rewrite P, <- Q. apply rsum_ext. intros. ring.
  - intros i _. replace (rsum d (fun a => v i a * w j a)) with (ov i j) by (unfold ov; apply rsum_ext; intros; ring). ring.
Qed.
Lemma expand i a : (a < d)%nat -> v i a = rsum d (fun j => ov i j * w j a).
Proof.
  intros Ha. unfold ov. rewrite (rsum_ext d (fun j => rsum d _ * _) (fun j => rsum d (fun b => v i b * (w j b * w j a)))) by (intros; rewrite <- rsum_scal_r; apply rsum_ext; intros; ring).
  rewrite rsum_swap. rewrite (rsum_single d _ a Ha).
  - rewrite rsum_scal_l, (orthonormal_complete d d w OW eq_refl a a Ha Ha), Nat.eqb_refl. ring.
  - intros b Hb N. rewrite rsum_scal_l, (orthonormal_complete d d w OW eq_refl b a Hb Ha). destruct (Nat.eqb_spec b a); [congruence|ring].
Qed.
Lemma quad_spectral i : quad i = rsum d (fun j => f j * (ov i j * ov i j)).
Proof.
  unfold quad. rewrite (rsum_ext d _ (fun a => rsum d (fun j => v i a * (ov i j * (f j * w j a))))).
  - rewrite rsum_swap. apply rsum_ext. intros j _. rewrite (rsum_ext d _ (fun a => (f j * ov i j) * (w j a * v i a))) by (intros; ring). rewrite rsum_scal_l. fold (ov i j). ring.
  - intros a Ha. rewrite rsum_scal_l. f_equal.
    rewrite (rsum_ext d (fun b => A a b * v i b) (fun b => rsum d (fun j => ov i j * (A a b * w j b)))) by (intros b Hb; rewrite (expand i b Hb), <- rsum_scal_l; apply rsum_ext; intros; ring).
    rewrite rsum_swap. apply rsum_ext. intros j Hj. now rewrite rsum_scal_l, EW.
Qed.
Lemma sector_gibbs (P Q : nat -> R) : (forall i, 0 < P i) -> (forall j, 0 < Q j) ->
  rsum d (fun i => P i * rsum d (fun j => ov i j * ov i j * ln (Q j))) - rsum d (fun i => P i * ln (P i)) <= rsum d Q - rsum d P.
Proof.
  intros HP HQ.
  assert (E1 : rsum d (fun i => P i * ln (P i)) = rsum d (fun i => rsum d (fun j => ov i j * ov i j * (P i * ln (P i))))) by (apply rsum_ext; intros i Hi; rewrite rsum_scal_r, ov_row by auto; ring).
  assert (E2 : rsum d P = rsum d (fun i => rsum d (fun j => ov i j * ov i j * P i))) by (apply rsum_ext; intros i Hi; rewrite rsum_scal_r, ov_row by auto; ring).
  assert (E3 : rsum d Q = rsum d (fun i => rsum d (fun j => ov i j * ov i j * Q j))).
  { rewrite rsum_swap. apply rsum_ext. intros j Hj. rewrite rsum_scal_r, ov_col by auto. ring. }
  rewrite E1, E2, E3, <- !rsum_sub. apply rsum_le. intros i Hi. rewrite <- rsum_scal_l, <- !rsum_sub. apply rsum_le. intros j Hj.
  pose proof (HP i) as Pi. pose proof (HQ j) as Qj. assert (P2 : 0 < Q j * / P i) by (apply Rmult_lt_0_compat; auto; now apply Rinv_0_lt_compat).
  pose proof (ln_le_sub _ P2) as L. rewrite ln_mult, ln_Rinv in L by (auto; now apply Rinv_0_lt_compat).
  assert (K : P i * (ln (Q j) + - ln (P i)) <= Q j - P i).
  { apply Rle_trans with (P i * (Q j * / P i - 1)); [apply Rmult_le_compat_l; lra|]. right. field. lra. }
  pose proof (Rle_0_sqr (ov i j)) as S. unfold Rsqr in S.
  replace (P i * (ov i j * ov i j * ln (Q j)) - ov i j * ov i j * (P i * ln (P i))) with (ov i j * ov i j * (P i * (ln (Q j) + - ln (P i)))) by ring.
  replace (ov i j * ov i j * Q j - ov i j * ov i j * P i) with (ov i j * ov i j * (Q j - P i)) by ring. now apply Rmult_le_compat_l.
Qed.
(** For Boltzmann weights of the energies [e] and [f] with normalisations exp(L), exp(L'). *)
Lemma sector_bogoliubov beta L L' (e : nat -> R) :
  rsum d (fun i => exp (- beta * e i - L)) - rsum d (fun j => exp (- beta * f j - L')) <=
  rsum d (fun i => exp (- beta * e i - L) * (beta * (quad i - e i) + (L' - L))).
Proof.
  pose proof (sector_gibbs (fun i => exp (- beta * e i - L)) (fun j => exp (- beta * f j - L')) (fun i => exp_pos _) (fun j => exp_pos _)) as G. cbv beta in G.
  enough (X : rsum d (fun i => exp (- beta * e i - L) * rsum d (fun j => ov i j * ov i j * ln (exp (- beta * f j - L')))) - rsum d (fun i => exp (- beta * e i - L) * ln (exp (- beta * e i - L))) =
    - rsum d (fun i => exp (- beta * e i - L) * (beta * (quad i - e i) + (L' - L)))) by lra.
  rewrite <- rsum_sub. replace (- rsum d (fun i => exp (- beta * e i - L) * (beta * (quad i - e i) + (L' - L)))) with (rsum d (fun i => (-1) * (exp (- beta * e i - L) * (beta * (quad i - e i) + (L' - L))))) by (rewrite rsum_scal_l; ring).
  apply rsum_ext. intros i Hi. rewrite ln_exp.
  replace (rsum d (fun j => ov i j * ov i j * ln (exp (- beta * f j - L')))) with (- beta * quad i - L'); [ring|].
  rewrite (rsum_ext d _ (fun j => - beta * (f j * (ov i j * ov i j)) + (- L') * (ov i j * ov i j))) by (intros; rewrite ln_exp; ring).
  rewrite rsum_add, !rsum_scal_l, ov_row, <- quad_spectral by auto. ring.
Qed.
End Sector.
