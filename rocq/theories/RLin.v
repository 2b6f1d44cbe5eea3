(** Finite sums of reals; orthonormal families. *)
From Coq Require Import Reals Lra Lia List Arith.
From Verif Require Import Base RBase.
Import ListNotations.
Local Open Scope R_scope.

Definition rsum (n : nat) (f : nat -> R) : R := @nsum RRing n f.

Lemma rsum_ext n f g : (forall i, (i < n)%nat -> f i = g i) -> rsum n f = rsum n g.
Proof. exact (nsum_ext RRing n f g). Qed.
Lemma rsum_S n f : rsum (S n) f = rsum n f + f n.
Proof. exact (nsum_S RRing n f). Qed.
Lemma rsum_S_l n f : rsum (S n) f = f O + rsum n (fun i => f (S i)).
Proof. exact (nsum_S_l RRing n f). Qed.
Lemma rsum_0 n f : (forall i, (i < n)%nat -> f i = 0) -> rsum n f = 0.
Proof. exact (nsum_0 RRing n f). Qed.
Lemma rsum_single n f i : (i < n)%nat -> (forall j, (j < n)%nat -> j <> i -> f j = 0) -> rsum n f = f i.
Proof. exact (nsum_single RRing n f i). Qed.
Lemma rsum_add n f g : rsum n (fun i => f i + g i) = rsum n f + rsum n g.
Proof. exact (nsum_add RRing n f g). Qed.
Lemma rsum_sub n f g : rsum n (fun i => f i - g i) = rsum n f - rsum n g.
Proof. exact (nsum_sub RRing n f g). Qed.
Lemma rsum_scal_l n c f : rsum n (fun i => c * f i) = c * rsum n f.
Proof. exact (nsum_scal_l RRing n c f). Qed.
Lemma rsum_scal_r n c f : rsum n (fun i => f i * c) = rsum n f * c.
Proof. exact (nsum_scal_r RRing n c f). Qed.
Lemma rsum_swap n m f : rsum n (fun i => rsum m (fun j => f i j)) = rsum m (fun j => rsum n (fun i => f i j)).
Proof. exact (nsum_swap RRing n m f). Qed.
Lemma rsum_const n c : rsum n (fun _ => c) = INR n * c.
Proof. induction n; [unfold rsum, nsum; simpl; lra|]. rewrite rsum_S, IHn, S_INR. lra. Qed.
Lemma rsum_le n f g : (forall i, (i < n)%nat -> f i <= g i) -> rsum n f <= rsum n g.
Proof.
  induction n; intros H; [unfold rsum, nsum; simpl; lra|]. rewrite !rsum_S.
  specialize (IHn (fun i Hi => H i (Nat.lt_lt_succ_r _ _ Hi))). specialize (H n (Nat.lt_succ_diag_r n)). lra.
Qed.
Lemma rsum_nonneg n f : (forall i, (i < n)%nat -> 0 <= f i) -> 0 <= rsum n f.
Proof. intros H. rewrite <- (rsum_0 n (fun _ => 0)) by auto. now apply rsum_le. Qed.
Lemma rsum_nonneg_0 n f : (forall i, (i < n)%nat -> 0 <= f i) -> rsum n f = 0 -> forall i, (i < n)%nat -> f i = 0.
Proof.
  induction n; intros H E i Hi; [lia|]. rewrite rsum_S in E.
  assert (A : 0 <= rsum n f) by (apply rsum_nonneg; intros; apply H; lia).
  assert (B := H n (Nat.lt_succ_diag_r n)).
  destruct (Nat.eq_dec i n) as [->|]; [lra|]. apply IHn; [intros; apply H; lia|lra|lia].
Qed.
Lemma rsum_term_le n f i : (forall i, (i < n)%nat -> 0 <= f i) -> (i < n)%nat -> f i <= rsum n f.
Proof.
  induction n; intros H Hi; [lia|]. rewrite rsum_S.
  assert (A : 0 <= rsum n f) by (apply rsum_nonneg; intros; apply H; lia).
  assert (B := H n (Nat.lt_succ_diag_r n)).
  destruct (Nat.eq_dec i n) as [->|]; [lra|]. assert (f i <= rsum n f) by (apply IHn; [intros; apply H; lia|lia]). lra.
Qed.
Lemma rsum_abs n f : Rabs (rsum n f) <= rsum n (fun i => Rabs (f i)).
Proof.
  induction n; [unfold rsum, nsum; simpl; rewrite Rabs_R0; lra|]. rewrite !rsum_S.
  eapply Rle_trans; [apply Rabs_triang|]. lra.
Qed.

(** [v 0 .. v (m-1)] are orthonormal vectors with [d] entries. *)
Definition orthonormal (d m : nat) (v : nat -> nat -> R) : Prop :=
  forall j k, (j < m)%nat -> (k < m)%nat -> rsum d (fun i => v j i * v k i) = if (j =? k)%nat then 1 else 0.

Section Bessel.
Variables (d m : nat) (v : nat -> nat -> R).
Hypothesis H : orthonormal d m v.
Let res (i j : nat) : R := (if (j =? i)%nat then 1 else 0) - rsum m (fun k => v k i * v k j).

Lemma res_norm i : (i < d)%nat -> rsum d (fun j => res i j * res i j) = 1 - rsum m (fun k => v k i * v k i).
Proof.
  intros Hi. unfold res.
  rewrite (rsum_ext d _ (fun j => (if (j =? i)%nat then 1 - 2 * rsum m (fun k => v k i * v k i) else 0)
     + rsum m (fun k => rsum m (fun l => (v k i * v l i) * (v k j * v l j))))).
  - rewrite rsum_add. rewrite (rsum_single d _ i Hi).
    2:{ intros j _ Hj. destruct (Nat.eqb_spec j i); [lia|reflexivity]. }
    rewrite Nat.eqb_refl. rewrite rsum_swap.
    match goal with |- _ + ?X = _ => replace X with (rsum m (fun k => v k i * v k i)); [lra|] end.
    apply rsum_ext. intros k Hk. symmetry. rewrite rsum_swap. rewrite (rsum_single m _ k Hk).
    + rewrite rsum_scal_l, (H k k Hk Hk), Nat.eqb_refl. lra.
    + intros l Hl Hn. rewrite rsum_scal_l, (H k l Hk Hl). destruct (Nat.eqb_spec k l); [congruence|lra].
  - intros j Hj. assert (E : rsum m (fun k => rsum m (fun l => v k i * v l i * (v k j * v l j))) = rsum m (fun k => v k i * v k j) * rsum m (fun k => v k i * v k j)).
    { rewrite <- rsum_scal_r. apply rsum_ext. intros k Hk. rewrite <- rsum_scal_l. apply rsum_ext. intros. ring. }
    rewrite E. destruct (Nat.eqb_spec j i) as [->|]; ring.
Qed.
Lemma bessel i : (i < d)%nat -> rsum m (fun k => v k i * v k i) <= 1.
Proof.
  intros Hi. pose proof (res_norm i Hi) as E.
  assert (0 <= rsum d (fun j => res i j * res i j)) by (apply rsum_nonneg; intros; apply Rle_0_sqr). lra.
Qed.
Lemma trace_m : rsum d (fun i => rsum m (fun k => v k i * v k i)) = INR m.
Proof.
  rewrite rsum_swap. rewrite (rsum_ext m _ (fun _ => 1)); [rewrite rsum_const; lra|].
  intros k Hk. rewrite (H k k Hk Hk), Nat.eqb_refl. reflexivity.
Qed.
Lemma orthonormal_dim : (m <= d)%nat.
Proof.
  apply INR_le. rewrite <- trace_m. replace (INR d) with (rsum d (fun _ => 1)) by (rewrite rsum_const; lra).
  apply rsum_le. exact bessel.
Qed.
Lemma orthonormal_complete : m = d -> forall i j, (i < d)%nat -> (j < d)%nat ->
  rsum m (fun k => v k i * v k j) = if (i =? j)%nat then 1 else 0.
Proof.
  intros E i j Hi Hj.
  assert (T : rsum d (fun i => 1 - rsum m (fun k => v k i * v k i)) = 0).
  { rewrite rsum_sub, trace_m, rsum_const, E. lra. }
  assert (Z' : 1 - rsum m (fun k => v k i * v k i) = 0).
  { apply (rsum_nonneg_0 d (fun i => 1 - rsum m (fun k => v k i * v k i))); auto. intros k Hk. pose proof (bessel k Hk). lra. }
  pose proof (res_norm i Hi) as N. rewrite Z' in N.
  assert (R0 : res i j * res i j = 0).
  { apply (rsum_nonneg_0 d (fun j => res i j * res i j)); auto. intros; apply Rle_0_sqr. }
  apply Rmult_integral in R0. assert (res i j = 0) by tauto. unfold res in *. rewrite Nat.eqb_sym. lra.
Qed.
End Bessel.
