(** Dimensions: a linear map without kernel between eigenspaces. *)
From Coq Require Import Reals List Arith Bool Lia Lra Psatz Ring Field.
From Verif Require Import Base RBase RLin OperatorsSpec CsrSpec SymSpec RelFockProofs GfSumProofs MulNormProofs.
Import ListNotations.
Local Open Scope R_scope.

(** Fewer equations than unknowns. *)
Definition transposed (a b j : nat) : nat := if (j =? a)%nat then b else if (j =? b)%nat then a else j.
Lemma transposed_inv a b j : transposed a b (transposed a b j) = j.
Proof.
  unfold transposed. destruct (Nat.eqb_spec j a) as [->|A]; [destruct (Nat.eqb_spec b a) as [->|]; [reflexivity|now rewrite Nat.eqb_refl]|].
  destruct (Nat.eqb_spec j b) as [->|B]; [now rewrite Nat.eqb_refl|]. destruct (Nat.eqb_spec j a); [congruence|]. destruct (Nat.eqb_spec j b); congruence.
Qed.
Lemma transposed_lt m a b j : (a < m)%nat -> (b < m)%nat -> (j < m)%nat -> (transposed a b j < m)%nat.
Proof. intros. unfold transposed. destruct (j =? a)%nat; [auto|]. destruct (j =? b)%nat; auto. Qed.
Lemma transposed_renumbering m a b : (a < m)%nat -> (b < m)%nat -> renumbering m (transposed a b).
Proof. intros Ha Hb. split; [intros; now apply transposed_lt|]. intros i j _ _ E. rewrite <- (transposed_inv a b i), E. apply transposed_inv. Qed.
Lemma homogeneous : forall k m (c : nat -> nat -> R), (k < m)%nat -> exists x : nat -> R, (exists j, (j < m)%nat /\ x j <> 0) /\ forall i, (i < k)%nat -> rsum m (fun j => c i j * x j) = 0.
Proof.
  induction k as [|k IH]; intros m c Hm.
  - exists (fun _ => 1). split; [exists 0%nat; split; [lia|lra]|]. intros; lia.
  - assert (D : (exists j0, (j0 < m)%nat /\ c k j0 <> 0) \/ forall j, (j < m)%nat -> c k j = 0).
    { clear. induction m as [|m [(j & Hj & N)|A]]; [right; intros; lia|left; exists j; split; [lia|auto]|].
      destruct (Req_EM_T (c k m) 0) as [E|N]; [right; intros j Hj; destruct (Nat.eq_dec j m) as [->|]; [auto|apply A; lia]|left; exists m; split; [lia|auto]]. }
    destruct D as [(j0 & Hj0 & N)|A].
    + destruct m as [|m]; [lia|]. set (t := transposed j0 m). set (c' := fun i j => c i (t j)). assert (P : c' k m <> 0).
      { unfold c', t, transposed. destruct (Nat.eqb_spec m j0); [subst; auto|]. rewrite Nat.eqb_refl. auto. }
      destruct (IH m (fun i j => c' i j - c' i m / c' k m * c' k j) ltac:(lia)) as (y & (j & Hj & Y) & HY).
      set (x' := fun j => if (j =? m)%nat then - rsum m (fun j => c' k j * y j) / c' k m else y j).
      assert (SX : forall i, rsum (S m) (fun j => c' i j * x' j) = rsum m (fun j => c' i j * y j) - c' i m / c' k m * rsum m (fun j => c' k j * y j)).
      { intros i. rewrite rsum_S. rewrite (rsum_ext m (fun j => c' i j * x' j) (fun j => c' i j * y j)) by (intros l Hl; unfold x'; destruct (Nat.eqb_spec l m); [lia|reflexivity]).
        unfold x'. rewrite Nat.eqb_refl. field. exact P. }
      exists (fun j => x' (t j)). split.
      * exists (t j). split; [apply transposed_lt; lia|]. unfold t. rewrite transposed_inv. unfold x'. destruct (Nat.eqb_spec j m); [lia|exact Y].
      * intros i Hi. pose proof (nsum_renumber RRing (S m) t (fun j => c' i j * x' j)) as Q.
        transitivity (rsum (S m) (fun j => c' i (t j) * x' (t j))); [apply rsum_ext; intros l Hl; unfold c', t; now rewrite transposed_inv|].
        transitivity (rsum (S m) (fun j => c' i j * x' j)); [apply Q, transposed_renumbering; lia|]. rewrite SX.
        destruct (Nat.eq_dec i k) as [->|NE]; [field; exact P|]. specialize (HY i ltac:(lia)). rewrite <- HY, <- rsum_scal_l, <- rsum_sub. apply rsum_ext. intros; ring.
    + destruct (IH m c ltac:(lia)) as (x & NZ & HX). exists x. split; [exact NZ|]. intros i Hi. destruct (Nat.eq_dec i k) as [->|NE]; [|apply HX; lia].
      apply rsum_0. intros j Hj. rewrite A by auto. ring.
Qed.

(** Positions of an energy in a list of energies. *)
Definition at_energy (d : nat) (e : nat -> R) (E : R) : list nat := filter (fun j => if Req_EM_T (e j) E then true else false) (seq 0 d).
Lemma at_energy_In d e E j : In j (at_energy d e E) <-> (j < d)%nat /\ e j = E.
Proof. unfold at_energy. rewrite filter_In, in_seq. destruct (Req_EM_T (e j) E); split; intros [A B]; split; auto; try lia; congruence. Qed.
Lemma at_energy_count (l : list R) E : length (at_energy (length l) (fun j => nth j l 0) E) = count_occ Req_EM_T l E.
Proof.
  unfold at_energy. induction l as [|x l IH] using rev_ind; [reflexivity|]. rewrite app_length, Nat.add_comm. cbn [length Nat.add]. rewrite seq_S, filter_app, app_length, count_occ_app.
  cbn [Nat.add filter count_occ]. rewrite nth_middle. rewrite <- IH. f_equal.
  - f_equal. apply filter_ext_in. intros j Hj. apply in_seq in Hj. now rewrite app_nth1 by lia.
  - destruct (Req_EM_T x E); reflexivity.
Qed.

Section Count.
Variables (d d' : nat) (v w : nat -> nat -> R) (e e' : nat -> R) (T : (nat -> R) -> nat -> R).
Hypothesis OV : orthonormal d d v.
Hypothesis OW : orthonormal d' d' w.
Hypothesis TL : forall m (x : nat -> R) (f : nat -> nat -> R) a, (a < d')%nat -> T (fun b => rsum m (fun l => x l * f l b)) a = rsum m (fun l => x l * T (f l) a).
Hypothesis TP : forall f, 0 < sq d f -> 0 < sq d' (T f).
Hypothesis TO : forall j i, (j < d)%nat -> (i < d')%nat -> e j <> e' i -> rsum d' (fun a => w i a * T (v j) a) = 0.
Theorem count_le E : (length (at_energy d e E) <= length (at_energy d' e' E))%nat.
Proof.
  set (l := at_energy d e E). set (l' := at_energy d' e' E). destruct (Nat.le_gt_cases (length l) (length l')) as [|GT]; [assumption|exfalso].
  assert (NDl : NoDup l) by (apply NoDup_filter, seq_NoDup).
  assert (In1 : forall i, (i < length l)%nat -> (nth i l 0 < d)%nat /\ e (nth i l 0%nat) = E) by (intros i Hi; apply at_energy_In, nth_In; exact Hi).
  destruct (homogeneous (length l') (length l) (fun i j => rsum d' (fun a => w (nth i l' 0%nat) a * T (v (nth j l 0%nat)) a)) GT) as (x & (j0 & Hj0 & NZ) & HX).
  set (f := fun b => rsum (length l) (fun j => x j * v (nth j l 0%nat) b)).
  assert (NF : sq d f = rsum (length l) (fun j => x j * x j)).
  { unfold sq, f.
    rewrite (rsum_ext d _ (fun b => rsum (length l) (fun j => rsum (length l) (fun j' => x j * x j' * (v (nth j l 0%nat) b * v (nth j' l 0%nat) b))))).
    - rewrite rsum_swap. apply rsum_ext. intros j Hj. rewrite rsum_swap.
      rewrite (rsum_ext _ _ (fun j' => x j * x j' * (if (nth j l 0 =? nth j' l 0)%nat then 1 else 0))).
      + rewrite (rsum_single _ _ j Hj); [rewrite Nat.eqb_refl; ring|]. intros j' Hj' NE. destruct (Nat.eqb_spec (nth j l 0%nat) (nth j' l 0%nat)) as [EQ|]; [|ring].
        exfalso. apply NE. symmetry. apply (proj1 (NoDup_nth l 0%nat) NDl); auto.
      + intros j' Hj'. rewrite rsum_scal_l. f_equal. apply OV; now apply In1.
    - intros b _. rewrite <- rsum_scal_r. apply rsum_ext. intros j _. rewrite <- rsum_scal_l. apply rsum_ext. intros; ring. }
  assert (PF : 0 < sq d f) by (rewrite NF; exact (sq_pos (length l) x j0 Hj0 NZ)). pose proof (TP f PF) as PT.
  enough (sq d' (T f) = 0) by lra. unfold sq. rewrite (rsum_ext d' _ (fun a => T f a ^ 2)) by (intros; ring). rewrite <- (parseval d' w (T f) OW).
  apply rsum_0. intros i Hi. enough (Z : rsum d' (fun a => w i a * T f a) = 0) by (rewrite Z; ring).
  rewrite (rsum_ext d' _ (fun a => rsum (length l) (fun j => x j * (w i a * T (v (nth j l 0%nat)) a)))) by (intros a Ha; unfold f; rewrite (TL (length l) x (fun j => v (nth j l 0%nat))) by auto; rewrite <- rsum_scal_l; apply rsum_ext; intros; ring).
  rewrite rsum_swap. rewrite (rsum_ext _ _ (fun j => x j * rsum d' (fun a => w i a * T (v (nth j l 0%nat)) a))) by (intros; apply rsum_scal_l).
  destruct (Req_EM_T (e' i) E) as [EE|NE].
  - assert (I : In i l') by (apply at_energy_In; auto). apply (In_nth _ _ 0%nat) in I. destruct I as (k & Hk & <-). rewrite <- (HX k Hk). apply rsum_ext. intros; ring.
  - apply rsum_0. intros j Hj. destruct (In1 j Hj) as [A B]. rewrite TO by (auto; congruence). ring.
Qed.
End Count.
