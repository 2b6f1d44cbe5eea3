(** An eigensolver that meets the contract. *)
From Coq Require Import Reals List Arith NArith ZArith Bool Lia Lra Psatz.
From Verif Require Import Base RBase RLin MatvecModel EspaceModel EspaceSpec GfSpec GmSpec ExactSpec SpectralProofs.
Import ListNotations.
Local Open Scope R_scope.

(** numpy reads the lower triangle only. *)
Definition lower (D : dense RRing) (i j : nat) : R := d_at RRing D (Nat.max i j) (Nat.min i j).
Definition real_eigh (D : dense RRing) : res (list R * list (list R)) :=
  if (d_rows RRing D =? d_cols RRing D)%nat then
    let n := d_rows RRing D in let ps := pairs n (lower D) n in
    Ok (map fst ps, map (fun p => map (snd p) (seq 0 n)) ps)
  else Err ValueError.

Lemma lower_sym n D : sym n (lower D).
Proof. intros i j _ _. unfold lower. now rewrite Nat.max_comm, Nat.min_comm. Qed.
Lemma ascending_le (f : nat -> R) d : (forall k, (S k < d)%nat -> f k <= f (S k)) -> forall j k, (j <= k)%nat -> (k < d)%nat -> f j <= f k.
Proof. intros H j k L. induction L as [|k L IH]; intros Hk; [lra|]. specialize (IH ltac:(lia)). specialize (H k Hk). lra. Qed.

Theorem real_eigh_contract : eigh_contract real_eigh.
Proof.
  intros D d EC SY. unfold real_eigh. rewrite EC. fold d. rewrite Nat.eqb_refl.
  destruct (pairs_spec d (lower D) d (lower_sym d D) (le_n d)) as (O & EV & AS). set (ps := pairs d (lower D) d) in *.
  assert (LP : length ps = d) by apply pairs_length.
  assert (VAL : forall k, nth k (map fst ps) 0 = val_of ps k).
  { intros k. unfold val_of. change 0 with (fst (0, fun _ : nat => 0)) at 1. now rewrite map_nth. }
  assert (COL : forall k, (k < d)%nat -> nth k (map (fun p => map (snd p) (seq 0 d)) ps) [] = map (vec_of ps k) (seq 0 d)).
  { intros k Hk. rewrite (nth_indep _ [] ((fun p => map (snd p) (seq 0 d)) (0, fun _ : nat => 0))) by (rewrite map_length; lia).
    rewrite (map_nth (fun p : R * (nat -> R) => map (snd p) (seq 0 d))). reflexivity. }
  assert (ENT : forall k i, (k < d)%nat -> (i < d)%nat -> nth i (nth k (map (fun p => map (snd p) (seq 0 d)) ps) []) 0 = vec_of ps k i).
  { intros k i Hk Hi. rewrite COL by auto. rewrite (nth_indep _ 0 (vec_of ps k 0)) by (rewrite map_length, seq_length; auto). rewrite map_nth, seq_nth by auto. reflexivity. }
  eexists. eexists. split; [reflexivity|]. split; [now rewrite map_length|]. split; [now rewrite map_length|].
  split; [intros k Hk; rewrite COL by auto; now rewrite map_length, seq_length|].
  split; [|split].
  - intros j k Hj Hk. rewrite <- (O j k Hj Hk). apply rsum_ext. intros i Hi. now rewrite !ENT.
  - intros k a Hk Ha. rewrite VAL, ENT by auto. rewrite <- (EV k a Hk Ha). unfold mv. apply rsum_ext. intros b Hb. rewrite ENT by auto. f_equal.
    unfold lower. destruct (Nat.le_gt_cases b a); [now rewrite Nat.max_l, Nat.min_r|]. rewrite Nat.max_r, Nat.min_l by lia. now apply SY.
  - intros j k L Hk. rewrite !VAL. now apply (ascending_le (val_of ps) d).
Qed.

Lemma contract_sound eigh : eigh_contract eigh -> eigh_sound RRing eigh.
Proof.
  intros C D vals cols ER SY E i e v Hi Hv. destruct (C D (eq_sym ER) SY) as (vals' & cols' & E' & LV & LC & LN & _ & EV & _). rewrite E in E'. injection E' as <- <-.
  assert (Li : (i < d_rows RRing D)%nat) by (rewrite <- LV; apply nth_error_Some; intros Q; pose proof (eq_trans (eq_sym Hi) Q); discriminate).
  rewrite <- (nth_error_nth _ _ [] Hv), <- (nth_error_nth _ _ 0 Hi). split; [now apply LN|]. intros a Ha. now apply EV.
Qed.
Lemma contract_complete eigh : eigh_contract eigh -> eigh_complete eigh.
Proof.
  intros C D vals cols ER SY E. destruct (C D (eq_sym ER) SY) as (vals' & cols' & E' & LV & LC & LN & ON & _). rewrite E in E'. injection E' as <- <-. auto.
Qed.

(** An eigenbasis bounds the quadratic form. *)
Lemma spectral_bound n A v e m x : orthonormal n n v -> (forall k i, (k < n)%nat -> (i < n)%nat -> mv n A (v k) i = e k * v k i) -> (forall k, (k < n)%nat -> m <= e k) ->
  m * dot n x x <= qf n A x.
Proof.
  intros O EV LB. set (c := fun k => dot n (v k) x).
  assert (X : forall i, (i < n)%nat -> x i = rsum n (fun k => c k * v k i)).
  { intros i Hi. transitivity (rsum n (fun j => x j * rsum n (fun k => v k j * v k i))).
    - rewrite (rsum_single n _ i Hi).
      + rewrite (orthonormal_complete n n v O eq_refl i i Hi Hi), Nat.eqb_refl. ring.
      + intros j Hj N. rewrite (orthonormal_complete n n v O eq_refl j i Hj Hi). destruct (Nat.eqb_spec j i); [congruence|ring].
    - rewrite (rsum_ext n _ (fun j => rsum n (fun k => x j * (v k j * v k i)))) by (intros; now rewrite rsum_scal_l). rewrite rsum_swap. apply rsum_ext. intros k Hk.
      unfold c, dot. rewrite <- rsum_scal_r. apply rsum_ext. intros. ring. }
  assert (P : forall w, dot n x w = rsum n (fun k => c k * dot n (v k) w)).
  { intros w. unfold dot. rewrite (rsum_ext n _ (fun i => rsum n (fun k => c k * (v k i * w i)))).
    - rewrite rsum_swap. apply rsum_ext. intros k Hk. now rewrite rsum_scal_l.
    - intros i Hi. rewrite (X i Hi) at 1. rewrite <- rsum_scal_r. apply rsum_ext. intros. ring. }
  assert (M : forall i, (i < n)%nat -> mv n A x i = rsum n (fun k => c k * (e k * v k i))).
  { intros i Hi. unfold mv. rewrite (rsum_ext n _ (fun j => rsum n (fun k => c k * (A i j * v k j)))).
    - rewrite rsum_swap. apply rsum_ext. intros k Hk. rewrite rsum_scal_l. f_equal. now apply EV.
    - intros j Hj. rewrite (X j Hj). rewrite <- rsum_scal_l. apply rsum_ext. intros. ring. }
  rewrite P. unfold qf. rewrite (dot_ext n x x _ (fun i => rsum n (fun k => c k * (e k * v k i)))) by auto.
  rewrite <- rsum_scal_l. rewrite P.
  assert (VM : forall k, (k < n)%nat -> dot n (v k) (fun i => rsum n (fun k => c k * (e k * v k i))) = c k * e k).
  { intros k Hk. unfold dot. rewrite (rsum_ext n _ (fun i => rsum n (fun j => c j * e j * (v k i * v j i)))) by (intros; rewrite <- rsum_scal_l; apply rsum_ext; intros; ring).
    rewrite rsum_swap. rewrite (rsum_single n _ k Hk).
    - rewrite rsum_scal_l. pose proof (O k k Hk Hk) as Q. rewrite Nat.eqb_refl in Q. rewrite Q. ring.
    - intros j Hj N. rewrite rsum_scal_l. rewrite (O k j Hk Hj). destruct (Nat.eqb_spec k j); [congruence|ring]. }
  apply rsum_le. intros k Hk. rewrite VM by auto. fold (c k). specialize (LB k Hk). pose proof (Rle_0_sqr (c k)). unfold Rsqr in H. nra.
Qed.
