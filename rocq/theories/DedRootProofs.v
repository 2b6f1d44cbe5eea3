(** One zero in every gap (dedlib.py, [Gfimp.fit]). *)
From Coq Require Import Reals Ranalysis5 List Arith ZArith Bool Lia Lra Psatz.
From Verif Require Import Base RBase RLin CBase DedSpec DedFitProofs.
Import ListNotations.
Local Open Scope R_scope.

Section Gap.
Variables (n : nat) (p : nat -> R).
Hypothesis inc : increasing n p.

Lemma inc_lt i j : (i < j)%nat -> (j < n)%nat -> p i < p j.
Proof.
  intros Hij. induction j as [|j IH]; [lia|]. intros Hj. pose proof (inc j Hj). destruct (Nat.eq_dec i j) as [->|]; [auto|].
  specialize (IH ltac:(lia) ltac:(lia)). lra.
Qed.
Lemma inc_le i j : (i <= j)%nat -> (j < n)%nat -> p i <= p j.
Proof. intros H Hj. destruct (Nat.eq_dec i j) as [->|]; [lra|]. left. apply inc_lt; lia. Qed.

Section K.
Variable k : nat.
Hypothesis Hk : (S k < n)%nat.
Lemma below i x : p k < x < p (S k) -> (i < n)%nat -> (i <= k)%nat -> p i < x.
Proof. intros Hx Hi Hik. pose proof (inc_le i k Hik ltac:(lia)). lra. Qed.
Lemma above i x : p k < x < p (S k) -> (i < n)%nat -> (k < i)%nat -> x < p i.
Proof. intros Hx Hi Hik. pose proof (inc_le (S k) i Hik Hi). lra. Qed.
Lemma off_pole i x : p k < x < p (S k) -> (i < n)%nat -> x <> p i.
Proof. intros Hx Hi. destruct (le_lt_dec i k); [pose proof (below i x Hx Hi l)|pose proof (above i x Hx Hi l)]; lra. Qed.

(** strictly decreasing in the gap *)
Lemma gap_decr x y : p k < x -> x < y -> y < p (S k) -> pole_sum n p y < pole_sum n p x.
Proof.
  intros Hx Hxy Hy. apply Rminus_gt_0_lt. unfold pole_sum. rewrite <- rsum_sub.
  assert (T : forall i, (i < n)%nat -> 0 < / (x - p i) - / (y - p i)).
  { intros i Hi. assert (X : x - p i <> 0) by (pose proof (off_pole i x ltac:(lra) Hi); lra). assert (Y : y - p i <> 0) by (pose proof (off_pole i y ltac:(lra) Hi); lra).
    replace (/ (x - p i) - / (y - p i)) with ((y - x) * / ((x - p i) * (y - p i))) by (field; split; assumption).
    apply Rmult_lt_0_compat; [lra|]. apply Rinv_0_lt_compat.
    destruct (le_lt_dec i k) as [L|L].
    - pose proof (below i x ltac:(lra) Hi L). apply Rmult_lt_0_compat; lra.
    - pose proof (above i y ltac:(lra) Hi L). replace ((x - p i) * (y - p i)) with ((p i - x) * (p i - y)) by ring. apply Rmult_lt_0_compat; lra. }
  destruct n as [|m] eqn:E; [lia|]. rewrite rsum_S_l. pose proof (T 0%nat ltac:(lia)).
  assert (0 <= rsum m (fun i => / (x - p (S i)) - / (y - p (S i)))) by (apply rsum_nonneg; intros i Hi; left; apply T; lia). lra.
Qed.

Lemma cont x : p k < x < p (S k) -> continuity_pt (fun x => - pole_sum n p x) x.
Proof.
  intros Hx. apply continuity_pt_opp.
  assert (G : forall m, (m <= n)%nat -> continuity_pt (fun x => rsum m (fun i => / (x - p i))) x); [|now apply G].
  induction m as [|m IH]; intros Hm.
  - unfold rsum. cbn. apply continuity_pt_const. intros a b. reflexivity.
  - apply (continuity_pt_locally_ext (fun x => rsum m (fun i => / (x - p i)) + / (x - p m)) _ 1); [lra|intros; now rewrite rsum_S|].
    apply (continuity_pt_plus (fun x => rsum m (fun i => / (x - p i))) (fun x => / (x - p m))); [apply IH; lia|].
    apply (continuity_pt_inv (fun x => x - p m)).
    + apply (continuity_pt_minus (fun x => x) (fun _ => p m)); [apply derivable_continuous_pt, derivable_pt_id|apply continuity_pt_const; intros a b; reflexivity].
    + pose proof (off_pole m x Hx ltac:(lia)). lra.
Qed.

Let g : R := p (S k) - p k.
Let d : R := g / (4 * INR n).
Lemma d_small : 0 < g /\ 0 < d /\ d < g / 4 /\ INR n * (2 / g) < / d.
Proof.
  assert (G : 0 < g) by (pose proof (inc k Hk); unfold g; lra). assert (N : 2 <= INR n). { change 2 with (INR 2). apply le_INR. lia. }
  assert (D : 0 < d). { unfold d. apply Rmult_lt_0_compat; [auto|]. apply Rinv_0_lt_compat. lra. }
  split; [auto|]. split; [auto|]. split.
  - unfold d. apply Rmult_lt_compat_l; [auto|]. apply Rinv_lt_contravar; lra.
  - replace (/ d) with (INR n * (4 / g)) by (unfold d; field; lra). apply Rmult_lt_compat_l; [lra|]. apply Rmult_lt_compat_r; [now apply Rinv_0_lt_compat|lra].
Qed.
Lemma left_pos : 0 < pole_sum n p (p k + d).
Proof.
  destruct d_small as (G & D & D4 & B). assert (X : p k < p k + d < p (S k)) by (unfold g in *; lra).
  assert (T : forall i, (i < n)%nat -> - (2 / g) <= / (p k + d - p i)).
  { intros i Hi. destruct (le_lt_dec i k) as [L|L].
    - pose proof (below i _ X Hi L). assert (0 < / (p k + d - p i)) by (apply Rinv_0_lt_compat; lra). assert (0 < 2 / g) by (apply Rmult_lt_0_compat; [lra|now apply Rinv_0_lt_compat]). lra.
    - pose proof (inc_le (S k) i L Hi). replace (/ (p k + d - p i)) with (- / (p i - (p k + d))) by (field; split; unfold g in *; lra). apply Ropp_le_contravar.
      replace (2 / g) with (/ (g / 2)) by (field; lra). apply Rinv_le_contravar; unfold g in *; lra. }
  apply Rlt_le_trans with (rsum n (fun i => (if (i =? k)%nat then / d else 0) + - (2 / g))).
  - rewrite rsum_add, rsum_const. rewrite (rsum_single n _ k ltac:(lia)), Nat.eqb_refl; [lra|]. intros j _ N. destruct (Nat.eqb_spec j k); [congruence|reflexivity].
  - apply rsum_le. intros i Hi. destruct (Nat.eqb_spec i k) as [->|N].
    + replace (p k + d - p k) with d by ring. assert (0 < 2 / g) by (apply Rmult_lt_0_compat; [lra|now apply Rinv_0_lt_compat]). lra.
    + pose proof (T i Hi). lra.
Qed.
Lemma right_neg : pole_sum n p (p (S k) - d) < 0.
Proof.
  destruct d_small as (G & D & D4 & B). assert (X : p k < p (S k) - d < p (S k)) by (unfold g in *; lra).
  assert (G2 : 0 < 2 / g) by (apply Rmult_lt_0_compat; [lra|now apply Rinv_0_lt_compat]).
  assert (T : forall i, (i < n)%nat -> / (p (S k) - d - p i) <= 2 / g).
  { intros i Hi. destruct (le_lt_dec i k) as [L|L].
    - pose proof (inc_le i k L ltac:(lia)). replace (2 / g) with (/ (g / 2)) by (field; lra). apply Rinv_le_contravar; unfold g in *; lra.
    - pose proof (above i _ X Hi L). replace (/ (p (S k) - d - p i)) with (- / (p i - (p (S k) - d))) by (field; split; lra).
      assert (0 < / (p i - (p (S k) - d))) by (apply Rinv_0_lt_compat; lra). lra. }
  apply Rle_lt_trans with (rsum n (fun i => (if (i =? S k)%nat then - / d else 0) + 2 / g)).
  - apply rsum_le. intros i Hi. destruct (Nat.eqb_spec i (S k)) as [->|N].
    + replace (p (S k) - d - p (S k)) with (- d) by ring. rewrite Rinv_opp. lra.
    + pose proof (T i Hi). lra.
  - rewrite rsum_add, rsum_const. rewrite (rsum_single n _ (S k) Hk), Nat.eqb_refl; [lra|]. intros j _ N. destruct (Nat.eqb_spec j (S k)); [congruence|reflexivity].
Qed.
Theorem gap_root : exists x, p k < x < p (S k) /\ pole_sum n p x = 0 /\ forall y, p k < y < p (S k) -> pole_sum n p y = 0 -> y = x.
Proof.
  destruct d_small as (G & D & D4 & _). pose proof left_pos as L. pose proof right_neg as Rn.
  destruct (IVT_interv (fun x => - pole_sum n p x) (p k + d) (p (S k) - d)) as (x & Hx & E).
  - intros a Ha. apply cont. unfold g in *. lra.
  - unfold g in *. lra.
  - lra.
  - lra.
  - exists x. split; [unfold g in *; lra|]. split; [lra|]. intros y Hy Ey.
    destruct (Rtotal_order y x) as [C|[C|C]]; auto; exfalso.
    + pose proof (gap_decr y x ltac:(lra) C ltac:(unfold g in *; lra)). lra.
    + pose proof (gap_decr x y ltac:(unfold g in *; lra) C ltac:(lra)). lra.
Qed.
End K.

(** What the roots are good for. *)
Lemma roots_off e : gap_roots n p e -> forall k i, (S k < n)%nat -> (i < n)%nat -> e k <> p i.
Proof. intros G k i Hk Hi. destruct (G k Hk) as [Q _]. now apply (off_pole k Hk i (e k)). Qed.
Lemma roots_lt e : gap_roots n p e -> forall k l, (S l < n)%nat -> (k < l)%nat -> e k < e l.
Proof. intros G k l Hl Hkl. destruct (G k ltac:(lia)) as [Q _]. destruct (G l Hl) as [Q' _]. pose proof (inc_le (S k) l Hkl ltac:(lia)). lra. Qed.
Lemma roots_dist e : gap_roots n p e -> forall k l, (S k < n)%nat -> (S l < n)%nat -> k <> l -> e k <> e l.
Proof. intros G k l Hk Hl N. destruct (lt_dec k l) as [L|L]; [pose proof (roots_lt e G k l Hl L)|pose proof (roots_lt e G l k Hk ltac:(lia))]; lra. Qed.
End Gap.
