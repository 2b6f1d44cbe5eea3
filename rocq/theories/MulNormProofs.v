(** The norm of a lowered state. *)
From Coq Require Import Reals List Arith NArith ZArith Bool Lia Lra Psatz Ring Field.
From Verif Require Import Base RBase RLin CBase OperatorsSpec FockSpec FockProofs LookupProofs SectorModel SectorSpec LocalModel MatvecModel EspaceModel ProjModel ProjSpec ProjProofs ProjFinalProofs
  CfModel GfModel GfSpec GfProofs GfSumProofs GfMoreProofs GmModel GmSpec GmFockProofs GmProofs GmFreeProofs GmEomProofs GmEspaceProofs ObsMoreProofs GflSpec GflLoopProofs SiamSpec SiamFockProofs SiamStateProofs MulProofs.
Import ListNotations.
Local Open Scope R_scope.

Definition sq (m : nat) (f : nat -> R) : R := rsum m (fun b => f b * f b).
Lemma sq_nonneg m f : 0 <= sq m f.
Proof. unfold sq. induction m as [|m IH]; [unfold rsum; cbn; lra|]. rewrite rsum_S. nra. Qed.
Lemma sq_pos m f b : (b < m)%nat -> f b <> 0 -> 0 < sq m f.
Proof.
  intros Hb NZ. unfold sq in *. induction m as [|m IH]; [lia|]. rewrite rsum_S. destruct (Nat.eq_dec b m) as [->|NE].
  - pose proof (sq_nonneg m f) as Q. unfold sq in Q. nra.
  - assert (b < m)%nat by lia. specialize (IH H). nra.
Qed.
Lemma rsum_delta2 n (g : nat -> nat -> R) : rsum n (fun k => rsum n (fun l => if (k =? l)%nat then g k l else 0)) = rsum n (fun k => g k k).
Proof.
  apply rsum_ext. intros k Hk. rewrite (rsum_single n _ k Hk) by (auto; intros l Hl NE; destruct (Nat.eqb_spec k l); [congruence|reflexivity]). now rewrite Nat.eqb_refl.
Qed.

(** The number of electrons of one spin. *)
Lemma quad2_count n s p q (I : sct RRing) f : (s <= 1)%nat -> is_sector RRing n p q I ->
  rsum n (fun k => quad2 n I [Cr (k + s * n); An (k + s * n)] f f) = INR (match s with O => p | _ => q end) * sq (sdim RRing I) f.
Proof.
  intros Hs HI. unfold quad2, sq. rewrite rsum_swap, <- rsum_scal_l. apply rsum_ext. intros b Hb.
  rewrite (rsum_ext n _ (fun k => f b * f b * (if occ (basis RRing n I b) (k + s * n) then 1 else 0))).
  - rewrite rsum_scal_l, Rmult_comm. f_equal. destruct (basis_sec n p q I b HI Hb) as (x & y & E & SX & SY). rewrite E.
    destruct s as [|[|]]; [| |lia].
    + rewrite <- (count_sites x n p SX). apply rsum_ext. intros k Hk. rewrite occ_combine by apply SX. rewrite Nat.mul_0_l, Nat.add_0_r. destruct (Nat.ltb_spec k n); [reflexivity|lia].
    + rewrite <- (count_sites y n q SY). apply rsum_ext. intros k Hk. rewrite occ_combine by apply SX. destruct (Nat.ltb_spec (k + 1 * n) n); [lia|]. now replace (k + 1 * n - n)%nat with k by lia.
  - intros k Hk. rewrite (rsum_single _ _ b Hb).
    + rewrite elem_num by nia. rewrite N.eqb_refl. cbn [andb]. destruct (occ _ _); [change (@z2k RRing 1%Z) with 1|change (@z2k RRing 0%Z) with 0]; ring.
    + intros c Hc NE. rewrite elem_num by nia. destruct (N.eqb_spec (basis RRing n I b) (basis RRing n I c)) as [EQ|]; [exfalso; apply NE; symmetry; exact (basis_inj n p q I b c HI Hb Hc EQ)|].
      cbn [andb]. change (@z2k RRing 0%Z) with 0. ring.
Qed.
(** A sum of operators of one kind. *)
Lemma square_of_sum n s op p q p' q' I J (F : nat -> nat -> R) : (s <= 1)%nat -> GmFockProofs.shifted op s p q p' q' -> is_sector RRing n p q I -> is_sector RRing n p' q' J ->
  sq (sdim RRing J) (fun a => rsum n (fun k => act n s op J I k (F k) a)) = rsum n (fun k => rsum n (fun l => quad2 n I [lad (opp_op op) (k + s * n); lad op (l + s * n)] (F k) (F l))).
Proof.
  intros Hs SH HI HJ. unfold sq.
  rewrite (rsum_ext _ _ (fun a => rsum n (fun k => rsum n (fun l => act n s op J I k (F k) a * act n s op J I l (F l) a)))).
  - rewrite rsum_swap. apply rsum_ext. intros k Hk. rewrite rsum_swap. apply rsum_ext. intros l Hl. exact (act_overlap n s Hs op p q p' q' I J SH HI HJ k l (F k) (F l) Hk Hl).
  - intros a _. rewrite <- rsum_scal_r. apply rsum_ext. intros k _. now rewrite <- rsum_scal_l.
Qed.

Section Norm.
Variables (n p q : nat) (I J L : sct RRing).
Hypothesis HI : is_sector RRing n (S p) q I.
Hypothesis HJ : is_sector RRing n p q J.
Hypothesis HL : is_sector RRing n p (S q) L.
Hypothesis Hp : (S p <= n)%nat.
Hypothesis Hq : (S q <= n)%nat.
Variable f : nat -> R.
Notation F k := (act n 0 OpC J I k f).
Notation nf := (sq (sdim RRing I) f).
Lemma lower_square : sq (sdim RRing L) (lower n I J L f) = INR (S p) * nf - rsum n (fun k => rsum n (fun l => quad2 n J [Cr (l + 1 * n); An (k + 1 * n)] (F k) (F l))).
Proof.
  unfold lower. rewrite (square_of_sum n 1 OpCdg p q p (S q) J L (fun k => F k) ltac:(lia) ltac:(split; reflexivity) HJ HL). cbn [opp_op lad].
  rewrite (rsum_ext n _ (fun k => rsum n (fun l => if (k =? l)%nat then rsum (sdim RRing J) (fun b => F k b * F l b) else 0) - rsum n (fun l => quad2 n J [Cr (l + 1 * n); An (k + 1 * n)] (F k) (F l)))).
  - rewrite rsum_sub, rsum_delta2. f_equal. rewrite <- (quad2_count n 0 (S p) q I f ltac:(lia) HI). apply rsum_ext. intros k Hk.
    exact (act_overlap n 0 ltac:(lia) OpC (S p) q p q I J ltac:(split; reflexivity) HI HJ k k f f Hk Hk).
  - intros k Hk. rewrite <- rsum_sub. apply rsum_ext. intros l Hl. rewrite <- (quad2_car n 1 p q J ltac:(lia) HJ k l (F k) (F l) Hk Hl). ring.
Qed.
Lemma pairs_bound : rsum n (fun k => rsum n (fun l => quad2 n J [Cr (l + 1 * n); An (k + 1 * n)] (F k) (F l))) <= INR q * nf.
Proof.
  destruct (proj2 (proj2 HI)) as [H32 _]. destruct q as [|q0] eqn:EQ.
  - right. cbn [INR]. rewrite Rmult_0_l. apply rsum_0. intros k Hk. apply rsum_0. intros l Hl.
    apply (quad2_edge n 1 p 0 J ltac:(lia) HJ OpC (Cr (l + 1 * n)) k _ _ Hk). intros p' q' SH. cbn in SH. destruct SH; lia.
  - set (M := bare n (S p) q0). set (K := bare n p q0).
    assert (HM : is_sector RRing n (S p) q0 M) by (apply bare_sector; lia || exact H32). assert (HK : is_sector RRing n p q0 K) by (apply bare_sector; lia || exact H32).
    set (D := fun l => act n 1 OpC M I l f).
    assert (E : forall k l, (k < n)%nat -> (l < n)%nat -> quad2 n J [Cr (l + 1 * n); An (k + 1 * n)] (F k) (F l) =
      (if (l =? k)%nat then rsum (sdim RRing M) (fun b => D l b * D k b) else 0) - quad2 n M [An (l + 0 * n); Cr (k + 0 * n)] (D l) (D k)).
    { intros k l Hk Hl. rewrite <- (quad2_car n 0 (S p) q0 M ltac:(lia) HM l k (D l) (D k) Hl Hk).
      pose proof (act_overlap n 1 ltac:(lia) OpC p (S q0) p q0 J K ltac:(split; reflexivity) HJ HK l k (F k) (F l) Hl Hk) as A1. cbn [opp_op lad] in A1. rewrite <- A1.
      pose proof (act_overlap n 0 ltac:(lia) OpC (S p) q0 p q0 M K ltac:(split; reflexivity) HM HK k l (D l) (D k) Hk Hl) as A2. cbn [opp_op lad] in A2. rewrite <- A2.
      rewrite (rsum_ext _ _ (fun a => act n 0 OpC K M k (D l) a * act n 0 OpC K M l (D k) a)); [ring|].
      intros a _. unfold D. rewrite (act_swap n p q0 I J M K k l f a Hk Hl HI HJ HM), (act_swap n p q0 I J M K l k f a Hl Hk HI HJ HM). ring. }
    rewrite (rsum_ext n _ (fun k => rsum n (fun l => if (k =? l)%nat then rsum (sdim RRing M) (fun b => D l b * D k b) else 0) - rsum n (fun l => quad2 n M [An (l + 0 * n); Cr (k + 0 * n)] (D l) (D k)))).
    + rewrite rsum_sub, (rsum_delta2 n (fun k l => rsum (sdim RRing M) (fun b => D l b * D k b))).
      assert (T : rsum n (fun k => rsum (sdim RRing M) (fun b => D k b * D k b)) = INR (S q0) * nf).
      { rewrite <- (quad2_count n 1 (S p) (S q0) I f ltac:(lia) HI). apply rsum_ext. intros k Hk.
        exact (act_overlap n 1 ltac:(lia) OpC (S p) (S q0) (S p) q0 I M ltac:(split; reflexivity) HI HM k k f f Hk Hk). }
      rewrite T. enough (0 <= rsum n (fun k => rsum n (fun l => quad2 n M [An (l + 0 * n); Cr (k + 0 * n)] (D l) (D k)))) by lra.
      destruct (Nat.eq_dec (S p) n) as [EN|NE].
      * right. symmetry. apply rsum_0. intros k Hk. apply rsum_0. intros l Hl.
        apply (quad2_edge n 0 (S p) q0 M ltac:(lia) HM OpCdg (An (l + 0 * n)) k _ _ Hk). intros p' q' SH. cbn in SH. destruct SH; lia.
      * assert (HT : is_sector RRing n (S (S p)) q0 (bare n (S (S p)) q0)) by (apply bare_sector; lia || exact H32).
        rewrite rsum_swap. pose proof (square_of_sum n 0 OpCdg (S p) q0 (S (S p)) q0 M _ D ltac:(lia) ltac:(split; reflexivity) HM HT) as SQ. cbn [opp_op lad] in SQ. rewrite <- SQ. apply sq_nonneg.
    + intros k Hk. rewrite <- rsum_sub. apply rsum_ext. intros l Hl. rewrite (E k l Hk Hl), (Nat.eqb_sym l k). reflexivity.
Qed.
Theorem lower_norm : (INR (S p) - INR q) * nf <= sq (sdim RRing L) (lower n I J L f).
Proof. rewrite lower_square. pose proof pairs_bound. lra. Qed.
End Norm.
