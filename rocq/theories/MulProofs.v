(** Lowering the spin: it commutes with the Hamiltonian and loses no state above Sz = 0. *)
From Coq Require Import Reals List Arith NArith ZArith Bool Lia Lra Psatz Ring Field.
From Verif Require Import Base RBase RLin CBase OperatorsSpec FockSpec FockProofs LookupProofs SectorModel SectorSpec LocalModel MatvecModel EspaceModel ProjModel ProjSpec ProjProofs ProjFinalProofs
  CfModel GfModel GfSpec GfProofs GfSumProofs GfMoreProofs GmModel GmSpec GmFockProofs GmProofs GmFreeProofs GmEomProofs GmEspaceProofs ObsMoreProofs GflSpec GflLoopProofs SiamSpec SiamFockProofs SiamStateProofs.
Import ListNotations.
Local Open Scope R_scope.

(** ** Two operators *)
Lemma act_ext n s op J I k f g a : (forall b, (b < sdim RRing I)%nat -> f b = g b) -> act n s op J I k f a = act n s op J I k g a.
Proof. intros H. apply rsum_ext. intros b Hb. now rewrite H. Qed.
Lemma act_sum n s op J I k m (f : nat -> nat -> R) a : act n s op J I k (fun b => rsum m (fun l => f l b)) a = rsum m (fun l => act n s op J I k (f l) a).
Proof. unfold act. rewrite rsum_swap. apply rsum_ext. intros b _. now rewrite rsum_scal_l. Qed.
Lemma act_add n s op J I k f g a : act n s op J I k (fun b => f b + g b) a = act n s op J I k f a + act n s op J I k g a.
Proof. unfold act. rewrite <- rsum_add. apply rsum_ext. intros; ring. Qed.
Lemma act_scal n s op J I k c f a : act n s op J I k (fun b => c * f b) a = c * act n s op J I k f a.
Proof. unfold act. rewrite <- rsum_scal_l. apply rsum_ext. intros; ring. Qed.
Lemma act_act n s1 s2 o1 o2 p q p' q' I J K k l f a : (s2 <= 1)%nat -> (l < n)%nat -> GmFockProofs.shifted o2 s2 p q p' q' -> is_sector RRing n p q I -> is_sector RRing n p' q' J ->
  act n s1 o1 K J k (act n s2 o2 J I l f) a = rsum (sdim RRing I) (fun b => @z2k RRing (elem (2 * n) [lad o1 (k + s1 * n); lad o2 (l + s2 * n)] (basis RRing n K a) (basis RRing n I b)) * f b).
Proof.
  intros Hs Hl SH HI HJ. unfold act.
  rewrite (rsum_ext (sdim RRing J) _ (fun c => rsum (sdim RRing I) (fun b => @z2k RRing (elem (2 * n) [lad o1 (k + s1 * n)] (basis RRing n K a) (basis RRing n J c)) *
    @z2k RRing (elem (2 * n) [lad o2 (l + s2 * n)] (basis RRing n J c) (basis RRing n I b)) * f b))) by (intros c _; rewrite <- rsum_scal_l; apply rsum_ext; intros; ring).
  rewrite rsum_swap. apply rsum_ext. intros b Hb. rewrite rsum_scal_r. f_equal.
  apply (insert_basis n p' q' J [lad o1 (k + s1 * n)] [lad o2 (l + s2 * n)]); auto.
  intros z t W. apply word1 in W. exact (to_sector o2 n s2 l p q p' q' _ z t Hs Hl SH (basis_sec n p q I b HI Hb) W).
Qed.
Lemma anan m x y t s : (x < m)%nat -> (y < m)%nat -> (elem m [An x; An y] t s + elem m [An y; An x] t s = 0)%Z.
Proof. intros Hx Hy. rewrite (elem_adj m [An x; An y]), (elem_adj m [An y; An x]). cbn [rev map app adj]. rewrite Z.add_comm. rewrite Z.add_comm. apply crcr; assumption. Qed.
(** Annihilating both spins in either order. *)
Lemma act_swap n p q I J M K k l f a : (k < n)%nat -> (l < n)%nat -> is_sector RRing n (S p) (S q) I -> is_sector RRing n p (S q) J -> is_sector RRing n (S p) q M ->
  act n 1 OpC K J l (act n 0 OpC J I k f) a = - act n 0 OpC K M k (act n 1 OpC M I l f) a.
Proof.
  intros Hk Hl HI HJ HM. rewrite (act_act n 1 0 OpC OpC (S p) (S q) p (S q) I J K l k f a ltac:(lia) Hk ltac:(split; reflexivity) HI HJ).
  rewrite (act_act n 0 1 OpC OpC (S p) (S q) (S p) q I M K k l f a ltac:(lia) Hl ltac:(split; reflexivity) HI HM).
  rewrite <- (Rmult_1_l (rsum _ _)) at 1. apply Rminus_diag_uniq. unfold Rminus. rewrite Ropp_involutive, Rmult_1_l, <- rsum_add. apply rsum_0. intros b _. cbn [lad].
  rewrite <- Rmult_plus_distr_r. apply Rmult_eq_0_compat_r. etransitivity; [symmetry; apply (z2k_add RRing)|]. rewrite anan by lia. reflexivity.
Qed.

(** ** The equation of motion for any vector *)
Section Motion.
Variables (n s : nat) (h : nat -> nat -> nat -> R) (u : nat -> R).
Hypothesis Hs : (s <= 1)%nat.
Hypothesis Hh : forall s x y, (s < 2)%nat -> (x < n)%nat -> (y < n)%nat -> h s x y = h s y x.
Variables (op : fop) (p q p' q' : nat) (I J : sct RRing).
Hypothesis SH : GmFockProofs.shifted op s p q p' q'.
Hypothesis HI : is_sector RRing n p q I.
Hypothesis HJ : is_sector RRing n p' q' J.
Notation tI := (basis RRing n I).
Notation tJ := (basis RRing n J).
Notation dI := (sdim RRing I).
Notation dJ := (sdim RRing J).
Notation e k a b := (@z2k RRing (elem (2 * n) [lad op (k + s * n)] (tJ a) (tI b))).
Definition ham_on (X : sct RRing) (f : nat -> R) (a : nat) : R := rsum (sdim RRing X) (fun c => hubbard n h u (basis RRing n X a) (basis RRing n X c) * f c).
Lemma motion_any k f a : (k < n)%nat -> (a < dJ)%nat ->
  ham_on J (act n s op J I k f) a = act n s op J I k (ham_on I f) a + side op * (rsum n (fun l => h s l k * act n s op J I l f a) + u k * occR (tJ a) (other n s k) * act n s op J I k f a).
Proof.
  intros Hk Ha. set (hs1 := hop_sum n h (fun x y => [Cr x; An y; lad op (k + s * n)]) (tJ a)). set (hs2 := hop_sum n h (fun x y => [lad op (k + s * n); Cr x; An y]) (tJ a)).
  assert (A : ham_on J (act n s op J I k f) a = rsum dI (fun b => (hs1 (tI b) + repel n u (tJ a) * e k a b) * f b)).
  { unfold ham_on, act. rewrite (rsum_ext dJ _ (fun c => rsum dI (fun b => hubbard n h u (tJ a) (tJ c) * e k c b * f b))) by (intros c _; rewrite <- rsum_scal_l; apply rsum_ext; intros; ring).
    rewrite rsum_swap. apply rsum_ext. intros b Hb. rewrite rsum_scal_r. f_equal. now apply (hub_left n s h u Hs op p q p' q' I J SH HI HJ). }
  assert (C : act n s op J I k (ham_on I f) a = rsum dI (fun b => (hs2 (tI b) + repel n u (tI b) * e k a b) * f b)).
  { unfold act, ham_on. rewrite (rsum_ext dI _ (fun b => rsum dI (fun c => e k a b * hubbard n h u (tI b) (tI c) * f c))) by (intros b _; rewrite <- rsum_scal_l; apply rsum_ext; intros; ring).
    rewrite rsum_swap. apply rsum_ext. intros b Hb. rewrite rsum_scal_r. f_equal. now apply (hub_right n s h u Hh op p q I J HI). }
  rewrite A, C. unfold act. rewrite <- rsum_scal_l.
  rewrite (rsum_ext n _ (fun l => rsum dI (fun b => h s l k * e l a b * f b))) by (intros l _; rewrite <- rsum_scal_l; apply rsum_ext; intros; ring).
  rewrite rsum_swap, <- rsum_add, <- rsum_scal_l, <- rsum_add. apply rsum_ext. intros b Hb. rewrite rsum_scal_r.
  rewrite <- (hop_commutator n s h u Hs Hh op p q p' q' I J SH k a b Hk). fold hs1 hs2.
  pose proof (repel_diff n s h u Hs Hh op k (tJ a) (tI b) Hk) as D. assert (S2 : side op * side op = 1) by (destruct op; cbn; ring).
  transitivity ((hs2 (tI b) + repel n u (tI b) * e k a b) * f b + (hs1 (tI b) - hs2 (tI b)) * f b + e k a b * (repel n u (tJ a) - repel n u (tI b)) * f b); [ring|]. rewrite D.
  transitivity ((hs2 (tI b) + repel n u (tI b) * e k a b) * f b + (side op * side op) * (hs1 (tI b) - hs2 (tI b)) * f b + side op * (u k * occR (tJ a) (other n s k)) * e k a b * f b); [rewrite S2; ring|ring].
Qed.
(** The operator needs the orbital free (or taken) before, and leaves it so after. *)
Lemma act_blocked k f a : act n s op J I k (fun b => (if occ (tI b) (k + s * n) then (match op with OpCdg => 1 | OpC => 0 end) else (match op with OpCdg => 0 | OpC => 1 end)) * f b) a = 0.
Proof.
  clear SH. unfold act. apply rsum_0. intros b _. destruct (Z.eq_dec (elem (2 * n) [lad op (k + s * n)] (tJ a) (tI b)) 0) as [E|NE]; [rewrite E; change (@z2k RRing 0%Z) with 0; ring|].
  destruct (elem1_toggles op _ _ _ _ NE) as (_ & _ & T2). rewrite T2. destruct op; ring.
Qed.
Lemma act_after k f a : (if occ (tJ a) (k + s * n) then (match op with OpCdg => 0 | OpC => 1 end) else (match op with OpCdg => 1 | OpC => 0 end)) * act n s op J I k f a = 0.
Proof.
  clear SH. unfold act. rewrite <- rsum_scal_l. apply rsum_0. intros b _. destruct (Z.eq_dec (elem (2 * n) [lad op (k + s * n)] (tJ a) (tI b)) 0) as [E|NE]; [rewrite E; change (@z2k RRing 0%Z) with 0; ring|].
  destruct (elem1_toggles op _ _ _ _ NE) as (_ & T1 & _). rewrite T1. destruct op; ring.
Qed.
End Motion.

(** ** The lowering operator *)
Section Lower.
Variables (n p q : nat) (I J L : sct RRing).
Hypothesis HI : is_sector RRing n (S p) q I.
Hypothesis HJ : is_sector RRing n p q J.
Hypothesis HL : is_sector RRing n p (S q) L.
Notation dI := (sdim RRing I).
Notation dL := (sdim RRing L).
Definition lower (f : nat -> R) (a : nat) : R := rsum n (fun k => act n 1 OpCdg L J k (act n 0 OpC J I k f) a).
Lemma lower_scal c f a : lower (fun b => c * f b) a = c * lower f a.
Proof.
  unfold lower. rewrite <- rsum_scal_l. apply rsum_ext. intros k _. rewrite <- act_scal. apply act_ext. intros b _. apply act_scal.
Qed.
Lemma lower_sum m (f : nat -> nat -> R) a : lower (fun b => rsum m (fun l => f l b)) a = rsum m (fun l => lower (f l) a).
Proof.
  unfold lower. rewrite rsum_swap. apply rsum_ext. intros k _. rewrite <- act_sum. apply act_ext. intros b _. apply act_sum.
Qed.
Lemma lower_ext f g a : (forall b, (b < dI)%nat -> f b = g b) -> lower f a = lower g a.
Proof. intros H. apply rsum_ext. intros k _. apply act_ext. intros b _. now apply act_ext. Qed.

Theorem lower_commutes h u f a : (forall s x y, (s < 2)%nat -> (x < n)%nat -> (y < n)%nat -> h s x y = h s y x) -> (forall x y, (x < n)%nat -> (y < n)%nat -> h 1%nat x y = h 0%nat x y) ->
  (a < dL)%nat -> ham_on n h u L (lower f) a = lower (ham_on n h u I f) a.
Proof.
  intros Hh HF Ha.
  assert (E1 : ham_on n h u L (lower f) a = rsum n (fun k => ham_on n h u L (act n 1 OpCdg L J k (act n 0 OpC J I k f)) a)).
  { unfold ham_on, lower. rewrite rsum_swap. apply rsum_ext. intros c _. now rewrite rsum_scal_l. }
  rewrite E1.
  rewrite (rsum_ext n _ (fun k => act n 1 OpCdg L J k (act n 0 OpC J I k (ham_on n h u I f)) a + (rsum n (fun l => h 0%nat l k * act n 1 OpCdg L J l (act n 0 OpC J I k f) a) - rsum n (fun l => h 0%nat l k * act n 1 OpCdg L J k (act n 0 OpC J I l f) a)))).
  - rewrite rsum_add. unfold lower. rewrite <- (Rplus_0_r (rsum n (fun k => act n 1 OpCdg L J k (act n 0 OpC J I k (ham_on n h u I f)) a))) at 2. f_equal.
    rewrite rsum_sub. apply Rminus_diag_eq. rewrite rsum_swap. apply rsum_ext. intros l Hl. apply rsum_ext. intros k Hk. rewrite (Hh 0%nat l k) by lia. reflexivity.
  - intros k Hk. rewrite (motion_any n 1 h u ltac:(lia) Hh OpCdg p q p (S q) J L ltac:(split; reflexivity) HJ HL k _ a Hk Ha). cbn [side]. rewrite Rmult_1_l.
    assert (Z1 : occR (basis RRing n L a) (other n 1 k) * act n 1 OpCdg L J k (act n 0 OpC J I k f) a = 0).
    { rewrite (act_other n 1 h u ltac:(lia) Hh OpCdg J L k _ a Hk). etransitivity; [apply (act_ext n 1 OpCdg L J k _ (fun _ => 0))|unfold act; apply rsum_0; intros; ring].
      intros b Hb. pose proof (act_after n 0 OpC I J k f b) as Q. unfold occR, other. cbn [Nat.sub Nat.mul] in *. destruct (occ _ (k + 0)); [exact Q|ring]. }
    rewrite (Rmult_assoc (u k)), Z1, Rmult_0_r, Rplus_0_r.
    assert (E2 : act n 1 OpCdg L J k (ham_on n h u J (act n 0 OpC J I k f)) a = act n 1 OpCdg L J k (act n 0 OpC J I k (ham_on n h u I f)) a - rsum n (fun l => h 0%nat l k * act n 1 OpCdg L J k (act n 0 OpC J I l f) a)).
    { rewrite (act_ext n 1 OpCdg L J k _ (fun b => act n 0 OpC J I k (ham_on n h u I f) b + ((-1) * rsum n (fun l => h 0%nat l k * act n 0 OpC J I l f b) +
        (- u k) * ((if occ (basis RRing n J b) (k + 1 * n) then 1 else 0) * act n 0 OpC J I k f b)))).
      - rewrite !act_add, !act_scal, act_sum. rewrite (act_blocked n 1 OpCdg J L k _ a). rewrite (rsum_ext n (fun l => act n 1 OpCdg L J k (fun b => h 0%nat l k * act n 0 OpC J I l f b) a) (fun l => h 0%nat l k * act n 1 OpCdg L J k (act n 0 OpC J I l f) a)) by (intros l _; apply act_scal). ring.
      - intros b Hb. rewrite (motion_any n 0 h u ltac:(lia) Hh OpC (S p) q p q I J ltac:(split; reflexivity) HI HJ k _ b Hk Hb). cbn [side]. unfold occR, other. cbn [Nat.sub]. ring. }
    rewrite E2. rewrite (rsum_ext n (fun l => h 1%nat l k * _) (fun l => h 0%nat l k * act n 1 OpCdg L J l (act n 0 OpC J I k f) a)) by (intros l Hl; rewrite HF by auto; reflexivity). ring.
Qed.
End Lower.

(** ** Energies that depend on the charge of each site *)
Definition site_charge (n : nat) (t : N) (k : nat) : R := occR t k + occR t (k + n).
Definition charge_energy (n : nat) (W : N -> R) : Prop := forall t t', (forall k, (k < n)%nat -> site_charge n t k = site_charge n t' k) -> W t = W t'.
Lemma lower_charge n I J L W f a : charge_energy n W ->
  lower n I J L (fun b => W (basis RRing n I b) * f b) a = W (basis RRing n L a) * lower n I J L f a.
Proof.
  intros HW. unfold lower. rewrite <- rsum_scal_l. apply rsum_ext. intros k Hk. unfold act. rewrite <- rsum_scal_l. apply rsum_ext. intros c _.
  rewrite <- !rsum_scal_l. apply rsum_ext. intros b _.
  destruct (Z.eq_dec (elem (2 * n) [lad OpCdg (k + 1 * n)] (basis RRing n L a) (basis RRing n J c)) 0) as [E|N1]; [rewrite E; change (@z2k RRing 0%Z) with 0; ring|].
  destruct (Z.eq_dec (elem (2 * n) [lad OpC (k + 0 * n)] (basis RRing n J c) (basis RRing n I b)) 0) as [E|N2]; [rewrite E; change (@z2k RRing 0%Z) with 0; ring|].
  replace (W (basis RRing n L a)) with (W (basis RRing n I b)); [ring|]. apply HW. intros x Hx.
  destruct (elem1_toggles _ _ _ _ _ N1) as (A1 & A2 & A3). destruct (elem1_toggles _ _ _ _ _ N2) as (B1 & B2 & B3). cbn [Nat.mul Nat.add] in *. rewrite Nat.add_0_r in *.
  unfold site_charge, occR. destruct (Nat.eq_dec x k) as [->|NE].
  - rewrite A2, B3. rewrite (A1 k) by lia. rewrite B2. rewrite <- (B1 (k + n)%nat) by lia. rewrite A3. lra.
  - rewrite (A1 x), (A1 (x + n)%nat), (B1 x), (B1 (x + n)%nat) by lia. reflexivity.
Qed.
