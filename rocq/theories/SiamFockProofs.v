(** Equation of motion of one ladder operator for electrons with a repulsion on each site. *)
From Coq Require Import Reals List Arith NArith ZArith Bool Lia Lra Psatz Ring Field.
From Verif Require Import Base RBase RLin CBase OperatorsSpec FockSpec FockProofs SectorModel LocalModel MatvecModel EspaceModel ProjModel ProjSpec ProjProofs ProjFinalProofs
  CfModel GfModel GfSpec GfProofs GfSumProofs GfMoreProofs GmModel GmSpec GmFockProofs GmProofs GmFreeProofs GmEomProofs GflSpec SiamSpec.
Import ListNotations.
Local Open Scope R_scope.

Lemma commutator_op op m x y w t s : (x < m)%nat -> (y < m)%nat -> (w < m)%nat ->
  side op * (@z2k RRing (elem m [Cr x; An y; lad op w] t s) - @z2k RRing (elem m [lad op w; Cr x; An y] t s)) =
  match op with OpCdg => if (y =? w)%nat then @z2k RRing (elem m [Cr x] t s) else 0 | OpC => if (x =? w)%nat then @z2k RRing (elem m [An y] t s) else 0 end.
Proof.
  intros Hx Hy Hw. destruct op; cbn [lad side].
  - rewrite (elem_adj m [Cr x; An y; An w]), (elem_adj m [An w; Cr x; An y]), (elem_adj m [An y]). cbn [rev map app adj].
    rewrite <- z2k_sub. pose proof (commutator m y x w s t Hy Hx Hw) as C.
    replace (elem m [Cr w; Cr y; An x] s t - elem m [Cr y; An x; Cr w] s t)%Z with (- (if (x =? w)%nat then elem m [Cr y] s t else 0))%Z by lia.
    etransitivity; [apply f_equal, (z2k_opp RRing)|]. change (copp RRing) with Ropp. destruct (x =? w)%nat; [ring|]. change (@z2k RRing 0%Z) with 0. ring.
  - rewrite <- z2k_sub, commutator by auto. destruct (y =? w)%nat; [ring|]. change (@z2k RRing 0%Z) with 0. ring.
Qed.

(** What one operator changes. *)
Lemma elem1_toggles op m w t s : elem m [lad op w] t s <> 0%Z -> (forall k, k <> w -> occ t k = occ s k) /\ occ t w = (match op with OpCdg => true | OpC => false end) /\ occ s w = (match op with OpCdg => false | OpC => true end).
Proof.
  unfold elem. destruct (word m [lad op w] s) as [[z u]|] eqn:W; [|congruence]. destruct (N.eqb_spec u t) as [->|]; [|congruence]. intros _.
  apply word1 in W. destruct op; cbn [lad app1] in W; destruct (occ s w) eqn:E; try discriminate; injection W as _ <-.
  - pose proof (toggles_clearbit s w E) as T. split; [|split; [|reflexivity]].
    + intros k NE. rewrite (T k). destruct (Nat.eqb_spec k w); [congruence|]. reflexivity.
    + rewrite (T w), Nat.eqb_refl, E. reflexivity.
  - pose proof (toggles_setbit s w E) as T. split; [|split; [|reflexivity]].
    + intros k NE. rewrite (T k). destruct (Nat.eqb_spec k w); [congruence|]. reflexivity.
    + rewrite (T w), Nat.eqb_refl, E. reflexivity.
Qed.

Section Fock.
Variables (n s : nat) (h : nat -> nat -> nat -> R) (u : nat -> R).
Hypothesis Hs : (s <= 1)%nat.
Hypothesis Hh : forall s x y, (s < 2)%nat -> (x < n)%nat -> (y < n)%nat -> h s x y = h s y x.
Notation el o := (@z2k RRing (elem (2 * n) o _ _)) (only parsing).

Lemma repel_diff op k t t' : (k < n)%nat -> @z2k RRing (elem (2 * n) [lad op (k + s * n)] t t') * (repel n u t - repel n u t') =
  side op * (u k * occR t (other n s k)) * @z2k RRing (elem (2 * n) [lad op (k + s * n)] t t').
Proof.
  intros Hk. destruct (Z.eq_dec (elem (2 * n) [lad op (k + s * n)] t t') 0) as [E|NE]; [rewrite E; change (@z2k RRing 0%Z) with 0; ring|].
  destruct (elem1_toggles op _ _ _ _ NE) as (T & T1 & T2). rewrite Rmult_comm. f_equal. unfold repel. rewrite <- rsum_sub. rewrite (rsum_single n _ k Hk).
  - unfold other, occR. assert (S01 : s = 0%nat \/ s = 1%nat) by lia. destruct S01 as [-> | ->].
    + rewrite Nat.mul_0_l, Nat.add_0_r in T, T1, T2. rewrite T1, T2. replace (k + (1 - 0) * n)%nat with (k + n)%nat by lia. rewrite (T (k + n)%nat) by lia.
      destruct op; cbn [andb side]; destruct (occ t' (k + n)); ring.
    + rewrite Nat.mul_1_l in T, T1, T2. rewrite T1, T2. replace (k + (1 - 1) * n)%nat with k by lia. rewrite (T k) by lia.
      destruct op; rewrite ?andb_true_r, ?andb_false_r; cbn [side]; destruct (occ t' k); ring.
  - intros i Hi NEi. rewrite (T i), (T (i + n)%nat); [ring| |]; assert (S01 : s = 0%nat \/ s = 1%nat) by lia; destruct S01 as [-> | ->]; lia.
Qed.
Lemma occ_other op k t t' : (k < n)%nat -> @z2k RRing (elem (2 * n) [lad op (k + s * n)] t t') * occR t (other n s k) = @z2k RRing (elem (2 * n) [lad op (k + s * n)] t t') * occR t' (other n s k).
Proof.
  intros Hk. destruct (Z.eq_dec (elem (2 * n) [lad op (k + s * n)] t t') 0) as [E|NE]; [rewrite E; change (@z2k RRing 0%Z) with 0; ring|].
  destruct (elem1_toggles op _ _ _ _ NE) as (T & _). unfold occR. rewrite T; [reflexivity|]. unfold other. assert (S01 : s = 0%nat \/ s = 1%nat) by lia. destruct S01 as [-> | ->]; lia.
Qed.

(** The operator on the site [k] applied to the vector [f] of the sector [I]. *)
Definition act (op : fop) (J I : sct RRing) (k : nat) (f : nat -> R) (a : nat) : R :=
  rsum (sdim RRing I) (fun b => @z2k RRing (elem (2 * n) [lad op (k + s * n)] (basis RRing n J a) (basis RRing n I b)) * f b).

Variables (op : fop) (p q p' q' : nat) (I J : sct RRing).
Hypothesis SH : shifted op s p q p' q'.
Hypothesis HI : is_sector RRing n p q I.
Hypothesis HJ : is_sector RRing n p' q' J.
Notation tI := (basis RRing n I).
Notation tJ := (basis RRing n J).
Notation dI := (sdim RRing I).
Notation dJ := (sdim RRing J).
Notation e k a b := (@z2k RRing (elem (2 * n) [lad op (k + s * n)] (tJ a) (tI b))).

Lemma hub_left k a b : (k < n)%nat -> (a < dJ)%nat -> (b < dI)%nat -> rsum dJ (fun c => hubbard n h u (tJ a) (tJ c) * e k c b) =
  hop_sum n h (fun x y => [Cr x; An y; lad op (k + s * n)]) (tJ a) (tI b) + repel n u (tJ a) * e k a b.
Proof.
  intros Hk Ha Hb. unfold hubbard. rewrite (rsum_ext dJ _ (fun c => free_ham n h (tJ a) (tJ c) * e k c b + (if N.eqb (tJ a) (tJ c) then repel n u (tJ c) else 0) * e k c b)) by (intros; ring).
  rewrite rsum_add. f_equal.
  - apply (hop_sum_ins n h p' q' J [lad op (k + s * n)] _ _ HJ). intros z t W. apply word1 in W.
    exact (to_sector op n s k p q p' q' _ z t Hs Hk SH (basis_sec n p q I b HI Hb) W).
  - rewrite (rsum_single dJ _ a Ha); [now rewrite N.eqb_refl|]. intros c Hc NE. destruct (N.eqb_spec (tJ a) (tJ c)) as [E|]; [|ring].
    exfalso. apply NE. symmetry. now apply (basis_inj n p' q' J).
Qed.
Lemma hub_right k a b : (k < n)%nat -> (a < dJ)%nat -> (b < dI)%nat -> rsum dI (fun c => e k a c * hubbard n h u (tI c) (tI b)) =
  hop_sum n h (fun x y => [lad op (k + s * n); Cr x; An y]) (tJ a) (tI b) + repel n u (tI b) * e k a b.
Proof.
  intros Hk Ha Hb. unfold hubbard. rewrite (rsum_ext dI _ (fun c => e k a c * free_ham n h (tI c) (tI b) + (if N.eqb (tI c) (tI b) then repel n u (tI b) else 0) * e k a c)) by (intros; ring).
  rewrite rsum_add. f_equal.
  - apply (ins_hop_sum n h Hh p q I [lad op (k + s * n)] _ _ HI). exact (basis_sec n p q I b HI Hb).
  - rewrite (rsum_single dI _ b Hb); [now rewrite N.eqb_refl|]. intros c Hc NE. destruct (N.eqb_spec (tI c) (tI b)) as [E|]; [|ring].
    exfalso. apply NE. now apply (basis_inj n p q I).
Qed.
Lemma hop_commutator k a b : (k < n)%nat -> side op * (hop_sum n h (fun x y => [Cr x; An y; lad op (k + s * n)]) (tJ a) (tI b) - hop_sum n h (fun x y => [lad op (k + s * n); Cr x; An y]) (tJ a) (tI b)) =
  rsum n (fun l => h s l k * e l a b).
Proof.
  intros Hk. unfold hop_sum. rewrite <- rsum_sub, <- rsum_scal_l. rewrite (rsum_single 2 _ s ltac:(lia)).
  - rewrite <- rsum_sub, <- rsum_scal_l.
    transitivity (rsum n (fun x => rsum n (fun y => h s x y * match op with OpCdg => if (y =? k)%nat then @z2k RRing (elem (2 * n) [Cr (x + s * n)] (tJ a) (tI b)) else 0
      | OpC => if (x =? k)%nat then @z2k RRing (elem (2 * n) [An (y + s * n)] (tJ a) (tI b)) else 0 end))).
    + apply rsum_ext. intros x Hx. rewrite <- rsum_sub, <- rsum_scal_l. apply rsum_ext. intros y Hy.
      pose proof (commutator_op op (2 * n) (x + s * n) (y + s * n) (k + s * n) (tJ a) (tI b) ltac:(nia) ltac:(nia) ltac:(nia)) as C.
      replace (y + s * n =? k + s * n)%nat with (y =? k)%nat in C by (destruct (Nat.eqb_spec y k), (Nat.eqb_spec (y + s * n) (k + s * n)); auto; lia).
      replace (x + s * n =? k + s * n)%nat with (x =? k)%nat in C by (destruct (Nat.eqb_spec x k), (Nat.eqb_spec (x + s * n) (k + s * n)); auto; lia).
      rewrite <- C. ring.
    + destruct op; cbn [lad].
      * rewrite (rsum_single n _ k Hk).
        -- rewrite Nat.eqb_refl. apply rsum_ext. intros y Hy. rewrite (Hh s k y) by lia. reflexivity.
        -- intros x Hx NE. apply rsum_0. intros y _. destruct (Nat.eqb_spec x k); [congruence|ring].
      * apply rsum_ext. intros x Hx. rewrite (rsum_single n _ k Hk); [now rewrite Nat.eqb_refl|]. intros y _ NE. destruct (Nat.eqb_spec y k); [congruence|ring].
  - intros r Hr NE. rewrite <- rsum_sub, <- rsum_scal_l. apply rsum_0. intros x Hx. rewrite <- rsum_sub, <- rsum_scal_l. apply rsum_0. intros y Hy.
    pose proof (commutator_op op (2 * n) (x + r * n) (y + r * n) (k + s * n) (tJ a) (tI b) ltac:(nia) ltac:(nia) ltac:(nia)) as C.
    assert (x + r * n <> k + s * n)%nat by (assert (R01 : r = 0%nat \/ r = 1%nat) by lia; assert (S01 : s = 0%nat \/ s = 1%nat) by lia; destruct R01 as [-> | ->], S01 as [-> | ->]; lia).
    assert (y + r * n <> k + s * n)%nat by (assert (R01 : r = 0%nat \/ r = 1%nat) by lia; assert (S01 : s = 0%nat \/ s = 1%nat) by lia; destruct R01 as [-> | ->], S01 as [-> | ->]; lia).
    destruct (Nat.eqb_spec (x + r * n) (k + s * n)); [congruence|]. destruct (Nat.eqb_spec (y + r * n) (k + s * n)); [congruence|].
    assert (C0 : side op * (@z2k RRing (elem (2 * n) [Cr (x + r * n); An (y + r * n); lad op (k + s * n)] (tJ a) (tI b)) - @z2k RRing (elem (2 * n) [lad op (k + s * n); Cr (x + r * n); An (y + r * n)] (tJ a) (tI b))) = 0)
      by (rewrite C; destruct op; reflexivity).
    rewrite <- Rmult_minus_distr_l. transitivity (h r x y * (side op * (@z2k RRing (elem (2 * n) [Cr (x + r * n); An (y + r * n); lad op (k + s * n)] (tJ a) (tI b)) - @z2k RRing (elem (2 * n) [lad op (k + s * n); Cr (x + r * n); An (y + r * n)] (tJ a) (tI b))))); [ring|].
    rewrite C0. ring.
Qed.

(** The equation of motion. *)
Lemma motion k E f a : (k < n)%nat -> (a < dJ)%nat -> (forall b, (b < dI)%nat -> rsum dI (fun c => hubbard n h u (tI b) (tI c) * f c) = E * f b) ->
  side op * (rsum dJ (fun c => hubbard n h u (tJ a) (tJ c) * act op J I k f c) - E * act op J I k f a) =
  rsum n (fun l => h s l k * act op J I l f a) + u k * occR (tJ a) (other n s k) * act op J I k f a.
Proof.
  intros Hk Ha HE.
  assert (A : rsum dJ (fun c => hubbard n h u (tJ a) (tJ c) * act op J I k f c) =
    rsum dI (fun b => (hop_sum n h (fun x y => [Cr x; An y; lad op (k + s * n)]) (tJ a) (tI b) + repel n u (tJ a) * e k a b) * f b)).
  { unfold act. rewrite (rsum_ext dJ _ (fun c => rsum dI (fun b => hubbard n h u (tJ a) (tJ c) * e k c b * f b))) by (intros c _; rewrite <- rsum_scal_l; apply rsum_ext; intros; ring).
    rewrite rsum_swap. apply rsum_ext. intros b Hb. rewrite rsum_scal_r. f_equal. now apply hub_left. }
  assert (C : E * act op J I k f a = rsum dI (fun b => (hop_sum n h (fun x y => [lad op (k + s * n); Cr x; An y]) (tJ a) (tI b) + repel n u (tI b) * e k a b) * f b)).
  { unfold act. rewrite <- rsum_scal_l. rewrite (rsum_ext dI _ (fun b => rsum dI (fun c => e k a b * hubbard n h u (tI b) (tI c) * f c))).
    - rewrite rsum_swap. apply rsum_ext. intros b Hb. rewrite rsum_scal_r. f_equal. now apply hub_right.
    - intros b Hb. transitivity (e k a b * (E * f b)); [ring|]. rewrite <- HE by auto. rewrite <- rsum_scal_l. apply rsum_ext. intros; ring. }
  rewrite A, C, <- rsum_sub, <- rsum_scal_l.
  unfold act. rewrite <- rsum_scal_l.
  rewrite (rsum_ext n _ (fun l => rsum dI (fun b => h s l k * e l a b * f b))) by (intros l _; rewrite <- rsum_scal_l; apply rsum_ext; intros; ring).
  rewrite rsum_swap, <- rsum_add. apply rsum_ext. intros b Hb. rewrite rsum_scal_r. rewrite <- hop_commutator by auto.
  pose proof (repel_diff op k (tJ a) (tI b) Hk) as D.
  transitivity (side op * (hop_sum n h (fun x y => [Cr x; An y; lad op (k + s * n)]) (tJ a) (tI b) - hop_sum n h (fun x y => [lad op (k + s * n); Cr x; An y]) (tJ a) (tI b)) * f b +
    side op * (e k a b * (repel n u (tJ a) - repel n u (tI b))) * f b); [ring|].
  rewrite D. assert (S2 : side op * side op = 1) by (destruct op; cbn; ring).
  transitivity (side op * (hop_sum n h (fun x y => [Cr x; An y; lad op (k + s * n)]) (tJ a) (tI b) - hop_sum n h (fun x y => [lad op (k + s * n); Cr x; An y]) (tJ a) (tI b)) * f b +
    (side op * side op) * (u k * occR (tJ a) (other n s k)) * e k a b * f b); [ring|]. rewrite S2. ring.
Qed.
(** The spin left alone. *)
Lemma act_other k f a : (k < n)%nat -> occR (tJ a) (other n s k) * act op J I k f a = act op J I k (fun b => occR (tI b) (other n s k) * f b) a.
Proof.
  intros Hk. unfold act. rewrite <- rsum_scal_l. apply rsum_ext. intros b Hb. rewrite <- !Rmult_assoc. rewrite <- (occ_other op k (tJ a) (tI b) Hk). ring.
Qed.
(** Overlaps after the operator. *)
Definition quad2 (l : list ladder_op) (f g : nat -> R) : R :=
  rsum dI (fun b => rsum dI (fun b' => f b * g b' * @z2k RRing (elem (2 * n) l (tI b) (tI b')))).
Lemma act_overlap k l f g : (k < n)%nat -> (l < n)%nat -> rsum dJ (fun a => act op J I k f a * act op J I l g a) = quad2 [lad (opp_op op) (k + s * n); lad op (l + s * n)] f g.
Proof.
  intros Hk Hl. unfold act, quad2.
  transitivity (rsum dJ (fun a => rsum dI (fun b => rsum dI (fun b' => f b * g b' * (@z2k RRing (elem (2 * n) [lad (opp_op op) (k + s * n)] (tI b) (tJ a)) * e l a b'))))).
  - apply rsum_ext. intros a _. rewrite <- rsum_scal_r. apply rsum_ext. intros b _. rewrite <- rsum_scal_l. apply rsum_ext. intros b' _.
    rewrite (elem_adj _ [lad op (k + s * n)]). cbn [rev map app]. replace (adj (lad op (k + s * n))) with (lad (opp_op op) (k + s * n)) by (destruct op; reflexivity). ring.
  - rewrite rsum_swap. apply rsum_ext. intros b Hb. rewrite rsum_swap. apply rsum_ext. intros b' Hb'. rewrite rsum_scal_l. f_equal.
    apply (insert_basis n p' q' J [lad (opp_op op) (k + s * n)] [lad op (l + s * n)]); auto.
    intros z t W. apply word1 in W. exact (to_sector op n s l p q p' q' _ z t Hs Hl SH (basis_sec n p q I b' HI Hb') W).
Qed.
End Fock.
