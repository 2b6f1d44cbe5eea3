(** The excitations of one state: normalisation and equation of motion. *)
From Coq Require Import Reals List Arith NArith ZArith Bool Lia Lra Psatz Ring Field.
From Verif Require Import Base RBase RLin CBase OperatorsSpec FockSpec FockProofs SectorModel LocalModel MatvecModel EspaceModel ProjModel ProjSpec ProjProofs ProjFinalProofs
  CfModel CfSpec GfModel GfSpec GfProofs GfSumProofs GfMoreProofs GmModel GmSpec GmFockProofs GmProofs GmFreeProofs GmEomProofs GflSpec GflLoopProofs AgrProofs SiamSpec SiamFockProofs.
Import ListNotations.
Local Open Scope R_scope.

Section State.
Variables (n s p q : nat) (I : sct RRing).
Hypothesis Hs : (s <= 1)%nat.
Hypothesis HI : is_sector RRing n p q I.
Notation dI := (sdim RRing I).
Notation tI := (basis RRing n I).

Lemma quad2_sym x y f g : quad2 n I [Cr x; An y] f g = quad2 n I [Cr y; An x] g f.
Proof. unfold quad2. rewrite rsum_swap. apply rsum_ext. intros b _. apply rsum_ext. intros b' _. rewrite elem_adj. cbn [rev map app adj]. ring. Qed.
Lemma quad2_car x y f g : (x < n)%nat -> (y < n)%nat ->
  quad2 n I [An (x + s * n); Cr (y + s * n)] f g + quad2 n I [Cr (y + s * n); An (x + s * n)] f g = if (x =? y)%nat then rsum dI (fun b => f b * g b) else 0.
Proof.
  intros Hx Hy. unfold quad2. rewrite <- rsum_add.
  transitivity (rsum dI (fun b => rsum dI (fun b' => f b * g b' * (if (x =? y)%nat && (b =? b')%nat then 1 else 0)))).
  - apply rsum_ext. intros b Hb. rewrite <- rsum_add. apply rsum_ext. intros b' Hb'. rewrite <- Rmult_plus_distr_l. f_equal.
    etransitivity; [symmetry; apply (z2k_add RRing)|]. rewrite car by nia.
    replace (x + s * n =? y + s * n)%nat with (x =? y)%nat by (destruct (Nat.eqb_spec x y), (Nat.eqb_spec (x + s * n) (y + s * n)); auto; lia).
    destruct (x =? y)%nat; [|reflexivity]. cbn [andb].
    destruct (N.eqb_spec (basis RRing n I b) (basis RRing n I b')) as [Q|Q], (Nat.eqb_spec b b') as [E|E]; try reflexivity.
    + exfalso. apply E. now apply (basis_inj n p q I).
    + subst. congruence.
  - destruct (x =? y)%nat; cbn [andb].
    + apply rsum_ext. intros b Hb. rewrite (rsum_single _ _ b Hb); [rewrite Nat.eqb_refl; apply Rmult_1_r|]. intros b' _ N. destruct (Nat.eqb_spec b b'); [congruence|apply Rmult_0_r].
    + apply rsum_0. intros b _. apply rsum_0. intros b' _. apply Rmult_0_r.
Qed.
Lemma quad2_edge op x y f g : (y < n)%nat -> (forall p' q', GmFockProofs.shifted op s p q p' q' -> (n < p')%nat \/ (n < q')%nat) -> quad2 n I [x; lad op (y + s * n)] f g = 0.
Proof.
  intros Hy HE. apply rsum_0. intros b Hb. apply rsum_0. intros b' Hb'.
  replace (elem (2 * n) [x; lad op (y + s * n)] (basis RRing n I b) (basis RRing n I b')) with 0%Z; [change (@z2k RRing 0%Z) with 0; ring|].
  change [x; lad op (y + s * n)] with ([x] ++ [lad op (y + s * n)]). rewrite elem_snoc.
  destruct (app1 (2 * n) (lad op (y + s * n)) (basis RRing n I b')) as [[z u]|] eqn:A; [|reflexivity]. exfalso.
  destruct (sec_step op n s y p q _ z u Hs Hy (basis_sec n p q I b' HI Hb') A) as (p' & q' & SH & U). apply sec_bound in U. destruct (HE p' q' SH); lia.
Qed.

Lemma moved_some op p' q' : moved n op (Z.of_nat s) p q = Some (p', q') -> GmFockProofs.shifted op s p q p' q' /\ is_sector RRing n p' q' (bare n p' q').
Proof.
  pose proof HI as (Hp & Hq & Hn & _). intros E. destruct (moved_spec n Hn op p q _ p' q' Hp Hq E) as (Hp' & Hq' & S). split; [|now apply GflLoopProofs.bare_sector].
  unfold GmFockProofs.shifted. destruct s as [|[|]]; [| |lia]; cbn in S; tauto.
Qed.
Lemma moved_none op p' q' : moved n op (Z.of_nat s) p q = None -> GmFockProofs.shifted op s p q p' q' -> (n < p')%nat \/ (n < q')%nat.
Proof.
  unfold moved, GmFockProofs.shifted. destruct op, s as [|[|]]; try lia; cbn [Z.of_nat Z.eqb Pos.of_succ_nat Pos.eqb neighbour].
  - destruct p; [lia|discriminate].
  - destruct q; [lia|discriminate].
  - destruct (Nat.ltb_spec p n); [discriminate|lia].
  - destruct (Nat.ltb_spec q n); [discriminate|lia].
Qed.

(** Overlap of two excitations. *)
Definition over (op : fop) (k l : nat) (f g : nat -> R) : R :=
  match moved n op (Z.of_nat s) p q with
  | Some (p', q') => rsum (dimn n p' q') (fun a => act n s op (bare n p' q') I k f a * act n s op (bare n p' q') I l g a)
  | None => 0
  end.
Lemma over_quad op k l f g : (k < n)%nat -> (l < n)%nat -> over op k l f g = quad2 n I [lad (opp_op op) (k + s * n); lad op (l + s * n)] f g.
Proof.
  intros Hk Hl. unfold over. destruct (moved n op (Z.of_nat s) p q) as [[p' q']|] eqn:E.
  - destruct (moved_some op p' q' E) as [SH HJ]. exact (act_overlap n s Hs op p q p' q' I (bare n p' q') SH HI HJ k l f g Hk Hl).
  - symmetry. apply quad2_edge; [exact Hl|]. intros p' q'. now apply moved_none.
Qed.
Lemma over_same k f g : (k < n)%nat -> over OpCdg k k f g + over OpC k k f g = rsum dI (fun b => f b * g b).
Proof. intros Hk. rewrite !over_quad by auto. cbn [lad opp_op]. rewrite quad2_car by auto. now rewrite Nat.eqb_refl. Qed.
Lemma over_diff k l f : (k < n)%nat -> (l < n)%nat -> k <> l -> over OpCdg k l f f + over OpC k l f f = 0.
Proof.
  intros Hk Hl NE. rewrite !over_quad by auto. cbn [lad opp_op]. rewrite (quad2_sym (k + s * n)). rewrite quad2_car by auto. destruct (Nat.eqb_spec k l); [congruence|reflexivity].
Qed.

Lemma exc_act op k p' q' i a : exc n op (Z.of_nat s) k p' q' I i a = act n s op (bare n p' q') I k (fun b => nth b (vec RRing I i) 0) a.
Proof. unfold exc, act, applied. rewrite (orbital_spin n s Hs). reflexivity. Qed.

Lemma rsum_shifted op d E (T : nat -> nat -> R) (v : nat -> R) a : (a < d)%nat ->
  rsum d (fun c => CfSpec.shifted (side op) E T a c * v c) = side op * (rsum d (fun c => T a c * v c) - E * v a).
Proof.
  intros Ha. rewrite (rsum_ext d _ (fun b => side op * (T a b * v b) - side op * ((if (a =? b)%nat then E else 0) * v b))).
  - rewrite rsum_sub, !rsum_scal_l. rewrite (rsum_single d (fun b => (if (a =? b)%nat then E else 0) * v b) a Ha); [rewrite Nat.eqb_refl; ring|].
    intros j _ N. destruct (Nat.eqb_spec a j); [congruence|ring].
  - intros b _. unfold CfSpec.shifted, side. destruct op; unfold Rltb; destruct Rlt_dec; try lra; ring.
Qed.
Lemma exc_motion h u E op k p' q' i a :
  (forall s x y, (s < 2)%nat -> (x < n)%nat -> (y < n)%nat -> h s x y = h s y x) ->
  moved n op (Z.of_nat s) p q = Some (p', q') -> (k < n)%nat -> (a < dimn n p' q')%nat ->
  (forall b, (b < dI)%nat -> rsum dI (fun c => hubbard n h u (tI b) (tI c) * nth c (vec RRing I i) 0) = E * nth b (vec RRing I i) 0) ->
  rsum (dimn n p' q') (fun c => CfSpec.shifted (side op) (E) (fun a c => hubbard n h u (basis RRing n (bare n p' q') a) (basis RRing n (bare n p' q') c)) a c * exc n op (Z.of_nat s) k p' q' I i c) =
  rsum n (fun l => h s l k * exc n op (Z.of_nat s) l p' q' I i a) + u k * (occR (basis RRing n (bare n p' q') a) (other n s k) * exc n op (Z.of_nat s) k p' q' I i a).
Proof.
  intros Hh Mv Hk Ha HE. destruct (moved_some op p' q' Mv) as [SH HJ].
  rewrite (rsum_shifted op _ _ _ (fun c => exc n op (Z.of_nat s) k p' q' I i c) a Ha).
  pose proof (motion n s h u Hs Hh op p q p' q' I (bare n p' q') SH HI HJ k (E) (fun b => nth b (vec RRing I i) 0) a Hk Ha HE) as Mo.
  rewrite exc_act. rewrite (rsum_ext (dimn n p' q') _ (fun c => hubbard n h u (basis RRing n (bare n p' q') a) (basis RRing n (bare n p' q') c) * act n s op (bare n p' q') I k (fun b => nth b (vec RRing I i) 0) c))
    by (intros; now rewrite exc_act).
  unfold dimn. rewrite Mo. rewrite Rmult_assoc. f_equal. apply rsum_ext. intros l _. now rewrite exc_act.
Qed.
End State.
