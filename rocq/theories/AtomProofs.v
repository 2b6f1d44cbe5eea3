(** The Green's function of an isolated site. *)
From Coq Require Import Reals List Arith NArith ZArith Bool Lia Lra Psatz Ring Field.
From Verif Require Import Base RBase RLin CBase OperatorsSpec FockSpec FockProofs SectorModel LocalModel MatvecModel EspaceModel ProjModel ProjSpec ProjProofs ProjFinalProofs
  CfModel CfSpec GfModel GfSpec GfProofs GfSumProofs GfMoreProofs GmModel GmSpec GmFockProofs GmProofs GmFreeProofs GmEomProofs GflSpec GflLoopProofs GflMainProofs GflPairProofs AgrProofs
  VisSpec VisMainProofs SiamSpec SiamLinProofs SiamFockProofs SiamStateProofs SiamFormProofs SiamMainProofs AtomSpec.
Import ListNotations.
Local Open Scope R_scope.
Add Field cxf_atom : cx_field.

(** A hop between two orbitals leaves the others alone. *)
Lemma hop_keeps m x y j t s : x = y \/ (x <> j /\ y <> j) -> elem m [Cr x; An y] t s <> 0%Z -> occ t j = occ s j.
Proof.
  intros HJ. unfold elem. cbn [word]. unfold app1. destruct (occ s y) eqn:Y; [|congruence]. pose proof (toggles_clearbit s y Y) as T.
  destruct (occ (N.clearbit s (N.of_nat y)) x) eqn:X; [congruence|]. pose proof (toggles_setbit _ x X) as T'.
  destruct (N.eqb_spec (N.setbit (N.clearbit s (N.of_nat y)) (N.of_nat x)) t) as [<-|]; [|congruence]. intros _.
  rewrite (T' j), (T j). destruct (Nat.eqb_spec j x), (Nat.eqb_spec j y); destruct HJ as [->|[]]; subst; try congruence; try reflexivity.
  now destruct (occ s y).
Qed.

Section Atom.
Variables (n s : nat) (beta egs : R) (vis : espace RRing) (M : nat -> nat -> nat -> nat -> R) (h : nat -> nat -> nat -> R) (u : nat -> R) (c0 e0 : R).
Hypothesis Hs : (s <= 1)%nat.
Hypothesis Hn : (0 < n)%nat.
Hypothesis HS : sectors n vis.
Hypothesis HE : eigenstates n M vis.
Hypothesis HM : hubbard_family n h u c0 M.
Hypothesis Hh : symmetric_hopping n h.
Hypothesis HT : isolated n s h e0.
Notation N := (Zof beta egs vis).
Notation O := (occupation n beta egs vis (other n s 0)).
Notation BB := (B n s beta egs vis).
Notation KK := (K n s M).
Notation x := (xk n s).
Notation ox := (occx n s).

(** The electrons of the isolated site are conserved. *)
Lemma free_keeps r t t' : (r < 2)%nat -> free_ham n h t t' * occR t (r * n) = free_ham n h t t' * occR t' (r * n).
Proof.
  intros Hr. unfold free_ham. rewrite <- !rsum_scal_r. apply rsum_ext. intros a Ha. rewrite <- !rsum_scal_r. apply rsum_ext. intros y Hy. rewrite <- !rsum_scal_r. apply rsum_ext. intros w Hw.
  destruct (Z.eq_dec (elem (2 * n) [Cr (y + a * n); An (w + a * n)] t t') 0) as [E|NE]; [rewrite E; change (@z2k RRing 0%Z) with 0; ring|].
  destruct (Nat.eq_dec y w) as [->|NY].
  { unfold occR. rewrite (hop_keeps _ _ _ (r * n) _ _ (or_introl eq_refl) NE). reflexivity. }
  destruct (Nat.eq_dec y 0) as [->|Y0].
  { rewrite (Hh a 0%nat w) by lia. destruct HT as [_ HZ]. rewrite (HZ a w) by lia. ring. }
  destruct (Nat.eq_dec w 0) as [->|W0].
  { destruct HT as [_ HZ]. rewrite (HZ a y) by lia. ring. }
  assert (A01 : a = 0%nat \/ a = 1%nat) by lia. assert (R01 : r = 0%nat \/ r = 1%nat) by lia.
  assert (J : (y + a * n <> r * n /\ w + a * n <> r * n)%nat) by (clear NE; destruct A01 as [-> | ->], R01 as [-> | ->]; lia).
  unfold occR. rewrite (hop_keeps _ _ _ (r * n) _ _ (or_intror J) NE). reflexivity.
Qed.
Lemma hubbard_keeps r t t' : (r < 2)%nat -> hubbard n h u t t' * occR t (r * n) = hubbard n h u t t' * occR t' (r * n).
Proof.
  intros Hr. unfold hubbard. rewrite !Rmult_plus_distr_r, free_keeps by auto. f_equal. destruct (N.eqb_spec t t') as [->|]; [reflexivity|ring].
Qed.
Lemma other_zero : other n s 0 = ((1 - s) * n)%nat. Proof. unfold other. lia. Qed.
Lemma eigen_keeps I E f : (forall b, (b < sdim RRing I)%nat -> rsum (sdim RRing I) (fun c => hubbard n h u (basis RRing n I b) (basis RRing n I c) * f c) = E * f b) ->
  forall b, (b < sdim RRing I)%nat -> rsum (sdim RRing I) (fun c => hubbard n h u (basis RRing n I b) (basis RRing n I c) * (occR (basis RRing n I c) (other n s 0) * f c)) = E * (occR (basis RRing n I b) (other n s 0) * f b).
Proof.
  intros HF b Hb. transitivity (occR (basis RRing n I b) (other n s 0) * (E * f b)); [|ring]. rewrite <- HF by auto. rewrite <- rsum_scal_l. apply rsum_ext. intros c _.
  rewrite <- Rmult_assoc. rewrite other_zero, <- hubbard_keeps by lia. ring.
Qed.
Lemma occR_idem t i : occR t i * occR t i = occR t i. Proof. unfold occR. destruct (occ t i); ring. Qed.

(** The part of the excitation with an electron of the other spin is an eigenvector. *)
Lemma eom_occ f : BB (KK (ox 0)) f = (e0 + u 0%nat) * BB (ox 0) f.
Proof.
  transitivity (BB (fun t => (e0 + u 0%nat) * ox 0 t + 0 * ox 0 t) f).
  - apply B_ext_in. intros b a Hb Ha. destruct (in_sectors n vis M HS b Hb) as (p & q & sc & E & Hin & SC & Hi).
    unfold K, occx, xk, Km, dm in *. cbn [fst snd]. destruct (dest n s b) as [[p' q']|] eqn:D; [|lia].
    pose proof (dest_range n s vis M HS Hs b p' q' Hb D) as [Hp' Hq']. unfold dest in D. rewrite E in D. cbn [fst] in D. unfold en. rewrite E. cbn [snd].
    destruct (moved_some n s p q sc Hs SC (bl_op b) p' q' D) as [SH HJ].
    set (op := bl_op b) in *. set (i := bl_i b) in *. set (J := bare n p' q') in *. set (v := fun b => nth b (vec RRing sc i) 0).
    set (v' := fun b => occR (basis RRing n sc b) (other n s 0) * v b).
    assert (EX : forall c, occR (basis RRing n J c) (other n s 0) * exc n op (Z.of_nat s) 0 p' q' sc i c = act n s op J sc 0 v' c).
    { intros c. rewrite (exc_act n s sc Hs). exact (act_other n s h u Hs Hh op sc J 0 v c Hn). }
    rewrite EX. rewrite (rsum_ext _ _ (fun c => CfSpec.shifted (side op) (energy sc i - c0) (fun a c => hubbard n h u (basis RRing n J a) (basis RRing n J c)) a c * act n s op J sc 0 v' c)).
    2:{ intros c Hc. rewrite EX. f_equal. unfold CfSpec.shifted. rewrite !(HM p' q' a c) by auto. destruct (Nat.eqb a c), (Rltb (side op) 0); unfold J; ring. }
    rewrite (rsum_shifted op _ _ _ _ a Ha).
    pose proof (motion n s h u Hs Hh op p q p' q' sc J SH SC HJ 0 (energy sc i - c0) v' a Hn Ha
      (eigen_keeps sc _ v (state_eigen n vis M h u c0 HE HM p q sc i Hin SC Hi))) as Mo.
    unfold dimn. fold J. rewrite Mo. rewrite (rsum_single n _ 0 Hn).
    2:{ intros l Hl NE. destruct HT as [_ HZ]. rewrite HZ by lia. ring. }
    destruct HT as [-> _]. rewrite <- (EX a). set (o := occR _ _). pose proof (occR_idem (basis RRing n J a) (other n s 0)) as ID. fold o in ID.
    set (w := exc _ _ _ _ _ _ _ _ _). transitivity (e0 * (o * w) + u 0%nat * ((o * o) * w)); [ring|]. rewrite ID. ring.
  - rewrite B_lin. ring.
Qed.
Lemma eom_site f : BB (KK (x 0)) f = e0 * BB (x 0) f + u 0%nat * BB (ox 0) f.
Proof.
  rewrite (eom n s beta egs vis M h u c0 Hs Hn HS HE HM Hh 0 f Hn). f_equal. rewrite (rsum_single n _ 0 Hn); [destruct HT as [-> _]; reflexivity|].
  intros l Hl NE. destruct HT as [_ HZ]. rewrite HZ by lia. ring.
Qed.

Section Point.
Variables (z : cx) (X : fop -> qnums -> nat -> nat -> cx).
Hypothesis RS : resolved n M (Z.of_nat s) vis 0 z X.
Hypothesis Hz : im z <> 0.
Notation gsum := (csuml (map (fun op => csuml (map (contribution n beta egs (Z.of_nat s) 0 X op) vis)) [OpCdg; OpC])).
Notation PP := (pairing _ BB (Xr X) (Xi X)).
Lemma off e : cxsub z (rcx e) <> rcx 0.
Proof. intros E. apply (f_equal im) in E. cbn in E. apply Hz. lra. Qed.
Lemma atom_sum : gsum = two_poles e0 (u 0%nat) (N - O) O z.
Proof.
  pose proof (R1' n s beta egs vis M h u c0 Hs HS HM Hh z X RS) as R1. pose proof (R2' n s beta egs vis M h u c0 Hs HS HM Hh z X RS) as R2.
  rewrite (gsum_pair n s beta egs vis HS X).
  pose proof (resolvent_eq _ BB KK z _ _ _ R1 R2 (ox 0)) as E1. pose proof (resolvent_eq _ BB KK z _ _ _ R1 R2 (x 0)) as E2.
  rewrite (occ_pair n s beta egs vis h u Hs Hn HS Hh) in E1. rewrite (orth n s beta egs vis M Hs HS HE 0 0 Hn Hn) in E2. cbn [Nat.eqb] in E2.
  assert (K1 : PP (KK (ox 0)) = cxmul (rcx (e0 + u 0%nat)) (PP (ox 0))) by (unfold pairing; rewrite !eom_occ; apply cx_eq; cbn; ring).
  assert (K2 : PP (KK (x 0)) = cxadd (cxmul (rcx e0) (PP (x 0))) (cxmul (rcx (u 0%nat)) (PP (ox 0)))) by (unfold pairing; rewrite !eom_site; apply cx_eq; cbn; ring).
  rewrite K1 in E1. rewrite K2 in E2. set (P := PP (ox 0)) in *. set (G := PP (x 0)) in *. unfold two_poles.
  pose proof (off e0) as D0. pose proof (off (e0 + u 0%nat)) as D1. clearbody P G. clear R1 R2 K1 K2.
  assert (F1 : P = cxdiv (rcx O) (cxsub z (rcx (e0 + u 0%nat)))).
  { transitivity (cxdiv (cxsub (cxmul z P) (cxmul (rcx (e0 + u 0%nat)) P)) (cxsub z (rcx (e0 + u 0%nat)))); [field; exact D1|]. rewrite E1. f_equal. ring. }
  assert (F2 : G = cxdiv (cxadd (rcx N) (cxmul (rcx (u 0%nat)) P)) (cxsub z (rcx e0))).
  { transitivity (cxdiv (cxsub (cxmul z G) (cxmul (rcx e0) G)) (cxsub z (rcx e0))); [field; exact D0|]. rewrite E2. f_equal. ring. }
  rewrite F2, F1. assert (Q1 : rcx (e0 + u 0%nat) = cxadd (rcx e0) (rcx (u 0%nat))) by (apply cx_eq; cbn; ring). assert (Q2 : rcx (N - O) = cxsub (rcx N) (rcx O)) by (apply cx_eq; cbn; ring).
  rewrite Q1 in *. rewrite Q2. set (a := rcx N) in *. set (b := rcx O) in *. set (c := rcx e0) in *. set (d := rcx (u 0%nat)) in *. clearbody a b c d. field. split; [|exact D0].
  intros Q. apply D1. rewrite <- Q. ring.
Qed.
End Point.
End Atom.

(** The inverse of the two-pole function. *)
Lemma atom_dyson e u m z : im z <> 0 -> two_poles e u (1 - m) m z <> rcx 0 /\ cxsub (cxsub z (rcx e)) (cxinv (two_poles e u (1 - m) m z)) = atom_sigma e u m z.
Proof.
  intros Hz. assert (OFF : forall a, cxsub z (rcx a) <> rcx 0) by (intros a E; apply (f_equal im) in E; cbn in E; apply Hz; lra).
  pose proof (OFF e) as D0. pose proof (OFF (e + u)) as D1. pose proof (OFF (e + u * (1 - m))) as D2.
  assert (Q1 : rcx (e + u) = cxadd (rcx e) (rcx u)) by (apply cx_eq; cbn; ring).
  assert (Q2 : rcx (e + u * (1 - m)) = cxadd (rcx e) (cxmul (rcx u) (cxsub (rcx 1) (rcx m)))) by (apply cx_eq; cbn; ring).
  assert (Q3 : rcx (1 - m) = cxsub (rcx 1) (rcx m)) by (apply cx_eq; cbn; ring).
  assert (Q4 : rcx (u * m) = cxmul (rcx u) (rcx m)) by (apply cx_eq; cbn; ring).
  assert (Q5 : rcx (u * u * (m * (1 - m))) = cxmul (cxmul (rcx u) (rcx u)) (cxmul (rcx m) (cxsub (rcx 1) (rcx m)))) by (apply cx_eq; cbn; ring).
  assert (TP : two_poles e u (1 - m) m z = cxdiv (cxsub z (rcx (e + u * (1 - m)))) (cxmul (cxsub z (rcx e)) (cxsub z (rcx (e + u))))).
  { unfold two_poles. rewrite Q3, Q2. rewrite Q1 in *. set (c := rcx e) in *. set (d := rcx u) in *. set (mm := rcx m) in *. clearbody c d mm. field. split; [|exact D0].
    intros Q. apply D1. rewrite <- Q. ring. }
  split.
  - rewrite TP. intros Q. apply D2. transitivity (cxmul (cxdiv (cxsub z (rcx (e + u * (1 - m)))) (cxmul (cxsub z (rcx e)) (cxsub z (rcx (e + u))))) (cxmul (cxsub z (rcx e)) (cxsub z (rcx (e + u))))); [field; auto|rewrite Q; ring].
  - rewrite TP. unfold atom_sigma. rewrite Q4, Q5. rewrite Q2, Q1 in *. set (c := rcx e) in *. set (d := rcx u) in *. set (mm := rcx m) in *. clearbody c d mm. field.
    split; [exact D2|]. split; [exact D1|exact D0].
Qed.
