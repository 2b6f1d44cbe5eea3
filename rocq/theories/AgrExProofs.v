(** Two sites with four different levels and no hopping: no state is annihilated by a sum of two operators. *)
From Coq Require Import String Reals List Arith NArith ZArith Bool Lia Lra Psatz Ring.
From Verif Require Import Base RBase RLin CBase OperatorsModel OperatorsSpec SectorModel SectorProofs LookupModel LookupSpec SectorSpec FockSpec LocalModel HoppingModel
  NonLocalModel MatvecModel MbModel EspaceModel ProjModel ProjSpec CfModel CfSpec GfModel GfSpec GmModel GmSpec ExactSpec ExactProofs
  GflModel GflSpec AgrModel AgrSpec AgrProofs AgrInstProofs.
Import ListNotations.
Local Open Scope R_scope.

(** Levels 0 and 1 for one spin, 0 and 3 for the other; repulsion 1/2. *)
Definition lev_h : hmat RRing := H3 RRing (fun s i j => if (i =? j)%nat then (if (i =? 0)%nat then 0 else if (s =? 0)%nat then 1 else 3) else 0).
Definition lev_U (i j : nat) : R := if (i =? j)%nat then / 2 else 0.
Definition lev_fl : hflags := mkflags true true true.
Lemma lev_ok : model_ok (/ 2) 2 lev_h lev_fl (VArray RRing lev_U) lev_U.
Proof.
  split; [split; [lia|split; [lia|lra]]|]. split; [reflexivity|]. split; [auto|]. split; [split; exact I|]. split; [|reflexivity].
  intros sp i j _ _. cbn. rewrite (Nat.eqb_sym j i). destruct (Nat.eqb_spec i j) as [->|]; reflexivity.
Qed.
Notation ME := (Msec (fun _ => true) (/ 2) 2 lev_h (VArray RRing lev_U) false 0 None lev_U).
Lemma lev_diag p q a b : (p <= 2)%nat -> (q <= 2)%nat -> (a < dimn 2 p q)%nat -> (b < dimn 2 p q)%nat -> a <> b -> ME p q a b = 0 /\ ME p q a a <> ME p q b b.
Proof.
  intros Hp Hq. destruct p as [|[|[|]]]; try lia; destruct q as [|[|[|]]]; try lia;
  (match goal with |- context[dimn ?n ?p ?q] => let d := eval vm_compute in (dimn n p q) in change (dimn n p q) with d end);
  intros Ha Hb N; destruct a as [|[|[|[|]]]]; try lia; destruct b as [|[|[|[|]]]]; try lia; try congruence;
  unfold Msec, smat, ham;
  cbv -[Rplus Rmult Ropp Rminus Rinv IZR Rdiv Rle]; split; lra.
Qed.
(** An eigenvector of a diagonal matrix with different entries lives on one state. *)
Lemma diag_vector d M (v : nat -> R) lam : (forall a b, (a < d)%nat -> (b < d)%nat -> a <> b -> M a b = 0 /\ M a a <> M b b) ->
  (forall a, (a < d)%nat -> rsum d (fun b => M a b * v b) = lam * v a) -> rsum d (fun a => v a * v a) = 1 ->
  exists b, (b < d)%nat /\ v b <> 0 /\ forall a, (a < d)%nat -> a <> b -> v a = 0.
Proof.
  intros HD EV NV.
  assert (EX : exists b, (b < d)%nat /\ v b <> 0).
  { assert (D : forall m, (exists b, (b < m)%nat /\ v b <> 0) \/ forall b, (b < m)%nat -> v b = 0).
    { induction m as [|m [(b & H1 & H2)|H]]; [right; intros; lia|left; exists b; split; [lia|auto]|].
      destruct (Req_dec (v m) 0) as [Q|Q]; [right|left; exists m; split; [lia|auto]]. intros b Hb. destruct (Nat.eq_dec b m) as [->|]; [auto|]. apply H. lia. }
    destruct (D d) as [H|H]; auto. exfalso. rewrite (rsum_0 d (fun a => v a * v a)) in NV; [lra|]. intros a Ha. rewrite (H a Ha). ring. }
  destruct EX as (b & Hb & Nb). exists b. split; [exact Hb|]. split; [exact Nb|].
  assert (E : forall a, (a < d)%nat -> (M a a - lam) * v a = 0).
  { intros a Ha. pose proof (EV a Ha) as Q. rewrite (rsum_single d _ a Ha) in Q; [lra|]. intros j Hj N. rewrite (proj1 (HD a j Ha Hj ltac:(congruence))). ring. }
  intros a Ha N. pose proof (E a Ha) as Ea. pose proof (E b Hb) as Eb. pose proof (proj2 (HD a b Ha Hb N)) as ND.
  apply Rmult_integral in Eb. destruct Eb as [Eb|Eb]; [|contradiction]. apply Rmult_integral in Ea. destruct Ea as [Ea|Ea]; auto. exfalso. apply ND. lra.
Qed.
(** No basis state is annihilated by the sum of the operators on the two sites. *)
Definition reaches (op : fop) (ispin : Z) (p q p' q' b : nat) : bool :=
  existsb (fun a => negb (Z.eqb (elem 4 [lad op (orbital 2 ispin 0)] (basis RRing 2 (bare 2 p' q') a) (basis RRing 2 (bare 2 p q) b) +
    elem 4 [lad op (orbital 2 ispin 1)] (basis RRing 2 (bare 2 p' q') a) (basis RRing 2 (bare 2 p q) b)) 0)) (seq 0 (dimn 2 p' q')).
Lemma reach op ispin p q p' q' b : (ispin = 0 \/ ispin = 1)%Z -> (p <= 2)%nat -> (q <= 2)%nat -> (b < dimn 2 p q)%nat -> moved 2 op ispin p q = Some (p', q') -> reaches op ispin p q p' q' b = true.
Proof.
  intros Hi Hp Hq. destruct p as [|[|[|]]]; try lia; destruct q as [|[|[|]]]; try lia;
  (match goal with |- context[dimn ?n ?p ?q] => let d := eval vm_compute in (dimn n p q) in change (dimn n p q) with d end);
  intros Hb; destruct b as [|[|[|[|]]]]; try lia; destruct op; destruct Hi as [-> | ->]; intros [= <- <-]; vm_compute; reflexivity.
Qed.
Lemma lev_never_zero eigh eigsh es egs s : eigh_contract eigh -> (s <= 1)%nat ->
  build_espace RRing Rleb (fun _ => true) (/ 2) eigh eigsh 2 lev_h lev_fl (VArray RRing lev_U) false 0 None None "sz" = Ok (es, egs) ->
  forall i j, (i < j < 2)%nat -> never_zero 2 (Z.of_nat s) es (pair_excited 2 (Z.of_nat s) i j).
Proof.
  intros HC Hs HB i j Hij. assert (i = 0 /\ j = 1)%nat as [-> ->] by lia.
  destruct (inst_family _ _ _ _ _ _ _ _ _ _ lev_ok eigh eigsh HC es egs HB) as (F & LF & EB & EV).
  intros p' q' phi (op & p & q & t & k & sg & I & Hk & HM & Hsg & Lphi & Vphi).
  apply (proj1 (proj2 LF)) in I. destruct I as (p0 & q0 & Hp & Hq & EK & ->). injection EK as <- <-.
  pose proof (proj2 (proj2 LF) p q Hp Hq) as IS. destruct (EB p q Hp Hq) as [NV ON]. pose proof (dimn_sector 2 p q _ IS) as DE. rewrite NV in Hk.
  destruct (diag_vector (dimn 2 p q) (ME p q) (fun b => nth b (vec RRing (F p q) k) 0) (energy (F p q) k)) as (b & Hb & Nb & Ob).
  { intros a b Ha Hb N. now apply lev_diag. }
  { intros a Ha. rewrite DE in Ha |- *. exact (EV p q Hp Hq k a Hk Ha). }
  { rewrite DE. rewrite (ON k k Hk Hk), Nat.eqb_refl. reflexivity. }
  assert (Hi : (Z.of_nat s = 0 \/ Z.of_nat s = 1)%Z) by lia.
  pose proof (reach op (Z.of_nat s) p q p' q' b Hi Hp Hq Hb HM) as RE. apply existsb_exists in RE. destruct RE as (a & Ia & Na). apply in_seq in Ia.
  exists a. split; [lia|]. rewrite Vphi by lia. unfold pair_excited, exc, applied. apply negb_true_iff in Na. apply Z.eqb_neq in Na.
  rewrite DE in Hb, Ob. change (@nsum RRing) with rsum.
  assert (S1 : forall x, rsum (sdim RRing (F p q)) (fun b0 => cmul RRing (@z2k RRing (elem (2 * 2) [lad op (orbital 2 (Z.of_nat s) x)] (basis RRing 2 (bare 2 p' q') a) (basis RRing 2 (F p q) b0))) (nth b0 (vec RRing (F p q) k) (c0 RRing))) =
    @z2k RRing (elem 4 [lad op (orbital 2 (Z.of_nat s) x)] (basis RRing 2 (bare 2 p' q') a) (basis RRing 2 (bare 2 p q) b)) * nth b (vec RRing (F p q) k) 0).
  { intros x. rewrite (rsum_single _ _ b Hb); [rewrite (basis_sector 2 p q _ b IS); reflexivity|]. intros j Hj N. change (c0 RRing) with 0. rewrite (Ob j Hj N). apply Rmult_0_r. }
  rewrite !S1. rewrite <- Rmult_plus_distr_r. apply Rmult_integral_contrapositive. split; [nra|]. apply Rmult_integral_contrapositive. split; [|exact Nb].
  intros Q. apply Na. clear - Q. set (x := elem 4 [lad op (orbital 2 (Z.of_nat s) 0)] _ _) in *. set (y := elem 4 [lad op (orbital 2 (Z.of_nat s) 1)] _ _) in *.
  assert (E : @z2k RRing (x + y) = 0) by (etransitivity; [apply (z2k_add RRing)|exact Q]). revert E. generalize (x + y)%Z. clear. intros w E.
  assert (P : forall r, 0 < @pos2k RRing r).
  { induction r as [r IH|r IH|]; cbn [pos2k]; [change (0 < 1 + (1 + 1) * @pos2k RRing r)|change (0 < (1 + 1) * @pos2k RRing r)|change (0 < 1)]; lra. }
  destruct w as [|r|r]; [reflexivity| |]; exfalso; specialize (P r); cbn [z2k] in E; [|change (- @pos2k RRing r = 0) in E]; lra.
Qed.
