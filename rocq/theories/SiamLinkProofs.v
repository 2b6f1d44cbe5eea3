(** The Hamiltonian of the library with a repulsion on single sites, and screened dictionaries. *)
From Coq Require Import String Reals List Arith NArith ZArith Bool Lia Lra Psatz Ring.
From Verif Require Import Base RBase RLin CBase OperatorsModel OperatorsSpec LookupModel LookupSpec SectorModel SectorSpec SectorProofs FockSpec FockProofs LocalModel LocalSpec HoppingModel
  CsrSpec NonLocalModel NonLocalSpec MatvecModel MatvecSpec MatvecProofs MbModel MbSpec MbProofs EspaceModel EspaceSpec EspaceRealModel EspaceProofs EspaceRealProofs
  ProjModel ProjSpec ProjProofs ProjFinalProofs CfModel CfSpec GfModel GfSpec GmModel GmSpec GmProofs GmFockProofs GmFreeProofs GmEomProofs GmEspaceProofs SpectralProofs ExactSpec EighProofs ConserveProofs ExactProofs ExactMoreProofs
  GflModel GflSpec GflInstProofs AgrModel AgrSpec AgrProofs AgrInstProofs VisSpec VisMainProofs SiamSpec SiamFormProofs.
Import ListNotations.
Local Open Scope R_scope.

Section Link.
Variables (big : R -> bool) (half : R) (n : nat) (h : hmat RRing) (fl : hflags) (V : inter RRing) (hf : bool) (mu : R) (z : option (nat -> R)) (U : nat -> nat -> R).
Hypothesis MO : model_ok half n h fl V U.
Hypothesis HJx : inter_Jx RRing V = None.
Hypothesis HD : forall i j, (i < n)%nat -> (j < n)%nat -> i <> j -> U i j = 0.
(** One-body matrix; in half-filling mode the levels are lowered by half the repulsion. *)
Definition lowered (s x y : nat) : R := one_body big mu (hspin RRing h) s x y - (if hf then if (x =? y)%nat then half * U x x else 0 else 0).
Definition offset : R := if hf then half * half * rsum n (fun i => U i i) else 0.

Lemma free_lower w t u : (forall s x y, (s < 2)%nat -> (x < n)%nat -> (y < n)%nat -> lowered s x y = one_body big mu (hspin RRing h) s x y - (if (x =? y)%nat then w x else 0)) ->
  free_ham n lowered t u = free_ham n (one_body big mu (hspin RRing h)) t u - (if N.eqb t u then rsum n (fun x => w x * (occR u x + occR u (x + n))) else 0).
Proof.
  intros HW. unfold free_ham. rewrite !rsum_S, !(rsum_0 0) by (intros; lia).
  assert (SP : forall s, (s < 2)%nat -> rsum n (fun x => rsum n (fun y => lowered s x y * @z2k RRing (elem (2 * n) [Cr (x + s * n); An (y + s * n)] t u))) =
    rsum n (fun x => rsum n (fun y => one_body big mu (hspin RRing h) s x y * @z2k RRing (elem (2 * n) [Cr (x + s * n); An (y + s * n)] t u))) - (if N.eqb t u then rsum n (fun x => w x * occR u (x + s * n)) else 0)).
  { intros s Hs. transitivity (rsum n (fun x => rsum n (fun y => one_body big mu (hspin RRing h) s x y * @z2k RRing (elem (2 * n) [Cr (x + s * n); An (y + s * n)] t u)) - (if N.eqb t u then w x * occR u (x + s * n) else 0))).
    - apply rsum_ext. intros x Hx.
      transitivity (rsum n (fun y => one_body big mu (hspin RRing h) s x y * @z2k RRing (elem (2 * n) [Cr (x + s * n); An (y + s * n)] t u)) - rsum n (fun y => (if (x =? y)%nat then w x else 0) * @z2k RRing (elem (2 * n) [Cr (x + s * n); An (y + s * n)] t u))).
      + rewrite <- rsum_sub. apply rsum_ext. intros y Hy. rewrite HW by auto. ring.
      + f_equal. rewrite (rsum_single n _ x Hx) by (intros y _ NE; destruct (Nat.eqb_spec x y); [congruence|ring]). rewrite Nat.eqb_refl, elem_num by nia.
        unfold occR. destruct (N.eqb t u), (occ u (x + s * n)); cbn [andb]; change (@z2k RRing 1%Z) with 1; change (@z2k RRing 0%Z) with 0; ring.
    - rewrite rsum_sub. f_equal. destruct (N.eqb t u); [reflexivity|]. apply rsum_0. auto. }
  rewrite (SP 0%nat), (SP 1%nat) by lia. destruct (N.eqb t u); [|ring].
  rewrite (rsum_ext n (fun x => w x * (occR u x + occR u (x + n))) (fun x => w x * occR u (x + 0 * n) + w x * occR u (x + 1 * n))).
  - rewrite rsum_add. ring.
  - intros x _. rewrite Nat.mul_0_l, Nat.mul_1_l, Nat.add_0_r. ring.
Qed.

Lemma num_occR ua da i : (i < n)%nat -> (ua < 2 ^ N.of_nat n)%N -> num RRing ua i = occR (combine n ua da) i /\ num RRing da i = occR (combine n ua da) (i + n).
Proof.
  intros Hi Hua. unfold num, occR. rewrite !occ_combine by auto. destruct (Nat.ltb_spec i n); [|lia]. destruct (Nat.ltb_spec (i + n) n); [lia|].
  replace (i + n - n)%nat with i by lia. split; reflexivity.
Qed.
Lemma local_ham ub db ua da : (ua < 2 ^ N.of_nat n)%N ->
  hamiltonian RRing half (- 1) n (fun s i => hspin RRing h s i i + mu) U (zfun RRing hf z) hf (fun s => offdiag RRing big (hspin RRing h s))
    (opt_offdiag RRing big (inter_Jx RRing V)) (opt_offdiag RRing big (inter_Jp RRing V)) ub db ua da =
  hubbard n lowered (fun i => U i i) (combine n ub db) (combine n ua da) + (if N.eqb (combine n ub db) (combine n ua da) then offset else 0).
Proof.
  intros Hua. destruct MO as ((_ & _ & Hh2) & _ & HJ & _). pose proof (HJ HJx) as HJp.
  pose proof (free_energy big half n h V hf mu z (fun _ _ => 0) ltac:(auto) HJx HJp ub db ua da Hua) as FE.
  set (w := fun x => if hf then half * U x x else 0).
  assert (HW : forall s x y, (s < 2)%nat -> (x < n)%nat -> (y < n)%nat -> lowered s x y = one_body big mu (hspin RRing h) s x y - (if (x =? y)%nat then w x else 0)).
  { intros s x y _ _ _. unfold lowered, w. destruct hf, (x =? y)%nat; reflexivity. }
  unfold hubbard. rewrite (free_lower w _ _ HW), <- FE. unfold hamiltonian. cbv zeta. change (cadd RRing) with Rplus. change (cmul RRing) with Rmult. change (c0 RRing) with 0.
  set (t := combine n ub db). set (u := combine n ua da).
  set (r0 := hop_op RRing n (offdiag RRing big (hspin RRing h 0)) 0 t u). set (r1 := hop_op RRing n (offdiag RRing big (hspin RRing h 1)) 1 t u).
  set (r2 := exch_same RRing half n _ t u). set (r3 := exch_opp RRing half n _ t u). set (r4 := pair_hop RRing half n _ t u).
  destruct (N.eqb t u); [|match goal with |- ?x = ?y => change (@eq R x y) end; ring].
  enough (Q : fock_energy RRing half n (fun i => hspin RRing h 0 i i + mu) (fun i => hspin RRing h 1 i i + mu) U (zfun RRing hf z) hf ua da =
    fock_energy RRing half n (fun i => hspin RRing h 0 i i + mu) (fun i => hspin RRing h 1 i i + mu) (fun _ _ => 0) (zfun RRing hf z) hf ua da - rsum n (fun x => w x * (occR u x + occR u (x + n))) + repel n (fun i => U i i) u + offset)
    by (change (Base.car RRing) with R in *; rewrite Q; match goal with |- ?x = ?y => change (@eq R x y) end; ring).
  unfold fock_energy. cbv zeta. change (cadd RRing) with Rplus. change (cmul RRing) with Rmult. change (csub RRing) with Rminus. change (c0 RRing) with 0. change (@nsum RRing) with rsum.
  rewrite (rsum_0 n (fun i => 0 * _)) by (intros; apply Rmult_0_l).
  rewrite (rsum_0 n (fun i => rsum n (fun j => if (i =? j)%nat then 0 else 0 * _))) by (intros i Hi; apply rsum_0; intros j Hj; destruct (i =? j)%nat; auto; apply Rmult_0_l).
  rewrite (rsum_0 n (fun i => rsum n (fun j => if (i =? j)%nat then 0 else U i j * _))) by (intros i Hi; apply rsum_0; intros j Hj; destruct (Nat.eqb_spec i j); auto; rewrite HD by auto; apply Rmult_0_l).
  enough (Q : rsum n (fun i => U i i * ((num RRing ua i - (if hf then half else 0)) * (num RRing da i - (if hf then half else 0)))) = - rsum n (fun x => w x * (occR u x + occR u (x + n))) + repel n (fun i => U i i) u + offset)
    by (change (Base.car RRing) with R in *; rewrite Q; match goal with |- ?x = ?y => change (@eq R x y) end; ring).
  unfold repel, offset. assert (OP : - rsum n (fun x => w x * (occR u x + occR u (x + n))) = rsum n (fun x => - (w x * (occR u x + occR u (x + n))))) by (rewrite <- (Rmult_1_l (rsum n _)), Ropp_mult_distr_l, <- rsum_scal_l; apply rsum_ext; intros; ring).
  rewrite OP, <- rsum_add. destruct hf.
  - rewrite <- rsum_scal_l, <- rsum_add. apply rsum_ext. intros i Hi. destruct (num_occR ua da i Hi Hua) as [-> ->]. fold u. unfold w, occR. destruct (occ u i), (occ u (i + n)); cbn [andb];
      match goal with |- ?x = ?y => change (@eq R x y) end; ring.
  - rewrite Rplus_0_r. apply rsum_ext. intros i Hi. destruct (num_occR ua da i Hi Hua) as [-> ->]. fold u. unfold w, occR. destruct (occ u i), (occ u (i + n)); cbn [andb];
      match goal with |- ?x = ?y => change (@eq R x y) end; ring.
Qed.
Lemma lowered_sym : symmetric_hopping n lowered.
Proof.
  destruct MO as (_ & _ & _ & _ & HS & _). intros s x y Hs Hx Hy. unfold lowered. rewrite (one_body_sym big n h mu HS s x y) by auto.
  rewrite (Nat.eqb_sym y x). destruct (Nat.eqb_spec x y) as [->|]; reflexivity.
Qed.
Lemma link : hubbard_family n lowered (fun i => U i i) offset (Msec big half n h V hf mu z U).
Proof.
  intros p q a b Hp Hq Ha Hb. pose proof (dimn_at half n h fl V U MO p q Hp Hq) as DM. rewrite DM in Ha, Hb.
  assert (LU : (0 < length (cand n p))%nat) by nia.
  assert (BA : forall c, basis RRing n (bare n p q) c = combine n (nth (c mod length (cand n p)) (cand n p) 0%N) (nth (c / length (cand n p)) (cand n q) 0%N)).
  { intros c. unfold basis. rewrite (bare_at half n h fl V U MO p q Hp Hq). reflexivity. }
  assert (HN' : (n <= 32)%nat) by (destruct MO as ((_ & ? & _) & _); auto).
  unfold Msec, smat, ham. rewrite local_ham.
  - rewrite <- !BA. f_equal.
    + unfold hubbard. rewrite (ham_sym n lowered lowered_sym). f_equal. rewrite (N.eqb_sym (basis RRing n (bare n p q) b)).
      destruct (N.eqb_spec (basis RRing n (bare n p q) a) (basis RRing n (bare n p q) b)) as [->|]; reflexivity.
    + destruct (N.eqb_spec (basis RRing n (bare n p q) b) (basis RRing n (bare n p q) a)) as [E|NE].
      * assert (a = b) as ->; [|now rewrite Nat.eqb_refl]. symmetry. apply (basis_inj n p q (bare n p q)); auto.
        { now apply GflLoopProofs.bare_sector. }
        { unfold dimn in DM. now rewrite DM. } { unfold dimn in DM. now rewrite DM. }
      * destruct (Nat.eqb_spec a b) as [->|]; [congruence|reflexivity].
  - apply (cand_In n p), nth_In, Nat.mod_upper_bound. lia.
Qed.
End Link.
