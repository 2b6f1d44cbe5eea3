(** Three sites: an impurity with U = 4 at half filling and two levels -1 and 1, no longer coupled. *)
From Coq Require Import String Reals List Arith NArith ZArith Bool Lia Lra Ring.
From Verif Require Import Base RBase RLin CBase OperatorsModel SectorModel SectorSpec FockSpec OperatorsSpec LocalModel LocalSpec NonLocalSpec CsrSpec MatvecModel MbModel MbSpec EspaceModel EspaceSpec EspaceRealModel EspaceMoreProofs ProjModel ProjSpec CfModel GfModel GfSpec GmModel GmSpec GmFockProofs ExactSpec ExactProofs EighProofs
  SymSpec RelSpec RelLinProofs RelHamProofs RelProofs RelGfProofs RelCorProofs GflModel GflSpec AgrModel AgrSpec AgrProofs AgrInstProofs AgrMainProofs VisSpec DmftModel DmftSpec SiamModel SiamCutProofs SiamInstProofs ScrSpec ScrProofs ScrRelProofs ScrMainProofs ScrExProofs PhsSpec.
Import ListNotations.
Local Open Scope R_scope.

Definition tri_H : list R := [-(2); 0; 0;  0; -1; 0;  0; 0; 1].
Notation tri_h := (array_of 3 tri_H).
Notation tri_V := (VArray RRing (on_site 4)).
Definition tri_fl : hflags := mkflags true true true.
Lemma tri_sym : symmetric 3 tri_H.
Proof. intros i j Hi Hj. destruct i as [|[|[|]]], j as [|[|[|]]]; try lia; reflexivity. Qed.
Lemma tri_ok : model_ok (/ 2) 3 tri_h tri_fl tri_V (on_site 4).
Proof. apply code_ok; [lia|lra|reflexivity|exact tri_sym]. Qed.
Notation tri_P := (params_of (fun _ => true) tri_h tri_V false 0 None (on_site 4)).
Lemma coupling_none n (T : nat -> nat -> R) w t s : (forall i j, (i < n)%nat -> (j < n)%nat -> T i j = 0) -> coupling RRing n T w t s = 0.
Proof.
  intros HT. unfold coupling. change (@nsum RRing) with rsum. apply rsum_0. intros i Hi. apply rsum_0. intros j Hj. rewrite HT by assumption. apply Rmult_0_l.
Qed.
Lemma tri_T s i j : (i < 3)%nat -> (j < 3)%nat -> P_T tri_P s i j = 0.
Proof. intros Hi Hj. destruct i as [|[|[|]]], j as [|[|[|]]]; try lia; reflexivity. Qed.
Definition tri_E (u d : N) : R := 4 * (rnum u 0 * rnum d 0) - 2 * (rnum u 0 + rnum d 0) - (rnum u 1 + rnum d 1) + (rnum u 2 + rnum d 2).
Lemma tri_ham ub db ua da : ham_of 3 tri_P ub db ua da = if N.eqb (FockSpec.combine 3 ub db) (FockSpec.combine 3 ua da) then tri_E ua da else 0.
Proof.
  unfold ham_of, hamiltonian, hop_op, exch_same, exch_opp, pair_hop. rewrite !coupling_none by (intros i j Hi Hj; first [reflexivity|apply tri_T; assumption]).
  unfold fock_energy, nsum. cbn. unfold tri_E, on_site, array_of, tri_H. cbn [Nat.eqb].
  destruct (N.eqb _ _); cbn; unfold num, rnum; repeat destruct (occ _ _); cbn; lra.
Qed.
Lemma tri_Hmat t s : Hmat 3 tri_P t s = if N.eqb t s then tri_E (s mod 8) (s / 8) else 0.
Proof.
  unfold Hmat. rewrite tri_ham. change (2 ^ N.of_nat 3)%N with 8%N. assert (C : forall x, FockSpec.combine 3 (x mod 8) (x / 8) = x).
  { intros x. unfold FockSpec.combine. change (2 ^ N.of_nat 3)%N with 8%N. rewrite (N.div_mod x 8) at 3 by discriminate. rewrite N.mul_comm. apply N.add_comm. }
  now rewrite !C.
Qed.
Lemma tri_energy F p q k : RelProofs.solved 3 (Hmat 3 tri_P) F -> (p <= 3)%nat -> (q <= 3)%nat -> (k < nvals (F p q))%nat ->
  exists a, (a < sdim RRing (F p q))%nat /\ energy (F p q) k = tri_E (basis RRing 3 (F p q) a mod 8) (basis RRing 3 (F p q) a / 8).
Proof.
  intros SO Hp Hq Hk. destruct (SO p q Hp Hq) as (IS & NV & SD & [ON EV] & _). rewrite NV in Hk. set (d := sdim RRing (F p q)) in *. set (v := fun k a => nth a (vec RRing (F p q) k) 0) in *.
  assert (EX : exists a, (a < d)%nat /\ v k a <> 0).
  { destruct (list_exists_dec d (fun a => v k a <> 0)) as [H|H]; [intros a; destruct (Req_dec (v k a) 0); auto|exact H|]. exfalso. specialize (ON k k Hk Hk). rewrite Nat.eqb_refl, rsum_0 in ON; [lra|].
    intros a Ha. destruct (Req_dec (v k a) 0) as [E|E]; [rewrite E; ring|]. exfalso. apply H. exists a. auto. }
  destruct EX as (a & Ha & Va). exists a. split; [exact Ha|]. specialize (EV k a Hk Ha). rewrite (rsum_single d _ a Ha) in EV.
  - rewrite tri_Hmat, N.eqb_refl in EV. apply (Rmult_eq_reg_r (v k a)); [symmetry; exact EV|exact Va].
  - intros b Hb NE. rewrite tri_Hmat. destruct (N.eqb_spec (basis RRing 3 (F p q) b) (basis RRing 3 (F p q) a)) as [E|]; [exfalso; apply NE; exact (basis_inj 3 p q _ b a IS Hb Ha E)|ring].
Qed.
Lemma tri_bound F p q k : RelProofs.solved 3 (Hmat 3 tri_P) F -> (p <= 3)%nat -> (q <= 3)%nat -> (p + q <> 3)%nat -> (k < nvals (F p q))%nat -> -3 <= energy (F p q) k.
Proof.
  intros SO Hp Hq Hpq Hk. destruct (tri_energy F p q k SO Hp Hq Hk) as (a & Ha & ->). destruct (SO p q Hp Hq) as ((_ & _ & _ & _ & HU & HD & _) & _). revert Ha HU HD. unfold basis, sdim. generalize (ups RRing (F p q)) (dws RRing (F p q)). intros u w Ha HU HD. revert Ha.
  destruct p as [|[|[|[|]]]]; [| | | |lia]; destruct q as [|[|[|[|]]]]; try lia; vm_compute in HU, HD; injection HU as <-; injection HD as <-; cbn [length Nat.mul Nat.add]; intros Ha;
    destruct a as [|[|[|[|[|[|[|[|[|a]]]]]]]]]; try lia; cbn [Nat.modulo Nat.divmod Nat.sub Nat.div nth fst snd]; unfold tri_E, rnum, FockSpec.combine, occ; cbn; lra.
Qed.
Lemma tri_reached F p q a : RelProofs.solved 3 (Hmat 3 tri_P) F -> (p <= 3)%nat -> (q <= 3)%nat -> (a < sdim RRing (F p q))%nat ->
  exists k, (k < nvals (F p q))%nat /\ energy (F p q) k = tri_E (basis RRing 3 (F p q) a mod 8) (basis RRing 3 (F p q) a / 8).
Proof.
  intros SO Hp Hq Ha. destruct (SO p q Hp Hq) as (IS & NV & SD & [ON EV] & _). rewrite NV. set (d := sdim RRing (F p q)) in *. set (v := fun k a => nth a (vec RRing (F p q) k) 0) in *.
  assert (EX : exists k, (k < d)%nat /\ v k a <> 0).
  { destruct (list_exists_dec d (fun k => v k a <> 0)) as [H|H]; [intros k; destruct (Req_dec (v k a) 0); auto|exact H|]. exfalso. pose proof (orthonormal_complete d d v ON eq_refl a a Ha Ha) as OC. rewrite Nat.eqb_refl, rsum_0 in OC; [lra|].
    intros k Hk. destruct (Req_dec (v k a) 0) as [E|E]; [rewrite E; ring|]. exfalso. apply H. exists k. auto. }
  destruct EX as (k & Hk & Va). exists k. split; [exact Hk|]. specialize (EV k a Hk Ha). rewrite (rsum_single d _ a Ha) in EV.
  - rewrite tri_Hmat, N.eqb_refl in EV. apply (Rmult_eq_reg_r (v k a)); [symmetry; exact EV|exact Va].
  - intros b Hb NE. rewrite tri_Hmat. destruct (N.eqb_spec (basis RRing 3 (F p q) b) (basis RRing 3 (F p q) a)) as [E|]; [exfalso; apply NE; exact (basis_inj 3 p q _ b a IS Hb Ha E)|ring].
Qed.
Lemma tri_low F : RelProofs.solved 3 (Hmat 3 tri_P) F -> exists k, (k < nvals (F 2%nat 1%nat))%nat /\ energy (F 2%nat 1%nat) k = -4.
Proof.
  intros SO. destruct (SO 2%nat 1%nat ltac:(lia) ltac:(lia)) as ((_ & _ & _ & _ & HU & HD & _) & NV & SD & _).
  destruct (tri_reached F 2 1 3 SO ltac:(lia) ltac:(lia)) as (k & Hk & E); [rewrite SD; cbn; lia|]. exists k. split; [exact Hk|]. rewrite E. revert HU HD. clear. unfold basis, sdim. generalize (ups RRing (F 2%nat 1%nat)) (dws RRing (F 2%nat 1%nat)). intros u w HU HD.
  vm_compute in HU, HD; injection HU as <-; injection HD as <-. cbn [length Nat.modulo Nat.divmod Nat.sub Nat.div nth fst snd]; unfold tri_E, rnum, FockSpec.combine, occ; cbn; lra.
Qed.
Section Tri.
Variables (es : espace RRing) (e : R) (eigsh : nat -> Z -> (list R -> res (list R)) -> res (list R * list (list R))).
Hypothesis HB : build_espace RRing Rleb (fun _ => true) (/ 2) real_eigh eigsh 3 tri_h tri_fl tri_V false 0 None None "sz" = Ok (es, Some e).
Variables (sc : espace RRing).
Hypothesis HSC : screen_espace RRing (boltzmann 1000000 e (/ 1000000000)) es = (Ok tt, sc).
Lemma tri_kept p q s : In ([p; q], s) sc -> (p + q = 3)%nat /\ (p <= 3)%nat /\ (q <= 3)%nat.
Proof.
  destruct (exact_solved (fun _ => true) (/ 2) 3 tri_h tri_fl tri_V false 0 None (on_site 4) tri_ok real_eigh eigsh real_eigh_contract es (Some e) HB) as (F & LF & SO & LB & _).
  rewrite (sc_cut (fun _ => true) (/ 2) 3 tri_h tri_fl tri_V false 0 None (on_site 4) tri_ok real_eigh eigsh real_eigh_contract es (Some e) HB _ sc HSC), (kept_members 3 es F _ _ LF eq_refl). intros (Hp & Hq & K & _). split; [|auto].
  destruct (Nat.eq_dec (p + q) 3) as [|NE]; [assumption|exfalso]. apply existsb_exists in K. destruct K as (v & I & K). apply (In_nth _ _ 0) in I. destruct I as (k & Hk & EK).
  pose proof (tri_bound F p q k SO Hp Hq NE Hk) as B. unfold energy in B. replace (nth k (s_vals RRing (F p q)) 0) with v in B by (symmetry; exact EK). destruct (tri_low F SO) as (j & L2 & L1).
  destruct (LB 2%nat 1%nat j ltac:(lia) ltac:(lia) L2) as (e0 & [= <-] & L). rewrite L1 in L.
  unfold boltzmann in K. apply Rltb_spec in K. set (x := 1000000 * (v - e)) in *. assert (X : 1000000 <= x) by (unfold x; lra).
  pose proof (exp_ineq1_le (x / 2)) as Y. assert (Z : exp (- (1000000) * (v - e)) * (exp (x / 2) * exp (x / 2)) = 1) by (rewrite <- !exp_plus, <- exp_0; f_equal; unfold x; field).
  assert (W : 1000000000 < exp (x / 2) * exp (x / 2)) by nra. change (IZR (-1000000)) with (- (1000000)) in K.
  assert (T : / 1000000000 * (exp (x / 2) * exp (x / 2)) < exp (- (1000000) * (v - e)) * (exp (x / 2) * exp (x / 2))) by (apply Rmult_lt_compat_r; [lra|exact K]). rewrite Z in T. lra.
Qed.
Lemma tri_undisturbed s : (s <= 1)%nat -> undisturbed 3 (Z.of_nat s) sc.
Proof.
  intros Hs. apply undisturbed_alone. intros p q t I. destruct (tri_kept p q t I) as (K & Hp & Hq). destruct (listed _ _) eqn:L; [exfalso|reflexivity]. apply (listed_near 3 s) in L; auto.
  - destruct L as (a & b & IK & HN). apply in_map_iff in IK. destruct IK as ([k t2] & E & I2). cbn [fst] in E. subst k. destruct (tri_kept a b t2 I2) as (K2 & _). destruct s as [|[|]]; cbn in HN; lia.
  - intros key IK. apply in_map_iff in IK. destruct IK as ([k t2] & <- & I2). cbn [fst].
    pose proof (sc_cut (fun _ => true) (/ 2) 3 tri_h tri_fl tri_V false 0 None (on_site 4) tri_ok real_eigh eigsh real_eigh_contract es (Some e) HB _ sc HSC) as EC. rewrite EC in I2. apply in_cut_all in I2. destruct I2 as (s0 & I2 & _).
    destruct (inst_family (fun _ => true) (/ 2) 3 tri_h tri_fl tri_V false 0 None (on_site 4) tri_ok real_eigh eigsh real_eigh_contract es (Some e) HB) as (F & LF & _). apply (proj1 (proj2 LF)) in I2. destruct I2 as (a & b & Ha & Hb & -> & _). exists a, b. auto.
Qed.
End Tri.
Lemma tri_workable eigsh tridiag : workable (fun _ => true) (/ 2) real_eigh eigsh tridiag tri_fl false 3 0 tri_H 4.
Proof. split; [reflexivity|]. intros es e sc HB HSC. split; [exact (tri_undisturbed es e eigsh HB sc HSC 0 ltac:(lia))|apply small_krylov; lia]. Qed.
