(** Two separate sites at half filling: screening leaves the states with one electron on each. *)
From Coq Require Import String Reals List Arith NArith ZArith Bool Lia Lra Ring.
From Verif Require Import Base RBase RLin CBase OperatorsModel SectorModel SectorSpec FockSpec OperatorsSpec LocalModel LocalSpec NonLocalSpec CsrSpec MatvecModel MbModel MbSpec EspaceModel EspaceSpec EspaceRealModel EspaceMoreProofs ProjModel ProjSpec CfModel GfModel GfSpec GmModel GmSpec GmFockProofs ExactSpec ExactProofs EighProofs
  SymSpec RelSpec RelLinProofs RelHamProofs RelProofs RelGfProofs RelCorProofs GflModel GflSpec AgrModel AgrSpec AgrProofs AgrInstProofs AgrMainProofs VisSpec SiamCutProofs ScrSpec ScrProofs ScrRelProofs ScrMainProofs.
Import ListNotations.
Local Open Scope R_scope.

Definition at_h : hmat RRing := H2 RRing (fun _ _ => 0).
Definition at_U (i j : nat) : R := if (i =? j)%nat then 2 else 0.
Definition at_fl : hflags := mkflags true true true.
Lemma at_ok : model_ok (/ 2) 2 at_h at_fl (VArray RRing at_U) at_U.
Proof.
  split; [split; [lia|split; [lia|lra]]|]. split; [reflexivity|]. split; [auto|]. split; [split; exact I|]. split; [|reflexivity]. intros s i j _ _. reflexivity.
Qed.
Lemma at_half : half_filled 2 (fun _ => true) at_h (VArray RRing at_U) false (-1) None at_U (fun _ => false).
Proof.
  split; [|split; [|reflexivity]].
  - intros s x y _ Hx Hy Hxy _. reflexivity.
  - intros s x _ Hx. rewrite centred_plain. destruct x as [|[|]]; [| |lia]; unfold at_U, at_h, rsum, nsum; cbn; lra.
Qed.
Notation at_P := (params_of (fun _ => true) at_h (VArray RRing at_U) false (-1) None at_U).
Lemma coupling_0 n (T : nat -> nat -> R) w t s : (forall i j, T i j = 0) -> coupling RRing n T w t s = 0.
Proof.
  intros HT. unfold coupling. change (@nsum RRing) with rsum. apply rsum_0. intros i _. apply rsum_0. intros j _. rewrite HT. change (@eq R) with (@eq R).
  apply Rmult_0_l.
Qed.
Lemma list_exists_dec d (P : nat -> Prop) : (forall a, P a \/ ~ P a) -> (exists a, (a < d)%nat /\ P a) \/ ~ exists a, (a < d)%nat /\ P a.
Proof.
  intros D. induction d as [|d [IH|IH]]; [right; intros (a & Ha & _); lia|left; destruct IH as (a & Ha & H); exists a; split; [lia|exact H]|].
  destruct (D d) as [H|H]; [left; exists d; auto|right]. intros (a & Ha & Q). destruct (Nat.eq_dec a d) as [->|]; [auto|]. apply IH. exists a. split; [lia|exact Q].
Qed.
Definition at_E (u d : N) : R := 2 * (rnum u 0 * rnum d 0 + rnum u 1 * rnum d 1) - (rnum u 0 + rnum d 0 + rnum u 1 + rnum d 1).
Lemma at_ham ub db ua da : ham_of 2 at_P ub db ua da = if N.eqb (FockSpec.combine 2 ub db) (FockSpec.combine 2 ua da) then at_E ua da else 0.
Proof.
  unfold ham_of, hamiltonian, hop_op, exch_same, exch_opp, pair_hop. rewrite !coupling_0 by (intros i j; cbn [params_of P_T P_Jx P_Jp]; unfold opt_offdiag, offdiag; cbn; destruct (i =? j)%nat; reflexivity).
  unfold fock_energy, nsum. cbn. fold (rnum ua 0) (rnum ua 1) (rnum da 0) (rnum da 1). unfold at_E, at_U. cbn [Nat.eqb].
  destruct (N.eqb _ _); cbn; unfold num, rnum; repeat destruct (occ _ _); cbn; lra.
Qed.
Lemma at_Hmat t s : Hmat 2 at_P t s = if N.eqb t s then at_E (s mod 4) (s / 4) else 0.
Proof.
  unfold Hmat. rewrite at_ham. change (2 ^ N.of_nat 2)%N with 4%N. assert (C : forall x, FockSpec.combine 2 (x mod 4) (x / 4) = x).
  { intros x. unfold FockSpec.combine. change (2 ^ N.of_nat 2)%N with 4%N. rewrite (N.div_mod x 4) at 3 by discriminate. rewrite N.mul_comm. apply N.add_comm. }
  now rewrite !C.
Qed.
Lemma at_energy F p q k : solved 2 (Hmat 2 at_P) F -> (p <= 2)%nat -> (q <= 2)%nat -> (k < nvals (F p q))%nat ->
  exists a, (a < sdim RRing (F p q))%nat /\ energy (F p q) k = at_E (basis RRing 2 (F p q) a mod 4) (basis RRing 2 (F p q) a / 4).
Proof.
  intros SO Hp Hq Hk. destruct (SO p q Hp Hq) as (IS & NV & SD & [ON EV] & _). rewrite NV in Hk. set (d := sdim RRing (F p q)) in *. set (v := fun k a => nth a (vec RRing (F p q) k) 0) in *.
  assert (EX : exists a, (a < d)%nat /\ v k a <> 0).
  { destruct (list_exists_dec d (fun a => v k a <> 0)) as [H|H]; [intros a; destruct (Req_dec (v k a) 0); auto|exact H|]. exfalso. specialize (ON k k Hk Hk). rewrite Nat.eqb_refl, rsum_0 in ON; [lra|].
    intros a Ha. destruct (Req_dec (v k a) 0) as [E|E]; [rewrite E; ring|]. exfalso. apply H. exists a. auto. }
  destruct EX as (a & Ha & Va). exists a. split; [exact Ha|]. specialize (EV k a Hk Ha). rewrite (rsum_single d _ a Ha) in EV.
  - rewrite at_Hmat, N.eqb_refl in EV. apply (Rmult_eq_reg_r (v k a)); [symmetry; exact EV|exact Va].
  - intros b Hb NE. rewrite at_Hmat. destruct (N.eqb_spec (basis RRing 2 (F p q) b) (basis RRing 2 (F p q) a)) as [E|]; [exfalso; apply NE; exact (basis_inj 2 p q _ b a IS Hb Ha E)|ring].
Qed.
Lemma at_bound F p q k : solved 2 (Hmat 2 at_P) F -> (p <= 2)%nat -> (q <= 2)%nat -> (p + q <> 2)%nat -> (k < nvals (F p q))%nat -> -1 <= energy (F p q) k.
Proof.
  intros SO Hp Hq Hpq Hk. destruct (at_energy F p q k SO Hp Hq Hk) as (a & Ha & ->). destruct (SO p q Hp Hq) as ((_ & _ & _ & _ & HU & HD & _) & _). revert Ha HU HD. unfold basis, sdim. generalize (ups RRing (F p q)) (dws RRing (F p q)). intros u w Ha HU HD. revert Ha.
  destruct p as [|[|[|]]]; [| | |lia]; destruct q as [|[|[|]]]; try lia; vm_compute in HU, HD; injection HU as <-; injection HD as <-; cbn [length Nat.mul Nat.add]; intros Ha;
    destruct a as [|[|[|[|a]]]]; try lia; cbn [Nat.modulo Nat.divmod Nat.sub Nat.div nth fst snd]; unfold at_E, rnum, FockSpec.combine, occ; cbn; lra.
Qed.
Lemma at_low F : solved 2 (Hmat 2 at_P) F -> energy (F 2%nat 0%nat) 0 = -2 /\ (0 < nvals (F 2%nat 0%nat))%nat.
Proof.
  intros SO. destruct (SO 2%nat 0%nat ltac:(lia) ltac:(lia)) as ((_ & _ & _ & _ & HU & HD & _) & NV & SD & _). assert (K : (0 < nvals (F 2%nat 0%nat))%nat) by (rewrite NV, SD; cbn; lia). split; [|exact K].
  destruct (at_energy F 2 0 0 SO ltac:(lia) ltac:(lia) K) as (a & Ha & ->). revert Ha HU HD. unfold basis, sdim. generalize (ups RRing (F 2%nat 0%nat)) (dws RRing (F 2%nat 0%nat)). intros u w Ha HU HD. revert Ha.
  vm_compute in HU, HD; injection HU as <-; injection HD as <-; cbn [length Nat.mul Nat.add]; intros Ha. assert (a = 0%nat) as -> by lia.
  cbn [Nat.modulo Nat.divmod Nat.sub Nat.div nth fst snd]; unfold at_E, rnum, FockSpec.combine, occ; cbn; lra.
Qed.
Section At.
Variables (es : espace RRing) (e : R) (eigsh : nat -> Z -> (list R -> res (list R)) -> res (list R * list (list R))).
Hypothesis HB : build_espace RRing Rleb (fun _ => true) (/ 2) real_eigh eigsh 2 at_h at_fl (VArray RRing at_U) false (-1) None None "sz" = Ok (es, Some e).
Variables (sc : espace RRing).
Hypothesis HSC : screen_espace RRing (boltzmann 5 e (/ 2)) es = (Ok tt, sc).
Lemma at_kept p q s : In ([p; q], s) sc -> (p + q = 2)%nat /\ (p <= 2)%nat /\ (q <= 2)%nat.
Proof.
  destruct (exact_solved (fun _ => true) (/ 2) 2 at_h at_fl (VArray RRing at_U) false (-1) None at_U at_ok real_eigh eigsh real_eigh_contract es (Some e) HB) as (F & LF & SO & LB & _).
  rewrite (sc_cut (fun _ => true) (/ 2) 2 at_h at_fl (VArray RRing at_U) false (-1) None at_U at_ok real_eigh eigsh real_eigh_contract es (Some e) HB _ sc HSC), (kept_members 2 es F _ _ LF eq_refl). intros (Hp & Hq & K & _). split; [|auto].
  destruct (Nat.eq_dec (p + q) 2) as [|NE]; [assumption|exfalso]. apply existsb_exists in K. destruct K as (v & I & K). apply (In_nth _ _ 0) in I. destruct I as (k & Hk & EK).
  pose proof (at_bound F p q k SO Hp Hq NE Hk) as B. unfold energy in B. replace (nth k (s_vals RRing (F p q)) 0) with v in B by (symmetry; exact EK). destruct (at_low F SO) as [L1 L2].
  destruct (LB 2%nat 0%nat 0%nat ltac:(lia) ltac:(lia) L2) as (e0 & [= <-] & L). rewrite L1 in L.
  unfold boltzmann in K. apply Rltb_spec in K. assert (X : - 5 * (v - e) <= -1) by lra.
  pose proof (exp_ineq1_le (5 * (v - e))) as Y. assert (Z : exp (Ropp 5 * (v - e)) * exp (5 * (v - e)) = 1) by (rewrite <- exp_plus, <- exp_0; f_equal; ring). pose proof (exp_pos (5 * (v - e))) as W.
  pose proof (Rmult_lt_compat_r _ _ _ W K) as T. rewrite Z in T. lra.
Qed.
Lemma at_undisturbed s : (s <= 1)%nat -> undisturbed 2 (Z.of_nat s) sc.
Proof.
  intros Hs. apply undisturbed_alone. intros p q t I. destruct (at_kept p q t I) as (K & Hp & Hq). destruct (listed _ _) eqn:L; [exfalso|reflexivity]. apply (listed_near 2 s) in L; auto.
  - destruct L as (a & b & IK & HN). apply in_map_iff in IK. destruct IK as ([k t2] & E & I2). cbn [fst] in E. subst k. destruct (at_kept a b t2 I2) as (K2 & _). destruct s as [|[|]]; cbn in HN; lia.
  - intros key IK. apply in_map_iff in IK. destruct IK as ([k t2] & <- & I2). cbn [fst].
    pose proof (sc_cut (fun _ => true) (/ 2) 2 at_h at_fl (VArray RRing at_U) false (-1) None at_U at_ok real_eigh eigsh real_eigh_contract es (Some e) HB _ sc HSC) as EC. rewrite EC in I2. apply in_cut_all in I2. destruct I2 as (s0 & I2 & _).
    destruct (inst_family (fun _ => true) (/ 2) 2 at_h at_fl (VArray RRing at_U) false (-1) None at_U at_ok real_eigh eigsh real_eigh_contract es (Some e) HB) as (F & LF & _). apply (proj1 (proj2 LF)) in I2. destruct I2 as (a & b & Ha & Hb & -> & _). exists a, b. auto.
Qed.
End At.
