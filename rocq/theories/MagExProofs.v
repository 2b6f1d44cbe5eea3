(** Three sites: the impurity of PhsExProofs in a field. *)
From Coq Require Import String Reals List Arith NArith ZArith Bool Lia Lra Ring.
From Verif Require Import Base RBase RLin CBase OperatorsModel SectorModel SectorSpec FockSpec OperatorsSpec LocalModel LocalSpec NonLocalSpec CsrSpec MatvecModel MbModel MbSpec EspaceModel EspaceSpec EspaceRealModel EspaceMoreProofs ProjModel ProjSpec CfModel GfModel GfSpec GmModel GmSpec GmFockProofs ExactSpec ExactProofs EighProofs
  SymSpec RelSpec RelLinProofs RelHamProofs RelProofs RelGfProofs RelCorProofs GflModel GflSpec AgrModel AgrSpec AgrProofs AgrInstProofs AgrMainProofs VisSpec DmftModel DmftSpec DmftProofs FitModel FitSpec SiamModel SiamCutProofs SiamInstProofs ScrSpec ScrProofs ScrRelProofs ScrMainProofs ScrExProofs PhsSpec PhsProofs PhsLoopProofs PhsExProofs MagModel MagSpec MagProofs MagLoopProofs.
Import ListNotations.
Local Open Scope R_scope.

(** Eigenvalues of a diagonal Hamiltonian. *)
Section Diagonal.
Variables (n : nat) (HM : N -> N -> R) (E : N -> R) (F : nat -> nat -> sct RRing).
Hypothesis HD : forall t s, HM t s = if N.eqb t s then E s else 0.
Hypothesis SO : RelProofs.solved n HM F.
Lemma diag_energy p q k : (p <= n)%nat -> (q <= n)%nat -> (k < nvals (F p q))%nat -> exists a, (a < sdim RRing (F p q))%nat /\ energy (F p q) k = E (basis RRing n (F p q) a).
Proof.
  intros Hp Hq Hk. destruct (SO p q Hp Hq) as (IS & NV & SD & [ON EV] & _). rewrite NV in Hk. set (d := sdim RRing (F p q)) in *. set (v := fun k a => nth a (vec RRing (F p q) k) 0) in *.
  assert (EX : exists a, (a < d)%nat /\ v k a <> 0).
  { destruct (list_exists_dec d (fun a => v k a <> 0)) as [H|H]; [intros a; destruct (Req_dec (v k a) 0); auto|exact H|]. exfalso. specialize (ON k k Hk Hk). rewrite Nat.eqb_refl, rsum_0 in ON; [lra|].
    intros a Ha. destruct (Req_dec (v k a) 0) as [Z|Z]; [rewrite Z; ring|]. exfalso. apply H. exists a. auto. }
  destruct EX as (a & Ha & Va). exists a. split; [exact Ha|]. specialize (EV k a Hk Ha). rewrite (rsum_single d _ a Ha) in EV.
  - rewrite HD, N.eqb_refl in EV. apply (Rmult_eq_reg_r (v k a)); [symmetry; exact EV|exact Va].
  - intros b Hb NE. rewrite HD. destruct (N.eqb_spec (basis RRing n (F p q) b) (basis RRing n (F p q) a)) as [Z|]; [exfalso; apply NE; exact (basis_inj n p q _ b a IS Hb Ha Z)|ring].
Qed.
Lemma diag_reached p q a : (p <= n)%nat -> (q <= n)%nat -> (a < sdim RRing (F p q))%nat -> exists k, (k < nvals (F p q))%nat /\ energy (F p q) k = E (basis RRing n (F p q) a).
Proof.
  intros Hp Hq Ha. destruct (SO p q Hp Hq) as (IS & NV & SD & [ON EV] & _). rewrite NV. set (d := sdim RRing (F p q)) in *. set (v := fun k a => nth a (vec RRing (F p q) k) 0) in *.
  assert (EX : exists k, (k < d)%nat /\ v k a <> 0).
  { destruct (list_exists_dec d (fun k => v k a <> 0)) as [H|H]; [intros k; destruct (Req_dec (v k a) 0); auto|exact H|]. exfalso. pose proof (orthonormal_complete d d v ON eq_refl a a Ha Ha) as OC. rewrite Nat.eqb_refl, rsum_0 in OC; [lra|].
    intros k Hk. destruct (Req_dec (v k a) 0) as [Z|Z]; [rewrite Z; ring|]. exfalso. apply H. exists k. auto. }
  destruct EX as (k & Hk & Va). exists k. split; [exact Hk|]. specialize (EV k a Hk Ha). rewrite (rsum_single d _ a Ha) in EV.
  - rewrite HD, N.eqb_refl in EV. apply (Rmult_eq_reg_r (v k a)); [symmetry; exact EV|exact Va].
  - intros b Hb NE. rewrite HD. destruct (N.eqb_spec (basis RRing n (F p q) b) (basis RRing n (F p q) a)) as [Z|]; [exfalso; apply NE; exact (basis_inj n p q _ b a IS Hb Ha Z)|ring].
Qed.
End Diagonal.
(** A state a unit or more above the ground state is dropped. *)
Lemma dropped v e : e + 1 <= v -> boltzmann 1000000 e (/ 1000000000) v = false.
Proof.
  intros L. destruct (boltzmann _ _ _ _) eqn:K; [exfalso|reflexivity]. unfold boltzmann in K. apply Rltb_spec in K. set (x := 1000000 * (v - e)) in *. assert (X : 1000000 <= x) by (unfold x; lra).
  pose proof (exp_ineq1_le (x / 2)) as Y. assert (Z : exp (- (1000000) * (v - e)) * (exp (x / 2) * exp (x / 2)) = 1) by (rewrite <- !exp_plus, <- exp_0; f_equal; unfold x; field).
  assert (W : 1000000000 < exp (x / 2) * exp (x / 2)) by nra. change (IZR (-1000000)) with (- (1000000)) in K.
  assert (T : / 1000000000 * (exp (x / 2) * exp (x / 2)) < exp (- (1000000) * (v - e)) * (exp (x / 2) * exp (x / 2))) by (apply Rmult_lt_compat_r; [lra|exact K]). rewrite Z in T. lra.
Qed.
Lemma ground_kept v e : v = e -> boltzmann 1000000 e (/ 1000000000) v = true.
Proof. intros ->. unfold boltzmann. apply Rltb_spec. replace (_ * (e - e)) with 0 by ring. rewrite exp_0. lra. Qed.

(** ** U = 4, impurity levels -2-f and -2+f, bath levels -1 and 1 *)
Definition fld_H (f : R) : list R := [- (2) - f; 0; 0;  0; -1; 0;  0; 0; 1].
Section Field.
Variable f : R.
Notation fld := (layers 3 (fld_H f) (fld_H (- f))).
Lemma fld_sym x : symmetric 3 (fld_H x).
Proof. intros i j Hi Hj. destruct i as [|[|[|]]], j as [|[|[|]]]; try lia; reflexivity. Qed.
Lemma fld_ok : model_ok (/ 2) 3 fld tri_fl tri_V (on_site 4).
Proof. apply (layers_ok (fun _ => true) (/ 2)); [lia|lra|apply fld_sym|apply fld_sym|reflexivity]. Qed.
Notation fld_P := (params_of (fun _ => true) fld tri_V false 0 None (on_site 4)).
Lemma fld_T s i j : (i < 3)%nat -> (j < 3)%nat -> P_T fld_P s i j = 0.
Proof. intros Hi Hj. destruct s as [|s]; destruct i as [|[|[|]]], j as [|[|[|]]]; try lia; reflexivity. Qed.
Definition fld_E (u d : N) : R := tri_E u d - f * (rnum u 0 - rnum d 0).
Lemma fld_ham ub db ua da : ham_of 3 fld_P ub db ua da = if N.eqb (FockSpec.combine 3 ub db) (FockSpec.combine 3 ua da) then fld_E ua da else 0.
Proof.
  unfold ham_of, hamiltonian, hop_op, exch_same, exch_opp, pair_hop. rewrite !coupling_none by (intros i j Hi Hj; first [reflexivity|apply fld_T; assumption]).
  unfold fock_energy, nsum. cbn. unfold fld_E, tri_E, on_site, layers, fld_H. cbn [Nat.eqb].
  destruct (N.eqb _ _); cbn; unfold num, rnum; repeat destruct (occ _ _); cbn; lra.
Qed.
Lemma fld_Hmat t s : Hmat 3 fld_P t s = if N.eqb t s then fld_E (s mod 8) (s / 8) else 0.
Proof.
  unfold Hmat. rewrite fld_ham. change (2 ^ N.of_nat 3)%N with 8%N. assert (C : forall x, FockSpec.combine 3 (x mod 8) (x / 8) = x).
  { intros x. unfold FockSpec.combine. change (2 ^ N.of_nat 3)%N with 8%N. rewrite (N.div_mod x 8) at 3 by discriminate. rewrite N.mul_comm. apply N.add_comm. }
  now rewrite !C.
Qed.
Lemma fld_bound F p q k : RelProofs.solved 3 (Hmat 3 fld_P) F -> (p <= 3)%nat -> (q <= 3)%nat -> (p + q <> 3)%nat -> (k < nvals (F p q))%nat -> -3 - Rabs f <= energy (F p q) k.
Proof.
  intros SO Hp Hq Hpq Hk. destruct (diag_energy 3 _ (fun s => fld_E (s mod 8) (s / 8)) F fld_Hmat SO p q k Hp Hq Hk) as (a & Ha & ->). destruct (SO p q Hp Hq) as ((_ & _ & _ & _ & HU & HD & _) & _). revert Ha HU HD. unfold basis, sdim. generalize (ups RRing (F p q)) (dws RRing (F p q)). intros u w Ha HU HD. revert Ha.
  pose proof (Rle_abs f) as A1. pose proof (Rle_abs (- f)) as A2. rewrite Rabs_Ropp in A2. revert A1 A2. generalize (Rabs f). intros af A1 A2.
  destruct p as [|[|[|[|]]]]; [| | | |lia]; destruct q as [|[|[|[|]]]]; try lia; vm_compute in HU, HD; injection HU as <-; injection HD as <-; cbn [length Nat.mul Nat.add]; intros Ha;
    destruct a as [|[|[|[|[|[|[|[|[|a]]]]]]]]]; try lia; cbn [Nat.modulo Nat.divmod Nat.sub Nat.div nth fst snd]; unfold fld_E, tri_E, rnum, FockSpec.combine, occ; cbn; lra.
Qed.
Lemma fld_low F : RelProofs.solved 3 (Hmat 3 fld_P) F -> exists p q k, (p <= 3)%nat /\ (q <= 3)%nat /\ (k < nvals (F p q))%nat /\ energy (F p q) k = -4 - Rabs f.
Proof.
  intros SO. destruct (Rle_dec 0 f) as [L|L].
  - exists 2%nat, 1%nat. destruct (SO 2%nat 1%nat ltac:(lia) ltac:(lia)) as ((_ & _ & _ & _ & HU & HD & _) & NV & SD & _).
    destruct (diag_reached 3 _ (fun s => fld_E (s mod 8) (s / 8)) F fld_Hmat SO 2 1 3 ltac:(lia) ltac:(lia)) as (k & Hk & E); [rewrite SD; cbn; lia|]. exists k. split; [lia|]. split; [lia|]. split; [exact Hk|]. rewrite E, Rabs_pos_eq by exact L. revert HU HD. clear. unfold basis, sdim. generalize (ups RRing (F 2%nat 1%nat)) (dws RRing (F 2%nat 1%nat)). intros u w HU HD.
    vm_compute in HU, HD; injection HU as <-; injection HD as <-. cbn [length Nat.modulo Nat.divmod Nat.sub Nat.div nth fst snd]; unfold fld_E, tri_E, rnum, FockSpec.combine, occ; cbn; lra.
  - exists 1%nat, 2%nat. destruct (SO 1%nat 2%nat ltac:(lia) ltac:(lia)) as ((_ & _ & _ & _ & HU & HD & _) & NV & SD & _).
    destruct (diag_reached 3 _ (fun s => fld_E (s mod 8) (s / 8)) F fld_Hmat SO 1 2 1 ltac:(lia) ltac:(lia)) as (k & Hk & E); [rewrite SD; cbn; lia|]. exists k. split; [lia|]. split; [lia|]. split; [exact Hk|]. rewrite E, Rabs_left by lra. revert HU HD. clear. unfold basis, sdim. generalize (ups RRing (F 1%nat 2%nat)) (dws RRing (F 1%nat 2%nat)). intros u w HU HD.
    vm_compute in HU, HD; injection HU as <-; injection HD as <-. cbn [length Nat.modulo Nat.divmod Nat.sub Nat.div nth fst snd]; unfold fld_E, tri_E, rnum, FockSpec.combine, occ; cbn; lra.
Qed.
Section Dict.
Variables (es : espace RRing) (e : R) (eigsh : nat -> Z -> (list R -> res (list R)) -> res (list R * list (list R))).
Hypothesis HB : build_espace RRing Rleb (fun _ => true) (/ 2) real_eigh eigsh 3 fld tri_fl tri_V false 0 None None "sz" = Ok (es, Some e).
Variables (sc : espace RRing).
Hypothesis HSC : screen_espace RRing (boltzmann 1000000 e (/ 1000000000)) es = (Ok tt, sc).
Lemma fld_kept p q s : In ([p; q], s) sc -> (p + q = 3)%nat /\ (p <= 3)%nat /\ (q <= 3)%nat.
Proof.
  destruct (exact_solved (fun _ => true) (/ 2) 3 fld tri_fl tri_V false 0 None (on_site 4) fld_ok real_eigh eigsh real_eigh_contract es (Some e) HB) as (F & LF & SO & LB & _).
  rewrite (sc_cut (fun _ => true) (/ 2) 3 fld tri_fl tri_V false 0 None (on_site 4) fld_ok real_eigh eigsh real_eigh_contract es (Some e) HB _ sc HSC), (kept_members 3 es F _ _ LF eq_refl). intros (Hp & Hq & K & _). split; [|auto].
  destruct (Nat.eq_dec (p + q) 3) as [|NE]; [assumption|exfalso]. apply existsb_exists in K. destruct K as (v & I & K). apply (In_nth _ _ 0) in I. destruct I as (k & Hk & EK).
  pose proof (fld_bound F p q k SO Hp Hq NE Hk) as B. unfold energy in B. replace (nth k (s_vals RRing (F p q)) 0) with v in B by (symmetry; exact EK). destruct (fld_low F SO) as (a & b & j & Ha & Hb & L2 & L1).
  destruct (LB a b j Ha Hb L2) as (e0 & [= <-] & L). rewrite L1 in L. rewrite dropped in K by lra. discriminate.
Qed.
Lemma fld_undisturbed s : (s <= 1)%nat -> undisturbed 3 (Z.of_nat s) sc.
Proof.
  intros Hs. apply undisturbed_alone. intros p q t I. destruct (fld_kept p q t I) as (K & Hp & Hq). destruct (listed _ _) eqn:L; [exfalso|reflexivity]. apply (listed_near 3 s) in L; auto.
  - destruct L as (a & b & IK & HN). apply in_map_iff in IK. destruct IK as ([k t2] & E & I2). cbn [fst] in E. subst k. destruct (fld_kept a b t2 I2) as (K2 & _). destruct s as [|[|]]; cbn in HN; lia.
  - intros key IK. apply in_map_iff in IK. destruct IK as ([k t2] & <- & I2). cbn [fst].
    pose proof (sc_cut (fun _ => true) (/ 2) 3 fld tri_fl tri_V false 0 None (on_site 4) fld_ok real_eigh eigsh real_eigh_contract es (Some e) HB _ sc HSC) as EC. rewrite EC in I2. apply in_cut_all in I2. destruct I2 as (s0 & I2 & _).
    destruct (inst_family (fun _ => true) (/ 2) 3 fld tri_fl tri_V false 0 None (on_site 4) fld_ok real_eigh eigsh real_eigh_contract es (Some e) HB) as (F & LF & _). apply (proj1 (proj2 LF)) in I2. destruct I2 as (a & b & Ha & Hb & -> & _). exists a, b. auto.
Qed.
End Dict.
Lemma fld_workable eigsh tridiag : workable2 (fun _ => true) (/ 2) real_eigh eigsh tridiag tri_fl false 3 (fld_H f) (fld_H (- f)) 4.
Proof. split; [reflexivity|]. intros es e sc HB HSC s Hs. split; [exact (fld_undisturbed es e eigsh HB sc HSC s Hs)|apply small_krylov; lia]. Qed.
End Field.

(** A fit that returns two levels -1 and 1 without coupling. *)
Definition off_fit (x : list R) (d : list cx) : list R := if (length x =? 4)%nat then [-1; 1; 0; 0] else x.
Lemma off_trial g d m f : shaped 3 4 g -> m = 2 + f -> trial_H off_fit m g d = fld_H f.
Proof.
  intros (EN & EU & LH & LX & AR) ->. unfold trial_H.
  assert (LE : length (imp_H (imp_fit_update off_fit g d (2 + f))) = 9%nat) by (unfold imp_fit_update, imp_update; cbn [imp_H set_H]; rewrite upd_tot_length, fit_H_length; exact LH).
  assert (LF : length (off_fit (imp_x g) d) = (2 * (imp_n g - 1))%nat) by (unfold off_fit; rewrite LX, EN; reflexivity).
  pose proof (fit_entries off_fit g d (2 + f) ltac:(lia) ltac:(rewrite EN; exact LH) LF) as FE. rewrite EN in FE.
  assert (EX : off_fit (imp_x g) d = [-1; 1; 0; 0]) by (unfold off_fit; rewrite LX; reflexivity). rewrite EX in FE.
  assert (Q : forall i j, (i < 3)%nat -> (j < 3)%nat -> ent 3 (fld_H f) i j = ent 3 (imp_H (imp_fit_update off_fit g d (2 + f))) i j).
  { intros i j Hi Hj. rewrite FE by assumption. destruct i as [|[|[|]]], j as [|[|[|]]]; try lia; cbn [Nat.eqb]; try reflexivity; try (unfold ent; cbn; lra); rewrite AR by lia; reflexivity. }
  symmetry. apply (list_ext _ _ 0); [rewrite LE; reflexivity|]. cbn [length fld_H]. intros k Hk.
  pose proof (Q (k / 3)%nat (k mod 3)%nat) as QK. unfold ent in QK. replace (k / 3 * 3 + k mod 3)%nat with k in QK by (rewrite Nat.mul_comm; apply Nat.div_mod; lia). apply QK; [apply Nat.div_lt_upper_bound; lia|apply Nat.mod_upper_bound; lia].
Qed.
Lemma off_fitted g d : shaped 3 4 g -> fitted 3 off_fit g d.
Proof. intros (_ & _ & _ & LX & _). unfold fitted, off_fit. rewrite LX. reflexivity. Qed.
Lemma off_workable eigsh tridiag mu ed a delta : shaped 3 4 (fst (fst a)) -> shaped 3 4 (snd (fst a)) -> mu - ed = 2 -> both_workable (fun _ => true) (/ 2) real_eigh eigsh tridiag tri_fl false 3 4 off_fit mu ed a delta.
Proof.
  intros S1 S2 E. unfold both_workable. cbv zeta. rewrite !(off_trial _ _ (mu - ed) 0) by (auto; lra). pose proof (fld_workable 0 eigsh tridiag) as W. rewrite Ropp_0 in W.
  split; [now apply off_fitted|]. split; [now apply off_fitted|]. auto.
Qed.
(** What holds of every state holds along the run. *)
Lemma along_inv {S D} (dstep : S -> D -> res (S * D)) dist tol max_iter mix (P : S -> D -> Prop) (Inv : S -> Prop) :
  (forall s d, Inv s -> P s d) -> (forall s d s' new, Inv s -> dstep s d = Ok (s', new) -> Inv s') ->
  forall fuel hist s it, Inv s -> along dstep dist tol max_iter mix P fuel hist (s, it).
Proof.
  intros HP HI fuel. induction fuel as [|fuel IH]; intros hist s it Hs; cbn [along]; destruct (mix hist) as [d|]; auto. split; [now apply HP|]. unfold dmft_call. cbn [fst snd].
  destruct (dstep s d) as [[s' new]|] eqn:E; [|exact I]. pose proof (HI s d s' new Hs E) as Hs'. cbn. repeat (match goal with |- context [if ?b then _ else _] => destruct b end; auto); apply IH; exact Hs'.
Qed.
