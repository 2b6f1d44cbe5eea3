(** Two sites, no interaction, no coupling: equal layers, different functions. *)
From Coq Require Import String Reals List Arith NArith ZArith Bool Lia Lra Ring Field Sorting.Sorted.
From Verif Require Import Base RBase RLin CBase OperatorsModel SectorModel SectorSpec FockSpec OperatorsSpec LocalModel LocalSpec NonLocalSpec CsrSpec MatvecModel MbModel MbSpec EspaceModel EspaceSpec EspaceRealModel EspaceProofs EspaceMoreProofs ProjModel ProjSpec CfModel CfSpec GfModel GfSpec GmModel GmSpec GmFockProofs ExactSpec ExactProofs EighProofs
  SymSpec RelSpec RelLinProofs RelHamProofs RelProofs RelGfProofs RelCorProofs GflModel GflSpec AgrModel AgrSpec AgrProofs AgrInstProofs AgrMainProofs VisSpec VisProofs VisMainProofs DmftModel DmftSpec SiamSpec SiamModel SiamLinkProofs SiamCutProofs SiamInstProofs SiamImpProofs ScrSpec ScrProofs ScrRelProofs ScrMainProofs ScrExProofs PhsSpec PhsProofs PhsExProofs MagModel MagSpec MagProofs MagExProofs.
Import ListNotations.
Local Open Scope R_scope.

(** ** A sector completed after it has been used *)
Section Late.
Variable solve : states_t -> res (list R * list (list R)).
Variable mvop : states_t -> res (list R -> res (list R)).
Variable n : nat.
Variable M : nat -> nat -> nat -> nat -> R.
Hypothesis Hn : (n <= 32)%nat.
Hypothesis Hop : operators n mvop M.
Hypothesis Hsolve : solver n solve M.
Variable ispin : Z.
Variables beta egs : R.
Notation Z1 := (fun e : qnums * sct RRing => rsum (nvals (snd e)) (fun i => weight beta egs (energy (snd e) i))).
Notation hits_of l := (flat_map (targets n ispin) (map fst l)).
Lemma visits_app l1 : forall hits l2, visits solve n ispin hits (l1 ++ l2) = visits solve n ispin hits l1 ++ visits solve n ispin (hits ++ hits_of l1) l2.
Proof. induction l1 as [|e l1 IH]; intros hits l2; cbn [app visits map flat_map]; [now rewrite app_nil_r|]. rewrite IH. cbn [app]. do 2 f_equal. now rewrite app_assoc. Qed.
Lemma part_le all l : forall hits, sectors n l -> eigenstates n M l -> incl hits all -> (forall e, In e l -> incl (targets n ispin (fst e)) all) ->
  rsuml (map Z1 (visits solve n ispin hits l)) <= rsuml (map Z1 (map (refreshed solve n all) l)).
Proof.
  induction l as [|[key s] l IH]; intros hits HS HE HH HT; [cbn; lra|]. cbn [visits map rsuml fold_right fst].
  pose proof (refreshed_le solve mvop n M Hn Hop Hsolve beta egs hits all (key, s) (proj2 HS key s (or_introl eq_refl)) (eigen_one n M _ _ HE (or_introl eq_refl)) HH) as B.
  assert (C : rsuml (map Z1 (visits solve n ispin (hits ++ targets n ispin key) l)) <= rsuml (map Z1 (map (refreshed solve n all) l))).
  { apply IH.
    - destruct HS as [ND HI]. cbn [map] in ND. apply NoDup_cons_iff in ND. split; [tauto|]. intros k t I. apply HI. now right.
    - intros p q t I. apply HE. now right.
    - apply incl_app; [exact HH|]. apply (HT (key, s)). now left.
    - intros x Ix. apply HT. now right. }
  unfold rsuml in C. lra.
Qed.
Lemma rsuml_app a b : rsuml (a ++ b) = rsuml a + rsuml b.
Proof. unfold rsuml. induction a as [|x a IH]; cbn [app fold_right]; [ring|]. rewrite IH. ring. Qed.
Lemma sectors_parts l1 l2 : sectors n (l1 ++ l2) -> sectors n l1 /\ sectors n l2.
Proof.
  intros [ND HI]. rewrite map_app in ND. split; (split; [|intros k t I; apply HI, in_or_app; auto]); revert ND; generalize (map fst l1) (map fst l2); clear; intros a b ND.
  - induction a as [|x a IH]; [constructor|]. cbn [app] in ND. apply NoDup_cons_iff in ND. destruct ND as [NI ND]. constructor; [intros I; apply NI, in_or_app; auto|auto].
  - induction a as [|x a IH]; [exact ND|]. cbn [app] in ND. apply NoDup_cons_iff in ND. tauto.
Qed.
Lemma late l1 p q s l2 : let es := l1 ++ ([p; q], s) :: l2 in sectors n es -> eigenstates n M es -> (dimn n p q <= 10)%nat -> listed [p; q] (hits_of l1) = false -> listed [p; q] (hits_of es) = true ->
  rsum (nvals s) (fun i => weight beta egs (energy s i)) < rsum (nvals (renewed solve s)) (fun i => weight beta egs (energy (renewed solve s) i)) ->
  Zof beta egs (visits solve n ispin [] es) < Zof beta egs (finally solve n ispin es).
Proof.
  intros es HS HE Hd L1 L2 LT. set (all := hits_of es) in *. change (rsuml (map Z1 (visits solve n ispin [] es)) < rsuml (map Z1 (map (refreshed solve n all) es))).
  destruct (sectors_parts l1 _ HS) as [S1 S2]. destruct (sectors_parts [([p; q], s)] l2 S2) as [_ S3].
  assert (HT : forall e, In e es -> incl (targets n ispin (fst e)) all). { intros e I x Ix. unfold all. apply in_flat_map. exists (fst e). split; [now apply in_map|exact Ix]. }
  pose proof (part_le all l1 [] S1 (fun a b t I => HE a b t (in_or_app _ _ _ (or_introl I))) (incl_nil_l _) (fun e I => HT e (in_or_app _ _ _ (or_introl I)))) as A.
  assert (B : rsuml (map Z1 (visits solve n ispin (hits_of l1 ++ targets n ispin [p; q]) l2)) <= rsuml (map Z1 (map (refreshed solve n all) l2))).
  { apply part_le.
    - exact S3.
    - intros a b t I. apply HE, in_or_app. right. now right.
    - apply incl_app; [|apply (HT ([p; q], s)); apply in_or_app; right; now left]. intros x Ix. apply in_flat_map in Ix. destruct Ix as (k & Ik & Ix). apply in_map_iff in Ik. destruct Ik as (e & <- & Ie). apply (HT e (in_or_app _ _ _ (or_introl Ie)) x Ix).
    - intros e I. apply HT, in_or_app. right. now right. }
  apply Nat.leb_le in Hd.
  assert (E1 : refreshed solve n (hits_of l1) ([p; q], s) = ([p; q], s)) by (unfold refreshed; cbn [fst snd dim_of]; rewrite Hd; cbn [andb]; now rewrite L1).
  assert (E2 : refreshed solve n all ([p; q], s) = ([p; q], renewed solve s)) by (unfold refreshed; cbn [fst snd dim_of]; rewrite Hd; cbn [andb]; now rewrite L2).
  clearbody all. unfold es. rewrite visits_app, !map_app, !rsuml_app.
  change (visits solve n ispin ([] ++ hits_of l1) (([p; q], s) :: l2)) with (refreshed solve n (hits_of l1) ([p; q], s) :: visits solve n ispin (hits_of l1 ++ targets n ispin [p; q]) l2). rewrite E1. cbn [map]. rewrite E2.
  apply Rplus_le_lt_compat; [exact A|]. exact (Rplus_lt_le_compat _ _ _ _ LT B).
Qed.
End Late.

(** ** An impurity at 0, a level at 1, nothing else *)
Definition lone_H : list R := [0; 0; 0; 1].
Notation lone := (layers 2 lone_H lone_H).
Notation lone_V := (VArray RRing (on_site 0)).
Notation lone_P := (params_of (fun _ => true) lone lone_V false 0 None (on_site 0)).
Lemma lone_sym : symmetric 2 lone_H.
Proof. intros i j Hi Hj. destruct i as [|[|]], j as [|[|]]; try lia; reflexivity. Qed.
Lemma lone_ok : model_ok (/ 2) 2 lone tri_fl lone_V (on_site 0).
Proof. apply (layers_ok (fun _ => true) (/ 2)); [lia|lra|exact lone_sym|exact lone_sym|reflexivity]. Qed.
Lemma lone_T s i j : (i < 2)%nat -> (j < 2)%nat -> P_T lone_P s i j = 0.
Proof. intros Hi Hj. destruct s as [|s]; destruct i as [|[|]], j as [|[|]]; try lia; reflexivity. Qed.
Definition lone_E (u d : N) : R := rnum u 1 + rnum d 1.
Lemma lone_ham ub db ua da : ham_of 2 lone_P ub db ua da = if N.eqb (FockSpec.combine 2 ub db) (FockSpec.combine 2 ua da) then lone_E ua da else 0.
Proof.
  unfold ham_of, hamiltonian, hop_op, exch_same, exch_opp, pair_hop. rewrite !coupling_none by (intros i j Hi Hj; first [reflexivity|apply lone_T; assumption]).
  unfold fock_energy, nsum. cbn. unfold lone_E, on_site, layers, lone_H. cbn [Nat.eqb].
  destruct (N.eqb _ _); cbn; unfold num, rnum; repeat destruct (occ _ _); cbn; lra.
Qed.
Lemma lone_Hmat t s : Hmat 2 lone_P t s = if N.eqb t s then lone_E (s mod 4) (s / 4) else 0.
Proof.
  unfold Hmat. rewrite lone_ham. change (2 ^ N.of_nat 2)%N with 4%N. assert (C : forall x, FockSpec.combine 2 (x mod 4) (x / 4) = x).
  { intros x. unfold FockSpec.combine. change (2 ^ N.of_nat 2)%N with 4%N. rewrite (N.div_mod x 4) at 3 by discriminate. rewrite N.mul_comm. apply N.add_comm. }
  now rewrite !C.
Qed.
Notation lone_at := (fun s : N => lone_E (s mod 4) (s / 4)).
Ltac by_table F p q HU HD := revert HU HD; clear; unfold basis, sdim; generalize (ups RRing (F p q)) (dws RRing (F p q)); intros u w HU HD;
  vm_compute in HU, HD; injection HU as <-; injection HD as <-; cbn [length Nat.modulo Nat.divmod Nat.sub Nat.div nth fst snd]; unfold lone_E, rnum, FockSpec.combine, occ; cbn; lra.
Section Lone.
Variable F : nat -> nat -> sct RRing.
Hypothesis SO : RelProofs.solved 2 (Hmat 2 lone_P) F.
Lemma lone_pos p q k : (p <= 2)%nat -> (q <= 2)%nat -> (k < nvals (F p q))%nat -> 0 <= energy (F p q) k.
Proof.
  intros Hp Hq Hk. destruct (diag_energy 2 _ lone_at F lone_Hmat SO p q k Hp Hq Hk) as (a & Ha & ->). unfold lone_E, rnum. repeat destruct (occ _ _); lra.
Qed.
Lemma lone_full p q k : (p <= 2)%nat -> (q <= 2)%nat -> p = 2%nat \/ q = 2%nat -> (k < nvals (F p q))%nat -> 1 <= energy (F p q) k.
Proof.
  intros Hp Hq Hpq Hk. destruct (diag_energy 2 _ lone_at F lone_Hmat SO p q k Hp Hq Hk) as (a & Ha & ->). destruct (SO p q Hp Hq) as ((_ & _ & _ & _ & HU & HD & _) & _). revert Ha HU HD. unfold basis, sdim. generalize (ups RRing (F p q)) (dws RRing (F p q)). intros u w Ha HU HD. revert Ha.
  destruct p as [|[|[|]]]; [| | |lia]; destruct q as [|[|[|]]]; try lia; vm_compute in HU, HD; injection HU as <-; injection HD as <-; cbn [length Nat.mul Nat.add]; intros Ha;
    destruct a as [|[|[|[|a]]]]; try lia; cbn [Nat.modulo Nat.divmod Nat.sub Nat.div nth fst snd]; unfold lone_E, rnum, FockSpec.combine, occ; cbn; lra.
Qed.
Lemma lone_ground p q : (p <= 1)%nat -> (q <= 1)%nat -> exists k, (k < nvals (F p q))%nat /\ energy (F p q) k = 0.
Proof.
  intros Hp Hq. destruct (SO p q ltac:(lia) ltac:(lia)) as ((_ & _ & _ & _ & HU & HD & _) & NV & SD & _).
  destruct (diag_reached 2 _ lone_at F lone_Hmat SO p q 0 ltac:(lia) ltac:(lia)) as (k & Hk & E); [rewrite SD; destruct p as [|[|]], q as [|[|]]; try lia; cbn; lia|]. exists k. split; [exact Hk|]. rewrite E.
  destruct p as [|[|]], q as [|[|]]; try lia; [by_table F 0%nat 0%nat HU HD|by_table F 0%nat 1%nat HU HD|by_table F 1%nat 0%nat HU HD|by_table F 1%nat 1%nat HU HD].
Qed.
Lemma lone_excited : exists k, (k < nvals (F 0%nat 1%nat))%nat /\ energy (F 0%nat 1%nat) k = 1.
Proof.
  destruct (SO 0%nat 1%nat ltac:(lia) ltac:(lia)) as ((_ & _ & _ & _ & HU & HD & _) & NV & SD & _).
  destruct (diag_reached 2 _ lone_at F lone_Hmat SO 0 1 1 ltac:(lia) ltac:(lia)) as (k & Hk & E); [rewrite SD; cbn; lia|]. exists k. split; [exact Hk|]. rewrite E. by_table F 0%nat 1%nat HU HD.
Qed.
End Lone.
Lemma rsum_pos_one d (f : nat -> R) k : (k < d)%nat -> (forall i, (i < d)%nat -> 0 <= f i) -> 0 < f k -> 0 < rsum d f.
Proof.
  intros Hk H0 HP. induction d as [|d IH]; [lia|]. rewrite rsum_S. pose proof (rsum_nonneg d f (fun i Hi => H0 i ltac:(lia))) as NN. destruct (Nat.eq_dec k d) as [-> |NE]; [lra|].
  pose proof (H0 d ltac:(lia)). assert (0 < rsum d f) by (apply IH; [lia|intros i Hi; apply H0; lia]). lra.
Qed.
Lemma cut_sorted keep (l : espace RRing) : StronglySorted qless (map fst l) -> StronglySorted qless (map fst (cut_all RRing keep l)).
Proof.
  induction l as [|[k s] l IH]; intros S; [constructor|]. cbn [map fst] in S. apply StronglySorted_inv in S. destruct S as [S A]. unfold cut_all. cbn [flat_map fst snd]. destruct (existsb _ _); [|exact (IH S)].
  cbn [app map fst]. constructor; [exact (IH S)|]. apply Forall_forall. intros q I. apply (proj1 (Forall_forall _ _) A). apply in_map_iff in I. destruct I as ([q' t] & <- & I). cbn [fst]. apply in_cut_all in I. destruct I as (s0 & I & _). apply in_map_iff. exists (q', s0). auto.
Qed.
Section Bad.
Variable eigh : dense RRing -> res (list R * list (list R)).
Variable eigsh : nat -> Z -> (list R -> res (list R)) -> res (list R * list (list R)).
Variable tridiag : (list R -> res (list R)) -> list R -> res (list R * list R).
Variable eight : list R -> list R -> res (list R * list (list R)).
Variable beta : R.
Hypothesis HC : eigh_contract eigh.
Hypothesis HW : GflSpec.eigh_sound eight.
Notation big := (fun _ : R => true).
Notation pairs_of := (all_pairs big (/ 2) eigh eigsh 2 lone tri_fl lone_V false 0 None).
Notation prod := (product_of big (/ 2) 2 lone tri_fl lone_V false 0 None).
Notation MM := (Msec big (/ 2) 2 lone lone_V false 0 None (on_site 0)).
Notation keep := (boltzmann 1000000 0 (/ 1000000000)).
Section Dict.
Variables (es sc : espace RRing) (e : R).
Hypothesis HB : build_espace RRing Rleb big (/ 2) eigh eigsh 2 lone tri_fl lone_V false 0 None None "sz" = Ok (es, Some e).
Hypothesis HSC : screen_espace RRing (boltzmann 1000000 e (/ 1000000000)) es = (Ok tt, sc).
Lemma lone_dict : e = 0 /\ exists F, RelProofs.solved 2 (Hmat 2 lone_P) F /\ lists_family 2 es F /\
  forall p q t, In ([p; q], t) sc <-> (p <= 1)%nat /\ (q <= 1)%nat /\ t = cut RRing keep (F p q).
Proof.
  destruct (exact_solved big (/ 2) 2 lone tri_fl lone_V false 0 None (on_site 0) lone_ok eigh eigsh HC es (Some e) HB) as (F & LF & SO & LB & p0 & q0 & Hp0 & Hq0 & NV & [= E0]).
  assert (E : e = 0).
  { pose proof (lone_pos F SO p0 q0 0 Hp0 Hq0 NV) as L. destruct (lone_ground F SO 0 0 ltac:(lia) ltac:(lia)) as (k & Hk & EK). destruct (LB 0%nat 0%nat k ltac:(lia) ltac:(lia) Hk) as (e1 & [= <-] & L1). lra. }
  split; [exact E|]. exists F. split; [exact SO|]. split; [exact LF|]. intros p q t.
  rewrite (sc_cut big (/ 2) 2 lone tri_fl lone_V false 0 None (on_site 0) lone_ok eigh eigsh HC es (Some e) HB _ sc HSC), (kept_members 2 es F _ _ LF eq_refl), E. split.
  - intros (Hp & Hq & K & ->). apply existsb_exists in K. destruct K as (v & I & K). apply (In_nth _ _ 0) in I. destruct I as (k & Hk & EK).
    assert (NF : ~ (p = 2%nat \/ q = 2%nat)). { intros D. pose proof (lone_full F SO p q k Hp Hq D Hk) as B. unfold energy in B. replace (nth k (s_vals RRing (F p q)) 0) with v in B by (symmetry; exact EK). rewrite dropped in K by lra. discriminate. }
    split; [lia|]. split; [lia|reflexivity].
  - intros (Hp & Hq & ->). split; [lia|]. split; [lia|]. split; [|reflexivity]. destruct (lone_ground F SO p q Hp Hq) as (k & Hk & EK). apply existsb_exists. exists (energy (F p q) k). split; [apply nth_In; exact Hk|]. now apply ground_kept.
Qed.
Lemma lone_sectors : sectors 2 sc /\ eigenstates 2 MM sc.
Proof.
  pose proof (inst_sectors big (/ 2) 2 lone tri_fl lone_V false 0 None (on_site 0) lone_ok eigh eigsh HC es (Some e) HB) as HS.
  assert (HE : eigenstates 2 MM es).
  { destruct (inst_family big (/ 2) 2 lone tri_fl lone_V false 0 None (on_site 0) lone_ok eigh eigsh HC es (Some e) HB) as (F & (_ & HI & _) & HEB & EV).
    intros p q t I. pose proof (proj2 HS _ _ I) as (p0 & q0 & E0 & SC). injection E0 as <- <-. apply HI in I. destruct I as (p0 & q0 & Hp & Hq & E0 & ->). injection E0 as <- <-.
    rewrite (dimn_sector 2 p q (F p q) SC). destruct (HEB p q Hp Hq) as [LV ON]. rewrite LV. split; [exact ON|exact (EV p q Hp Hq)]. }
  destruct (screened 2 (boltzmann 1000000 e (/ 1000000000)) MM es HS HE) as (sc' & E' & S' & V' & _). rewrite HSC in E'. injection E' as <-. auto.
Qed.
Lemma lone_key p q : (p <= 1)%nat -> (q <= 1)%nat -> In [p; q] (map fst sc).
Proof. intros Hp Hq. destruct lone_dict as (_ & F & _ & _ & K). apply in_map_iff. exists ([p; q], cut RRing keep (F p q)). split; [reflexivity|]. apply K. auto. Qed.
Lemma lone_hit p q : (p <= 1)%nat -> (q <= 1)%nat -> listed [p; q] (flat_map (targets 2 0) (map fst sc)) = true.
Proof.
  intros Hp Hq. apply listed_spec, in_flat_map. exists [1 - p; q]%nat. split; [apply lone_key; lia|]. destruct p as [|[|]]; [| |lia]; destruct q as [|[|]]; try lia; cbn; tauto.
Qed.
Lemma lone_settled : sectors 2 (finally pairs_of 2 0 sc) /\ eigenstates 2 MM (finally pairs_of 2 0 sc) /\ settled 2 pairs_of (finally pairs_of 2 0 sc).
Proof.
  destruct lone_sectors as [HS HE]. pose proof (inst_solver big (/ 2) 2 lone tri_fl lone_V false 0 None (on_site 0) lone_ok eigh eigsh HC) as HV.
  split; [exact (refreshed_sectors pairs_of 2 MM ltac:(lia) HV _ sc HS)|]. split.
  - apply eigen_all. intros x I. unfold finally in I. apply in_map_iff in I. destruct I as ([key t] & <- & I). apply (refreshed_eigen pairs_of 2 MM ltac:(lia) HV); [exact (proj2 HS _ _ I)|exact (eigen_one 2 MM _ _ HE I)].
  - intros p q s I Hd. unfold finally in I. apply in_map_iff in I. destruct I as ([key t] & E & I). destruct (proj2 HS _ _ I) as (p1 & q1 & -> & IS).
    assert (K : (p1 <= 1)%nat /\ (q1 <= 1)%nat) by (destruct lone_dict as (_ & F & _ & _ & K); apply K in I; tauto). destruct K as [Hp Hq].
    unfold refreshed in E. cbn [fst snd dim_of] in E. rewrite (lone_hit p1 q1 Hp Hq) in E. destruct (Nat.leb_spec (dimn 2 p1 q1) 10) as [D|D]; cbn [andb] in E.
    + injection E as -> -> E. destruct (renewed_sector pairs_of 2 MM ltac:(lia) HV p q t D IS) as (_ & w & U & EP & _ & ER). rewrite ER in E. subst s. exists U. split; [reflexivity|exact EP].
    + injection E as -> -> E. lia.
Qed.
Lemma lone_late : Zof beta 0 (visits pairs_of 2 0 [] sc) < Zof beta 0 (finally pairs_of 2 0 sc).
Proof.
  destruct lone_sectors as [HS HE]. destruct lone_dict as (E0 & F & SO & LF & K). pose proof (inst_solver big (/ 2) 2 lone tri_fl lone_V false 0 None (on_site 0) lone_ok eigh eigsh HC) as HV.
  pose proof (inst_operators big (/ 2) 2 lone tri_fl lone_V false 0 None (on_site 0) lone_ok eigsh) as HO.
  assert (I : In ([0; 1]%nat, cut RRing keep (F 0%nat 1%nat)) sc) by (apply K; auto). destruct (in_split _ _ I) as (l1 & l2 & ES).
  assert (SR : StronglySorted qless (map fst sc)).
  { rewrite (sc_cut big (/ 2) 2 lone tri_fl lone_V false 0 None (on_site 0) lone_ok eigh eigsh HC es (Some e) HB _ sc HSC). apply cut_sorted.
    destruct (build_espace_spec RRing Rleb Rleb_total Rleb_trans big (/ 2) eigh eigsh 2 lone tri_fl lone_V false 0 None None "sz" es (Some e) HB) as (sym & req & _ & _ & S & _). exact S. }
  pose proof (late pairs_of prod 2 MM ltac:(lia) HO HV 0 beta 0 l1 0 1 (cut RRing keep (F 0%nat 1%nat)) l2) as L. cbv zeta in L. rewrite <- ES in L. apply L; auto.
  - cbn; lia.
  - destruct (listed _ _) eqn:LS; [exfalso|reflexivity]. apply listed_spec, in_flat_map in LS. destruct LS as (key & IK & IT). rewrite ES, map_app in SR. cbn [map fst] in SR. destruct (sorted_app_inv _ _ _ SR) as (_ & LT & _). specialize (LT key IK).
    assert (KM : exists p q, key = [p; q] /\ (p <= 1)%nat /\ (q <= 1)%nat).
    { apply in_map_iff in IK. destruct IK as ([k t] & <- & IK). assert (I2 : In (k, t) sc) by (rewrite ES; apply in_or_app; auto). destruct (proj2 HS _ _ I2) as (p & q & -> & _). apply K in I2. exists p, q. tauto. }
    destruct KM as (p & q & -> & Hp & Hq). destruct p as [|[|]], q as [|[|]]; try lia; cbn in LT, IT; try lia; repeat (destruct IT as [IT|IT]; [discriminate|]); exact IT.
  - apply lone_hit; lia.
  - pose proof (proj2 (proj2 LF) 0%nat 1%nat ltac:(lia) ltac:(lia)) as IS.
    assert (PA : paired RRing (F 0%nat 1%nat)) by exact (sector_paired 2 0 1 _ IS). rewrite (cut_rsum keep (F 0%nat 1%nat) (fun x _ => weight beta 0 x) PA).
    assert (IE : In ([0; 1]%nat, F 0%nat 1%nat) es) by (apply (proj1 (proj2 LF)); exists 0%nat, 1%nat; auto).
    destruct (inst_settled big (/ 2) 2 lone tri_fl lone_V false 0 None (on_site 0) lone_ok eigh eigsh es (Some e) HB 0%nat 1%nat _ IE ltac:(cbn; lia)) as (U & EV & EP).
    assert (RN : renewed pairs_of (cut RRing keep (F 0%nat 1%nat)) = F 0%nat 1%nat).
    { unfold renewed. cbn [cut s_states]. match goal with |- match ?b with _ => _ end = _ => replace b with (Ok (s_vals RRing (F 0%nat 1%nat), U)) by (symmetry; exact EP) end. destruct (F 0%nat 1%nat) as [st vs cs]. cbn in *. now rewrite EV. }
    rewrite RN. destruct (lone_excited F SO) as (k & Hk & EK).
    assert (LE : 0 < rsum (nvals (F 0%nat 1%nat)) (fun i => weight beta 0 (energy (F 0%nat 1%nat) i) - (if keep (energy (F 0%nat 1%nat) i) then weight beta 0 (energy (F 0%nat 1%nat) i) else 0))).
    { apply (rsum_pos_one _ _ k Hk); [intros i _; pose proof (weight_pos beta 0 (energy (F 0%nat 1%nat) i)); destruct (keep _); lra|]. rewrite EK, dropped by lra. pose proof (weight_pos beta 0 1). lra. }
    rewrite rsum_sub in LE. lra.
Qed.
End Dict.
Lemma lone_star s : (s <= 1)%nat -> star 2 s (lowered big (/ 2) lone false 0 (on_site 0)) (fun i => on_site 0 i i) 0 (fun _ => 1) (fun _ => 0).
Proof.
  intros Hs. split; [destruct s as [|[|]]; [| |lia]; unfold lowered, one_body; cbn; ring|]. intros k Hk. assert (k = 1%nat) by lia. subst k. split; [reflexivity|]. intros l Hl.
  destruct s as [|[|]]; [| |lia]; destruct l as [|[|]]; try lia; unfold lowered, one_body; cbn; ring.
Qed.
Lemma lone_bare z : bare_inverse 2 0 (fun _ => 1) (fun _ => 0) z = z.
Proof.
  unfold bare_inverse, hybridisation. cbn [Nat.sub]. unfold csum, nsum. destruct z as [a b]. apply cx_eq; cbn; ring.
Qed.
Lemma lone_value z g t : cxn2 z <> 0 -> cxn2 g <> 0 -> t <> 0 -> self_energy 2 0 (fun _ => 1) (fun _ => 0) z g = cxmul (rcx (1 - / t)) (bare_inverse 2 0 (fun _ => 1) (fun _ => 0) z) -> g = cxmul (rcx t) (cxinv z).
Proof.
  unfold self_energy. rewrite lone_bare. intros Hz Hg Ht E.
  assert (IG : cxinv g = cxmul (rcx (/ t)) z). { transitivity (cxsub z (cxsub z (cxinv g))); [apply cx_eq; cbn; ring|]. rewrite E. destruct z as [a b]. apply cx_eq; cbn; ring. }
  assert (G : cxmul g (cxinv g) = rcx 1). { destruct g as [a b]. unfold cxn2, re, CBase.im in Hg. cbn in Hg. unfold cxinv, cxmul, rcx, cxn2, re, CBase.im. cbn. f_equal; field; exact Hg. }
  assert (Z : cxmul z (cxinv z) = rcx 1). { destruct z as [a b]. unfold cxn2, re, CBase.im in Hz. cbn in Hz. unfold cxinv, cxmul, rcx, cxn2, re, CBase.im. cbn. f_equal; field; exact Hz. }
  rewrite IG in G. transitivity (cxmul (cxmul (rcx t) (cxinv z)) (cxmul g (cxmul (rcx (/ t)) z))).
  - transitivity (cxmul (cxmul (rcx t) (rcx (/ t))) (cxmul g (cxmul z (cxinv z)))); [|generalize (cxinv z) (rcx t) (rcx (/ t)); intros [] [] []; destruct z, g; apply cx_eq; cbn; ring].
    rewrite Z. replace (cxmul (rcx t) (rcx (/ t))) with (rcx 1) by (apply cx_eq; cbn; field; exact Ht). destruct g. apply cx_eq; cbn; ring.
  - rewrite G. generalize (cxinv z). intros []. apply cx_eq; cbn; ring.
Qed.
Theorem lone_differ : exists gu gd fin c, solve_spins big (/ 2) eigh eigsh tridiag eight tri_fl false 2 beta None false lone_H lone_H 0 = Ok ((gu, gd), fin, 0, None) /\ 0 < c < 1 /\
  forall z, CBase.im z <> 0 -> value_at gu z = cxmul (rcx c) (cxinv z) /\ value_at gd z = cxinv z.
Proof.
  destruct (dictionary big (/ 2) tri_fl false 2 0 ltac:(lra) eigh eigsh HC lone lone_ok) as (es & e & sc & HB & HSC).
  destruct (lone_dict es sc e HB HSC) as (-> & F & SO & LF & K). destruct (lone_sectors es sc 0 HB HSC) as [S1 E1]. destruct (lone_settled es sc 0 HB HSC) as (S2 & E2 & ST). pose proof (lone_late es sc 0 HB HSC) as LT.
  pose proof (inst_operators big (/ 2) 2 lone tri_fl lone_V false 0 None (on_site 0) lone_ok eigsh) as HO. pose proof (inst_solver big (/ 2) 2 lone tri_fl lone_V false 0 None (on_site 0) lone_ok eigh eigsh HC) as HV.
  pose proof (link big (/ 2) 2 lone tri_fl lone_V false 0 None (on_site 0) lone_ok eq_refl ltac:(intros i j Hi Hj NE; unfold on_site; destruct i, j; try reflexivity; congruence)) as HM.
  pose proof (lowered_sym big (/ 2) 2 lone tri_fl lone_V false 0 (on_site 0) lone_ok) as HL.
  set (fin := finally pairs_of 2 0 sc) in *.
  assert (Z1 : 0 < Zof beta 0 sc).
  { assert (I : In ([0; 0]%nat, cut RRing keep (F 0%nat 0%nat)) sc) by (apply K; auto). apply weight_sum_pos. exists [0; 0]%nat, (cut RRing keep (F 0%nat 0%nat)). split; [exact I|].
    destruct (lone_ground F SO 0 0 ltac:(lia) ltac:(lia)) as (k & Hk & EK). intros N. change (filter keep (s_vals RRing (F 0%nat 0%nat)) = []) in N. assert (IN : In (energy (F 0%nat 0%nat) k) (filter keep (s_vals RRing (F 0%nat 0%nat)))) by (apply filter_In; split; [apply nth_In; exact Hk|now apply ground_kept]). rewrite N in IN. exact IN. }
  destruct (vis_facts pairs_of prod 2 0 beta 0 sc MM ltac:(lia) S1 E1 Z1 HO HV) as (_ & _ & VN & VZ). cbn [Z.of_nat] in VN, VZ. fold fin in VZ.
  assert (Z2 : 0 < Zof beta 0 fin) by (unfold fin in *; lra).
  destruct (visits_settled pairs_of 2 1 fin S2 ST) as [V2 F2].
  destruct (solved pairs_of prod tridiag eight 2 0 beta 0 sc MM _ _ _ 0 (fun _ => 1) (fun _ => 0) "sp" ltac:(lia) ltac:(lia) (or_intror (conj eq_refl HW)) S1 E1 Z1 HO HV (small_krylov 2 _ _ _ _ _ ltac:(lia)) HM HL (lone_star 0 ltac:(lia))) as (gu & guh & GU & _ & PU & _).
  destruct (solved pairs_of prod tridiag eight 2 1 beta 0 fin MM _ _ _ 0 (fun _ => 1) (fun _ => 0) "sp" ltac:(lia) ltac:(lia) (or_intror (conj eq_refl HW)) S2 E2 Z2 HO HV (small_krylov 2 _ _ _ _ _ ltac:(lia)) HM HL (lone_star 1 ltac:(lia))) as (gd & gdh & GD & _ & PD & _).
  cbn [Z.of_nat Pos.of_succ_nat] in GU, GD, PU, PD. fold fin in GU. rewrite F2 in GD. rewrite V2, F2 in PD.
  exists gu, gd, fin, (Zof beta 0 (visits pairs_of 2 0 [] sc) / Zof beta 0 fin). split; [|split].
  - unfold solve_spins. cbv zeta. match goal with |- bind ?b _ = _ => replace b with (Ok (es, Some 0)) by (symmetry; exact HB) end. cbn [bind snd fst].
    match goal with |- context [screen_espace ?a ?b ?c] => replace (screen_espace a b c) with (@Ok unit tt, sc) by (symmetry; exact HSC) end. cbn [bind].
    match goal with |- bind ?b _ = _ => replace b with (Ok (fin, gu, guh)) by (symmetry; exact GU) end. cbn [bind fst snd].
    match goal with |- bind ?b _ = _ => replace b with (Ok (fin, gd, gdh)) by (symmetry; exact GD) end. reflexivity.
  - split; [apply Rdiv_lt_0_compat; assumption|]. apply (Rmult_lt_reg_r (Zof beta 0 fin)); [exact Z2|]. unfold Rdiv. rewrite Rmult_assoc, Rinv_l, Rmult_1_r, Rmult_1_l by lra. exact LT.
  - intros z Hz. assert (NZ : cxn2 z <> 0) by (unfold cxn2; nra). specialize (PU (rcx (re z)) (CBase.im z)). specialize (PD (rcx (re z)) (CBase.im z)). rewrite zpt in PU, PD.
    destruct (PU Hz) as (g & EG & NG & _ & SG). destruct (PD Hz) as (g' & EG' & NG' & _ & SG'). rewrite (value_ok _ _ _ EG), (value_ok _ _ _ EG').
    assert (NN : forall x, x <> rcx 0 -> cxn2 x <> 0). { intros [a b] N E. apply N. unfold cxn2, re, CBase.im in E. cbn in E. apply cx_eq; cbn; nra. }
    split.
    + apply lone_value; auto; [apply Rgt_not_eq, Rdiv_lt_0_compat; assumption|]. rewrite SG by reflexivity. do 3 f_equal. fold fin. field. split; lra.
    + transitivity (cxmul (rcx 1) (cxinv z)); [|generalize (cxinv z); intros []; apply cx_eq; cbn; ring]. apply lone_value; auto. rewrite SG' by reflexivity. do 3 f_equal. field. lra.
Qed.
End Bad.
