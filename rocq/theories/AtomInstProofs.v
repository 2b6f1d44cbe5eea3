(** An isolated site: the library's Green's functions and the occupation of observs.py. *)
From Coq Require Import String Reals List Arith NArith ZArith Bool Lia Lra Psatz Ring Field.
From Verif Require Import Base RBase RLin CBase OperatorsModel OperatorsSpec LookupModel LookupSpec SectorModel SectorSpec SectorProofs FockSpec FockProofs LocalModel LocalSpec HoppingModel
  CsrSpec NonLocalModel NonLocalSpec MatvecModel MatvecSpec MbModel MbSpec EspaceModel EspaceSpec EspaceRealModel EspaceProofs GmEspaceProofs
  ProjModel ProjSpec ProjProofs ProjFinalProofs CfModel CfSpec GfModel GfSpec GfMoreProofs GmModel GmSpec GmProofs ExactSpec EighProofs ConserveProofs ExactProofs ExactMoreProofs
  ObsModel ObsSpec ObsMoreProofs OccSpec OccProofs FermiSpec DedModel
  LanczosModel LanczosSpec GflModel GflSpec GflLoopProofs GflMainProofs GflInstProofs AgrModel AgrSpec AgrProofs AgrInstProofs AgrMainProofs NrModel VisSpec VisProofs VisMainProofs FitModel FitSpec DmftModel DmftSpec DmftProofs
  SiamSpec SiamFormProofs SiamMainProofs SiamLinkProofs SiamCutProofs SiamModel SiamInstProofs SiamImpProofs AtomSpec AtomProofs.
Import ListNotations.
Local Open Scope R_scope.
Add Field cxf_atominst : cx_field.

(** ** Any dictionary of eigenstates *)
Section Dict.
Variables (solve : states_t -> res (list R * list (list R))) (mvop : states_t -> res (list R -> res (list R))) (tridiag : (list R -> res (list R)) -> list R -> res (list R * list R)).
Variable eight : list R -> list R -> res (list R * list (list R)).
Variables (n s : nat) (beta egs : R) (es : espace RRing) (M : nat -> nat -> nat -> nat -> R) (h : nat -> nat -> nat -> R) (u : nat -> R) (c0 e0 : R) (repr : string).
Hypothesis Hn : (0 < n <= 32)%nat.
Hypothesis Hs : (s <= 1)%nat.
Hypothesis HR : repr = "cf"%string \/ repr = "sp"%string /\ GflSpec.eigh_sound eight.
Hypothesis HS : sectors n es.
Hypothesis HE : eigenstates n M es.
Hypothesis HO : operators n mvop M.
Hypothesis HV : solver n solve M.
Notation vis := (visits solve n (Z.of_nat s) [] es).
Notation fin := (finally solve n (Z.of_nat s) es).
Hypothesis HK : krylov n mvop tridiag (Z.of_nat s) vis (fun op p' q' t i a => exc n op (Z.of_nat s) 0 p' q' t i a) 11.
Hypothesis HM : hubbard_family n h u c0 M.
Hypothesis Hh : symmetric_hopping n h.
Hypothesis HT : isolated n s h e0.
Notation O := (occupation n beta egs vis (other n s 0)).

Theorem atom_solved : exists ge gh, build_gf_lanczos solve mvop tridiag eight n es beta egs 0 repr (Z.of_nat s) false = Ok (fin, ge, gh) /\ gh = ge /\
  forall e eta, im (zpoint e eta) <> 0 -> gl_call ge e eta = Ok (cxdiv (two_poles e0 (u 0%nat) (Zof beta egs vis - O) O (zpoint e eta)) (rcx (Zof beta egs fin))).
Proof.
  destruct Hn as [Hn0 Hn']. assert (SPI : (Z.of_nat s = 0 \/ Z.of_nat s = 1)%Z) by lia.
  pose proof (visits_sectors solve n M (Z.of_nat s) Hn' HV [] es HS) as VS. pose proof (visits_eigen solve n M Hn' HV (Z.of_nat s) [] es HS HE) as VE.
  destruct (gf_lanczos_visits solve mvop tridiag eight n M es beta egs (Z.of_nat s) 0 repr false Hn' Hn0 SPI HR HS HO HV HK) as (ge & gh & E & CALL).
  exists ge, gh. split; [exact E|]. split.
  - unfold build_gf_lanczos in E. destruct (repr_of repr) as [k|]; [|discriminate]. cbn [bind] in E. destruct (pick (Z.of_nat s) tt tt) as [[]|]; [|discriminate]. cbn [bind] in E.
    destruct (foldM _ (map fst es) _) as [[[es1 fe] fh]|]; [|discriminate]. cbn [bind] in E. cbv zeta in E. injection E as _ E1 E2. now rewrite <- E1, <- E2.
  - intros e eta Hz. destruct (visits_resolved solve n mvop M es (Z.of_nat s) 0 (zpoint e eta) Hn' HS HO HV Hz) as (X & RS).
    destruct (CALL e eta X Hz RS) as [C1 _]. cbn [map] in C1.
    rewrite <- (atom_sum n s beta egs vis M h u c0 e0 Hs Hn0 VS VE HM Hh HT _ X RS Hz). exact C1.
Qed.
End Dict.

(** ** Occupations stored in the form of observs.py *)
Lemma thermal_dict n es scts beta egs orb : sectors n es -> Forall2 (fun e o => stored (snd e) o) es scts ->
  thermal_Z scts egs beta = Zof beta egs es /\ thermal scts egs beta n orb = occupation n beta egs es orb / Zof beta egs es.
Proof.
  intros [_ HS] F2. assert (Z : thermal_Z scts egs beta = Zof beta egs es).
  { unfold thermal_Z, Zof. clear HS. induction F2 as [|e o l l' S F2 IH]; [reflexivity|]. cbn [map bsum rsuml fold_right]. unfold rsuml in IH. apply (f_equal2 Rplus); [|exact IH].
    destruct S as (_ & SV & _). unfold boltzmann. rewrite SV. reflexivity. }
  split; [exact Z|]. unfold thermal. rewrite Z. f_equal. unfold occupation. clear Z.
  induction F2 as [|[key sc] o l l' S F2 IH]; [reflexivity|]. cbn [map bsum rsuml fold_right]. unfold rsuml in IH. apply (f_equal2 Rplus); [|apply IH; intros k' s' I; apply (HS k' s'); now right].
  destruct (HS key sc (or_introl eq_refl)) as (p & q & _ & IS). destruct S as (SS & SV & MA & EN). cbn [snd] in *. pose proof IS as (_ & _ & _ & P4 & _). unfold boltzmann. rewrite SV.
  apply rsum_ext. intros j Hj. change (weight beta egs (energy sc j)) with (exp (- beta * (nth j (s_vals RRing sc) 0 - egs))). f_equal.
  unfold sector_expect. rewrite SS, P4, SV. change (length (s_vals RRing sc)) with (nvals sc). rewrite (Nat.mul_comm (length (ups RRing sc))). fold (sdim RRing sc). unfold expect. fold (sdim RRing sc).
  apply rsum_ext. intros a Ha. rewrite EN by auto. change (fock_at n (ups RRing sc) (dws RRing sc) a) with (basis RRing n sc a). unfold occR. destruct (occ _ orb); cbn; ring.
Qed.

(** ** All states kept *)
Section Code.
Variables (big : R -> bool) (half : R) (n : nat) (h : hmat RRing) (fl : hflags) (V : inter RRing) (hf : bool) (mu : R) (zz : option (nat -> R)) (U : nat -> nat -> R).
Hypothesis MO : model_ok half n h fl V U.
Hypothesis HJx : inter_Jx RRing V = None.
Hypothesis HD : forall i j, (i < n)%nat -> (j < n)%nat -> i <> j -> U i j = 0.
(** No hopping above the threshold leaves site 0. *)
Hypothesis HI : forall r l, (r < 2)%nat -> (0 < l < n)%nat -> hspin RRing h r l 0%nat = 0 \/ big (hspin RRing h r l 0%nat) = false.
Variable eigh : dense RRing -> res (list R * list (list R)).
Variable eigsh : nat -> Z -> (list R -> res (list R)) -> res (list R * list (list R)).
Hypothesis HC : eigh_contract eigh.
Variables (es : espace RRing) (e : R).
Hypothesis HB : build_espace RRing Rleb big half eigh eigsh n h fl V hf mu zz None "sz" = Ok (es, Some e).
Variable s : nat.
Hypothesis Hs : (s <= 1)%nat.
Variable beta : R.
Notation MM := (Msec big half n h V hf mu zz U).
Notation prod := (product_of big half n h fl V hf mu zz).
Notation pairs_of := (all_pairs big half eigh eigsh n h fl V hf mu zz).
Definition level (r : nat) : R := hspin RRing h r 0%nat 0%nat + mu - (if hf then half * U 0%nat 0%nat else 0).

Lemma code_isolated r : isolated n r (lowered big half h hf mu U) (level r).
Proof.
  split; [reflexivity|]. intros r' l Hr Hl. unfold lowered, one_body. destruct (Nat.eqb_spec l 0) as [|_]; [lia|].
  destruct (HI r' l Hr Hl) as [-> | ->]; [destruct (big 0)|]; destruct hf; ring.
Qed.
Lemma code_states : sectors n es /\ eigenstates n MM es /\ 0 < Zof beta e es.
Proof.
  pose proof (inst_sectors big half n h fl V hf mu zz U MO eigh eigsh HC es _ HB) as HS. split; [exact HS|]. split.
  - destruct (inst_family big half n h fl V hf mu zz U MO eigh eigsh HC es _ HB) as (F & (_ & HI' & _) & HEB & EV).
    intros p q sc I. pose proof (proj2 HS _ _ I) as (p0 & q0 & E0 & SC). injection E0 as <- <-.
    apply HI' in I. destruct I as (p0 & q0 & Hp & Hq & E0 & ->). injection E0 as <- <-.
    rewrite (dimn_sector n p q (F p q) SC). destruct (HEB p q Hp Hq) as [LV ON]. rewrite LV. split; [exact ON|exact (EV p q Hp Hq)].
  - destruct (build_espace_spec RRing Rleb Rleb_total Rleb_trans big half eigh eigsh n h fl V hf mu zz None "sz" es _ HB) as (sym & req & _ & _ & _ & _ & _ & EO).
    destruct EO as [(key & sc & IN & IV) _]. apply weight_sum_pos. exists key, sc. split; [exact IN|]. intros Q. rewrite Q in IV. destruct IV.
Qed.
Definition filling (r : nat) : R := occupation n beta e es (r * n) / Zof beta e es.
Theorem atom_lanczos tridiag eight repr : repr = "cf"%string \/ repr = "sp"%string /\ GflSpec.eigh_sound eight ->
  krylov n prod tridiag (Z.of_nat s) es (fun op p' q' t i a => exc n op (Z.of_nat s) 0 p' q' t i a) 11 ->
  exists ge gh, gf_lanczos_of big half eigh eigsh n h fl V hf mu zz tridiag eight es beta e 0 repr (Z.of_nat s) false = Ok (es, ge, gh) /\
  forall a eta, im (zpoint a eta) <> 0 -> gl_call ge a eta = Ok (two_poles (level s) (U 0%nat 0%nat) (1 - filling (1 - s)) (filling (1 - s)) (zpoint a eta)).
Proof.
  intros HR HK. destruct MO as ((Hn1 & Hn2 & _) & _). destruct code_states as (S1 & E1 & ZP).
  pose proof (inst_operators big half n h fl V hf mu zz U MO eigsh) as HO. pose proof (inst_solver big half n h fl V hf mu zz U MO eigh eigsh HC) as HV.
  destruct (visits_settled pairs_of n (Z.of_nat s) es S1 (inst_settled big half n h fl V hf mu zz U MO eigh eigsh es _ HB)) as [EV EF].
  assert (HN0 : (0 < n <= 32)%nat) by lia.
  assert (HKv : krylov n prod tridiag (Z.of_nat s) (visits pairs_of n (Z.of_nat s) [] es) (fun op p' q' t i a => exc n op (Z.of_nat s) 0 p' q' t i a) 11) by (rewrite EV; exact HK).
  destruct (atom_solved pairs_of prod tridiag eight n s beta e es MM _ _ _ (level s) repr HN0 Hs HR S1 E1 HO HV HKv (link big half n h fl V hf mu zz U MO HJx HD) (lowered_sym big half n h fl V hf mu U MO) (code_isolated s))
    as (ge & gh & EG & _ & PT). rewrite EV, EF in *.
  exists ge, gh. split; [exact EG|]. intros a eta Hz. rewrite (PT a eta Hz). f_equal. unfold filling. rewrite (other_zero n s) by lia.
  set (N := Zof beta e es) in *. set (O := occupation n beta e es ((1 - s) * n)).
  assert (NC : rcx N <> rcx 0) by (intros Q; injection Q; lra). assert (OFF : forall c, cxsub (zpoint a eta) (rcx c) <> rcx 0) by (intros c Q; apply (f_equal im) in Q; cbn in Q; apply Hz; cbn; lra).
  unfold two_poles. pose proof (OFF (level s)) as D0. pose proof (OFF (level s + U 0%nat 0%nat)) as D1.
  assert (Q1 : rcx (1 - O / N) = cxdiv (rcx (N - O)) (rcx N)) by (rewrite <- rcx_quot by lra; f_equal; field; lra).
  rewrite Q1, (rcx_quot O N) by lra. set (z := zpoint a eta) in *. set (p1 := cxsub z _) in *. set (p2 := cxsub z _) in *. clearbody p1 p2. field. repeat split; assumption.
Qed.

(** The function of all pairs of states needs no iteration. *)
Lemma some_krylov : exists tridiag, krylov n prod tridiag (Z.of_nat s) es (fun op p' q' t i a => exc n op (Z.of_nat s) 0 p' q' t i a) 11.
Proof.
  destruct MO as ((Hn1 & Hn2 & _) & _). set (ds := flat_map (fun p => map (fun q => dimn n p q) (seq 0 (S n))) (seq 0 (S n))).
  exists (tridiag_with (E := unit) (S (S (list_max ds))) 3 (fun x => Reqb x 0) (fun _ _ => Ok tt) (fun _ _ => false) (fun _ => 0) (fun _ => 0)).
  apply (ideal_krylov unit _ _ _ _ _ _ _ n _ _ (Z.of_nat s) es _ _ Hn2 (inst_sectors big half n h fl V hf mu zz U MO eigh eigsh HC es _ HB) (inst_operators big half n h fl V hf mu zz U MO eigsh)); try lia; try reflexivity.
  - intros x. unfold Reqb. destruct (Req_EM_T x 0); split; congruence.
  - intros a b. now exists tt.
  - intros p q Hp Hq. assert (L : (list_max ds <= list_max ds)%nat) by lia. apply list_max_le in L. rewrite Forall_forall in L. assert (I : In (dimn n p q) ds); [|apply L in I; lia].
    apply in_flat_map. exists p. split; [apply in_seq; lia|]. apply in_map_iff. exists q. split; [reflexivity|apply in_seq; lia].
Qed.
Theorem atom_exact : exists g, build_gf2_exact n es beta e (Z.of_nat s) = Ok g /\
  forall a eta, im (zpoint a eta) <> 0 -> exists G, gm_call g a eta = Ok G /\ GmSpec.entry G 0 0 = two_poles (level s) (U 0%nat 0%nat) (1 - filling (1 - s)) (filling (1 - s)) (zpoint a eta).
Proof.
  destruct some_krylov as (tridiag & HK). assert (HR : "cf"%string = "cf"%string \/ "cf"%string = "sp"%string /\ GflSpec.eigh_sound (fun _ _ => Err ValueError)) by (now left).
  destruct (atom_lanczos tridiag (fun _ _ => Err ValueError) "cf" HR HK) as (ge & gh & EG & PT).
  assert (P0 : (0 < n)%nat) by (destruct MO as ((Hn1 & _) & _); lia).
  destruct (agree big half n h fl V hf mu zz U MO eigh eigsh HC es _ HB tridiag (fun _ _ => Err ValueError) beta e s "cf" Hs HR 0 false P0 HK) as (ge' & gh' & g & EG' & E & AG).
  rewrite EG in EG'. injection EG' as <- <-. exists g. split; [exact E|]. intros a eta Hz. destruct (AG a eta Hz) as (G & v & w & EC & EV & _ & -> & _). exists G. split; [exact EC|].
  rewrite (PT a eta Hz) in EV. injection EV as <-. reflexivity.
Qed.
End Code.
