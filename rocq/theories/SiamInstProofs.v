(** The self-energy of the impurity model as the library computes it. *)
From Coq Require Import String Reals List Arith NArith ZArith Bool Lia Lra Psatz Ring Field.
From Verif Require Import Base RBase RLin CBase OperatorsModel OperatorsSpec FockSpec SectorModel LocalModel HoppingModel NonLocalModel MatvecModel MbModel MbSpec EspaceModel EspaceSpec EspaceRealModel EspaceProofs
  ProjModel ProjSpec CfModel CfSpec GfModel GfSpec GmModel GmSpec GmEspaceProofs ExactSpec EighProofs ExactProofs
  GflModel GflSpec GflInstProofs AgrModel AgrSpec AgrProofs AgrInstProofs VisSpec VisProofs VisMainProofs DmftSpec SiamSpec SiamModel SiamLinProofs SiamFormProofs SiamMainProofs SiamLinkProofs SiamCutProofs.
Import ListNotations.
Local Open Scope R_scope.
Add Field cxf_siaminst : cx_field.

Lemma im_scaled g r : r <> 0 -> im (cxdiv g (rcx r)) = im g / r.
Proof. intros Hr. destruct g as [a b]. unfold cxdiv, cxinv, cxmul, rcx, cxn2, im, re. cbn. field. lra. Qed.
Lemma rcx_quot a b : b <> 0 -> rcx (a / b) = cxdiv (rcx a) (rcx b).
Proof. intros Hb. unfold cxdiv, cxinv, cxmul, rcx, cxn2, re, im. cbn. f_equal; field; lra. Qed.
Section Dict.
Variables (solve : states_t -> res (list R * list (list R))) (mvop : states_t -> res (list R -> res (list R))) (tridiag : (list R -> res (list R)) -> list R -> res (list R * list R)).
Variable eight : list R -> list R -> res (list R * list (list R)).
Variables (n s : nat) (beta egs : R) (es : espace RRing) (M : nat -> nat -> nat -> nat -> R) (h : nat -> nat -> nat -> R) (u : nat -> R) (c0 e0 : R) (ek vk : nat -> R) (repr : string).
Hypothesis Hn : (0 < n <= 32)%nat.
Hypothesis Hs : (s <= 1)%nat.
Hypothesis HR : repr = "cf"%string \/ repr = "sp"%string /\ GflSpec.eigh_sound eight.
Hypothesis HS : sectors n es.
Hypothesis HE : eigenstates n M es.
Hypothesis HZ : 0 < Zof beta egs es.
Hypothesis HO : operators n mvop M.
Hypothesis HV : solver n solve M.
Notation vis := (visits solve n (Z.of_nat s) [] es).
Notation fin := (finally solve n (Z.of_nat s) es).
Hypothesis HK : krylov n mvop tridiag (Z.of_nat s) vis (fun op p' q' t i a => exc n op (Z.of_nat s) 0 p' q' t i a) 11.
Hypothesis HM : hubbard_family n h u c0 M.
Hypothesis Hh : symmetric_hopping n h.
Hypothesis HT : star n s h u e0 ek vk.
Notation N := (Zof beta egs vis).
Notation Z' := (Zof beta egs fin).
Notation D := (bare_inverse n e0 ek vk).
Notation SE := (self_energy n e0 ek vk).

Lemma vis_facts : sectors n vis /\ eigenstates n M vis /\ 0 < N /\ N <= Z'.
Proof.
  destruct Hn as [_ Hn']. pose proof (visits_le solve mvop n M Hn' HO HV (Z.of_nat s) beta egs es HS HE) as [L1 L2].
  split; [exact (visits_sectors solve n M (Z.of_nat s) Hn' HV [] es HS)|]. split; [exact (visits_eigen solve n M Hn' HV (Z.of_nat s) [] es HS HE)|]. lra.
Qed.
Theorem solved : exists ge gh, build_gf_lanczos solve mvop tridiag eight n es beta egs 0 repr (Z.of_nat s) false = Ok (fin, ge, gh) /\ gh = ge /\
  (forall e eta, im (zpoint e eta) <> 0 -> exists g, gl_call ge e eta = Ok g /\ g <> rcx 0 /\
    (0 < im (zpoint e eta) -> im g <= 0 /\ im (SE (zpoint e eta) g) <= 0) /\
    (u 0%nat = 0 -> SE (zpoint e eta) g = cxmul (rcx (1 - Z' / N)) (D (zpoint e eta)))) /\
  exists C V, 0 < V /\ forall e eta, let z := zpoint e eta in V <= im z * im z -> exists g, gl_call ge e eta = Ok g /\
    cxn2 (cxsub (SE z g) (cxadd (cxmul (rcx (1 - Z' / N)) (D z)) (rcx (Z' / N * (u 0%nat * occupation n beta egs vis (other n s 0) / N))))) <= C / (im z * im z).
Proof.
  destruct vis_facts as (VS & VE & VN & VZ). destruct Hn as [Hn0 Hn'].
  assert (SPI : (Z.of_nat s = 0 \/ Z.of_nat s = 1)%Z) by lia.
  destruct (gf_lanczos_visits solve mvop tridiag eight n M es beta egs (Z.of_nat s) 0 repr false Hn' Hn0 SPI HR HS HO HV HK) as (ge & gh & E & CALL).
  exists ge, gh. split; [exact E|].
  assert (GG : gh = ge).
  { unfold build_gf_lanczos in E. destruct (repr_of repr) as [k|]; [|discriminate]. cbn [bind] in E. destruct (pick (Z.of_nat s) tt tt) as [[]|]; [|discriminate]. cbn [bind] in E.
    destruct (foldM _ (map fst es) _) as [[[es1 fe] fh]|]; [|discriminate]. cbn [bind] in E. cbv zeta in E. injection E as _ E1 E2. now rewrite <- E1, <- E2. }
  split; [exact GG|].
  assert (PT : forall e eta, im (zpoint e eta) <> 0 -> exists X, resolved n M (Z.of_nat s) vis 0 (zpoint e eta) X /\
    gl_call ge e eta = Ok (cxdiv (csuml (map (fun op => csuml (map (contribution n beta egs (Z.of_nat s) 0 X op) vis)) [OpCdg; OpC])) (rcx Z'))).
  { intros e eta Hz. destruct (visits_resolved solve n mvop M es (Z.of_nat s) 0 (zpoint e eta) Hn' HS HO HV Hz) as (X & RS). exists X. split; [exact RS|].
    destruct (CALL e eta X Hz RS) as [C1 _]. exact C1. }
  assert (NC : rcx N <> rcx 0) by (intros Q; injection Q; lra). assert (ZC : rcx Z' <> rcx 0) by (intros Q; injection Q; lra).
  split.
  - intros e eta Hz. destruct (PT e eta Hz) as (X & RS & C1). eexists. split; [exact C1|].
    pose proof (gsum_nonzero n s beta egs vis M h u c0 Hs Hn0 VS VE HM Hh VN _ X RS Hz) as G0.
    split; [|split].
    + intros Q. apply G0. transitivity (cxmul (cxdiv (csuml (map (fun op => csuml (map (contribution n beta egs (Z.of_nat s) 0 X op) vis)) [OpCdg; OpC])) (rcx Z')) (rcx Z')); [field; exact ZC|rewrite Q; ring].
    + intros Hp. split; [|exact (selfen_causal n s beta egs vis M h u c0 e0 ek vk Hs Hn0 VS VE HM Hh HT VN _ X RS Hz Z' VZ Hp)].
      pose proof (gsum_im n s beta egs vis M h u c0 Hs VS HM Hh _ X RS Hz Hp) as GI. set (G := csuml _) in *.
      assert (Q : im (cxdiv G (rcx Z')) = im G / Z') by (apply im_scaled; lra). rewrite Q. unfold Rdiv. assert (0 < / Z') by (apply Rinv_0_lt_compat; lra). nra.
    + intros U0. exact (selfen_free n s beta egs vis M h u c0 e0 ek vk Hs Hn0 VS VE HM Hh HT VN _ X Z' U0 RS Hz ltac:(lra)).
  - destruct (selfen_high n s beta egs vis M h u c0 e0 ek vk Hs Hn0 VS VE HM Hh HT VN) as (C & V & HVp & HH).
    exists ((Z' / N) * (Z' / N) * C), V. split; [exact HVp|]. intros e eta z Hz.
    assert (Hz0 : im (zpoint e eta) <> 0) by (intros Q; unfold z in Hz; rewrite Q in Hz; lra).
    destruct (PT e eta Hz0) as (X & RS & C1). eexists. split; [exact C1|]. fold z in RS.
    pose proof (gsum_nonzero n s beta egs vis M h u c0 Hs Hn0 VS VE HM Hh VN _ X RS Hz0) as G0.
    specialize (HH z X Hz RS). unfold selfen in HH. set (G := csuml _) in *. set (A := u 0%nat * occupation n beta egs vis (other n s 0) / N) in *.
    unfold self_energy, bare_inverse. set (F := cxsub (cxsub z (rcx e0)) (hybridisation n ek vk z)) in *.
    assert (Q : cxsub (cxsub F (cxinv (cxdiv G (rcx Z')))) (cxadd (cxmul (rcx (1 - Z' / N)) F) (rcx (Z' / N * A))) = cxmul (rcx (Z' / N)) (cxsub (cxsub F (cxinv (cxdiv G (rcx N)))) (rcx A))).
    { pose proof (rcx_quot Z' N ltac:(lra)) as R3.
      assert (R1 : rcx (1 - Z' / N) = cxsub (rcx 1) (cxdiv (rcx Z') (rcx N))) by (rewrite <- R3; apply cx_eq; cbn; ring).
      assert (R2 : rcx (Z' / N * A) = cxmul (cxdiv (rcx Z') (rcx N)) (rcx A)) by (rewrite <- R3; apply cx_eq; cbn; ring).
      rewrite R1, R2, R3. field. auto. }
    rewrite Q, (cxn2_mul (rcx (Z' / N))). assert (Q2 : cxn2 (rcx (Z' / N)) = Z' / N * (Z' / N)) by (unfold cxn2; cbn; ring). rewrite Q2.
    replace (Z' / N * (Z' / N) * C / (im z * im z)) with (Z' / N * (Z' / N) * (C / (im z * im z))) by (unfold Rdiv; ring).
    apply Rmult_le_compat_l; [apply (Rle_0_sqr (Z' / N))|exact HH].
Qed.
End Dict.

Section Code.
Variables (big : R -> bool) (half : R).
Variable eigh : dense RRing -> res (list R * list (list R)).
Variable eigsh : nat -> Z -> (list R -> res (list R)) -> res (list R * list (list R)).
Variable tridiag : (list R -> res (list R)) -> list R -> res (list R * list R).
Variable eight : list R -> list R -> res (list R * list (list R)).
Variables (fl : hflags) (hf : bool) (n s : nat) (beta : R) (H : list R) (U : R).
Hypothesis Hn : (1 < n <= 32)%nat.
Hypothesis Hs : (s <= 1)%nat.
Hypothesis H2 : half + half = 1.
Hypothesis Hfl : settable RRing (array_of n H) fl = true.
Hypothesis HSY : symmetric n H.
Hypothesis HAR : arrow n H.
Hypothesis HBG : forall k, (0 < k < n)%nat -> ent n H 0 k = 0 \/ big (ent n H 0 k) = true.
Hypothesis HC : eigh_contract eigh.
Hypothesis HW : GflSpec.eigh_sound eight.
Notation h := (array_of n H).
Notation V := (VArray RRing (on_site U)).
Notation prod := (product_of big half n h fl V hf 0 None).
Hypothesis HK : forall es, sectors n es -> krylov n prod tridiag (Z.of_nat s) es (fun op p' q' t i a => exc n op (Z.of_nat s) 0 p' q' t i a) 11.
Notation MM := (Msec big half n h V hf 0 None (on_site U)).
Notation pairs_of := (all_pairs big half eigh eigsh n h fl V hf 0 None).
Notation e0 := (ent n H 0 0 - (if hf then half * U else 0)).
Notation ek := (fun k => ent n H k k).
Notation vk := (fun k => ent n H 0 k).

Lemma code_ok : model_ok half n h fl V (on_site U).
Proof.
  clear - Hn H2 Hfl HSY. split; [split; [lia|split; [lia|auto]]|]. split; [reflexivity|]. split; [auto|]. split; [split; exact I|]. split; [|exact Hfl].
  intros sp i j Hi Hj. exact (HSY i j Hi Hj).
Qed.
Lemma code_family : hubbard_family n (lowered big half h hf 0 (on_site U)) (fun i => on_site U i i) (offset half n hf (on_site U)) MM.
Proof. apply (link big half n h fl V hf 0 None (on_site U) code_ok eq_refl). intros i j Hi Hj NE. unfold on_site. destruct i, j; try reflexivity; congruence. Qed.
Lemma code_star : star n s (lowered big half h hf 0 (on_site U)) (fun i => on_site U i i) e0 ek vk.
Proof.
  split.
  - unfold lowered, one_body. cbn [Nat.eqb andb on_site hspin array_of]. unfold ent. destruct hf; ring.
  - intros k Hk. split; [unfold on_site; destruct k; [lia|reflexivity]|]. intros l Hl. unfold lowered, one_body. cbn [hspin array_of].
    change (nth (l * n + l) H 0) with (ent n H l l). change (nth (l * n + k) H 0) with (ent n H l k).
    destruct (Nat.eqb_spec l k) as [->|NE].
    + destruct (Nat.eqb_spec k 0) as [|]; [lia|]. unfold on_site. destruct k; [lia|]. cbn [Nat.eqb andb]. destruct hf; ring.
    + destruct (Nat.eqb_spec l 0) as [->|NL].
      * destruct (HBG k Hk) as [-> | ->]; [|destruct hf; ring]. destruct (big 0), hf; ring.
      * rewrite (HAR l k) by lia. destruct (big 0), hf; ring.
Qed.
Lemma code_eigen es egs : build_espace RRing Rleb big half eigh eigsh n h fl V hf 0 None None "sz" = Ok (es, egs) -> sectors n es /\ eigenstates n MM es /\ exists e, egs = Some e /\ exists key sc, In (key, sc) es /\ In e (s_vals RRing sc).
Proof.
  intros HB. pose proof (inst_sectors big half n h fl V hf 0 None (on_site U) code_ok eigh eigsh HC es egs HB) as HS. split; [exact HS|]. split.
  - destruct (inst_family big half n h fl V hf 0 None (on_site U) code_ok eigh eigsh HC es egs HB) as (F & (_ & HI & _) & HEB & EV).
    intros p q sc I. pose proof (proj2 HS _ _ I) as (p0 & q0 & E0 & SC). injection E0 as <- <-.
    apply HI in I. destruct I as (p0 & q0 & Hp & Hq & E0 & ->). injection E0 as <- <-.
    rewrite (dimn_sector n p q (F p q) SC). destruct (HEB p q Hp Hq) as [LV ON]. rewrite LV. split; [exact ON|exact (EV p q Hp Hq)].
  - destruct (build_espace_spec RRing Rleb Rleb_total Rleb_trans big half eigh eigsh n h fl V hf 0 None None "sz" es egs HB) as (sym & req & _ & _ & _ & _ & _ & EO).
    destruct code_ok as ((Hn1 & Hn2 & _) & HU & HJ & (HSx & HSp) & HSm & Hset).
    destruct (exact_egs big half n h fl V hf 0 None (on_site U) eigh eigsh Hn1 Hn2 H2 HU HJ HSx HSp HSm Hset HC es egs HB) as (e & -> & _).
    exists e. split; [reflexivity|]. exact (proj1 EO).
Qed.
Lemma zpoint_parts z : zpoint (rcx (re z)) (im z) = z.
Proof. destruct z as [a b]. unfold zpoint, rcx, re, im. apply cx_eq; cbn; ring. Qed.
Notation D := (bare_inverse n e0 ek vk).
Notation SE := (self_energy n e0 ek vk).
Theorem code_solved : exists ge vis fin egs, solve_impurity big half eigh eigsh tridiag eight fl hf n beta (Z.of_nat s) None false H U = Ok (ge, fin, egs, None) /\
  sectors n vis /\ eigenstates n MM vis /\ 0 < Zof beta egs vis <= Zof beta egs fin /\
  (forall z, im z <> 0 -> exists g, gl_call ge (rcx (re z)) (im z) = Ok g /\ g <> rcx 0 /\ (0 < im z -> im g <= 0 /\ im (SE z g) <= 0) /\
    (U = 0 -> SE z g = cxmul (rcx (1 - Zof beta egs fin / Zof beta egs vis)) (D z))) /\
  exists C B, 0 < B /\ forall z, B <= im z * im z -> exists g, gl_call ge (rcx (re z)) (im z) = Ok g /\
    cxn2 (cxsub (SE z g) (cxadd (cxmul (rcx (1 - Zof beta egs fin / Zof beta egs vis)) (D z))
      (rcx (Zof beta egs fin / Zof beta egs vis * (U * occupation n beta egs vis (other n s 0) / Zof beta egs vis))))) <= C / (im z * im z).
Proof.
  destruct code_ok as ((Hn1 & Hn2 & _) & HU & HJ & (HSx & HSp) & HSm & Hset).
  destruct (exact_runs big half n h fl V hf 0 None (on_site U) eigh eigsh Hn1 Hn2 H2 HU HJ HSx HSp HSm Hset HC) as (es0 & o & HB).
  destruct (code_eigen es0 o HB) as (S0 & E0 & egs & -> & IN).
  destruct (screened n (boltzmann 1000000 egs (/ 1000000000)) MM es0 S0 E0) as (es & SC & S1 & E1 & _).
  assert (CU : / 1000000000 < 1) by lra.
  pose proof (screened_pos n 1000000 egs (/ 1000000000) beta es0 es CU S0 IN SC) as ZP.
  pose proof (inst_operators big half n h fl V hf 0 None (on_site U) code_ok eigsh) as HO. pose proof (inst_solver big half n h fl V hf 0 None (on_site U) code_ok eigh eigsh HC) as HV.
  assert (HN0 : (0 < n <= 32)%nat) by lia.
  pose proof (HK _ (visits_sectors pairs_of n MM (Z.of_nat s) Hn2 HV [] es S1)) as HKv.
  destruct (vis_facts pairs_of prod n s beta egs es MM HN0 S1 E1 ZP HO HV) as (VS & VE & VN & VZ).
  destruct (solved pairs_of prod tridiag eight n s beta egs es MM _ _ _ e0 ek vk "sp" HN0 Hs (or_intror (conj eq_refl HW)) S1 E1 ZP HO HV HKv code_family (lowered_sym big half n h fl V hf 0 (on_site U) code_ok) code_star)
    as (ge & gh & EG & _ & PT & C & B & HB0 & HH).
  exists ge, (visits pairs_of n (Z.of_nat s) [] es), (finally pairs_of n (Z.of_nat s) es), egs. split; [|split; [exact VS|split; [exact VE|split; [split; assumption|split]]]].
  - unfold solve_impurity. cbv zeta. match goal with |- bind ?b _ = _ => replace b with (Ok (es0, Some egs)) by (symmetry; exact HB) end. cbn [bind snd fst]. rewrite SC. cbn [bind]. unfold gf_lanczos_of. rewrite EG. reflexivity.
  - intros z Hz. specialize (PT (rcx (re z)) (im z)). rewrite zpoint_parts in PT. exact (PT Hz).
  - exists C, B. split; [exact HB0|]. intros z Hz. specialize (HH (rcx (re z)) (im z)). cbv zeta in HH. rewrite zpoint_parts in HH. exact (HH Hz).
Qed.
Theorem code_complete es egs (b e : R) repr : repr = "cf"%string \/ repr = "sp"%string -> build_espace RRing Rleb big half eigh eigsh n h fl V hf 0 None None "sz" = Ok (es, egs) ->
  exists ge gh, gf_lanczos_of big half eigh eigsh n h fl V hf 0 None tridiag eight es b e 0 repr (Z.of_nat s) false = Ok (es, ge, gh) /\ 0 < Zof b e es /\
  (forall z, im z <> 0 -> exists g, gl_call ge (rcx (re z)) (im z) = Ok g /\ g <> rcx 0 /\ (0 < im z -> im g <= 0 /\ im (SE z g) <= 0) /\ (U = 0 -> SE z g = rcx 0)) /\
  exists C B, 0 < B /\ forall z, B <= im z * im z -> exists g, gl_call ge (rcx (re z)) (im z) = Ok g /\
    cxn2 (cxsub (SE z g) (rcx (U * occupation n b e es (other n s 0) / Zof b e es))) <= C / (im z * im z).
Proof.
  intros HR HB. destruct code_ok as ((Hn1 & Hn2 & _) & _). destruct (code_eigen es egs HB) as (S1 & E1 & e1 & _ & key & sc & IN & IV).
  assert (ZP : 0 < Zof b e es) by (apply weight_sum_pos; exists key, sc; split; [exact IN|intros Q; rewrite Q in IV; destruct IV]).
  pose proof (inst_operators big half n h fl V hf 0 None (on_site U) code_ok eigsh) as HO. pose proof (inst_solver big half n h fl V hf 0 None (on_site U) code_ok eigh eigsh HC) as HV.
  assert (HN0 : (0 < n <= 32)%nat) by lia.
  destruct (visits_settled pairs_of n (Z.of_nat s) es S1 (inst_settled big half n h fl V hf 0 None (on_site U) code_ok eigh eigsh es egs HB)) as [EV EF].
  pose proof (HK _ (visits_sectors pairs_of n MM (Z.of_nat s) Hn2 HV [] es S1)) as HKv.
  assert (HR' : repr = "cf"%string \/ repr = "sp"%string /\ GflSpec.eigh_sound eight) by tauto.
  destruct (solved pairs_of prod tridiag eight n s b e es MM _ _ _ e0 ek vk repr HN0 Hs HR' S1 E1 ZP HO HV HKv code_family (lowered_sym big half n h fl V hf 0 (on_site U) code_ok) code_star)
    as (ge & gh & EG & _ & PT & C & B & HB0 & HH).
  rewrite EV, EF in *. assert (R1 : 1 - Zof b e es / Zof b e es = 0) by (field; lra). assert (R2 : Zof b e es / Zof b e es = 1) by (field; lra).
  exists ge, gh. split; [exact EG|]. split; [exact ZP|]. split.
  - intros z Hz. specialize (PT (rcx (re z)) (im z)). rewrite zpoint_parts in PT. destruct (PT Hz) as (g & A1 & A2 & A3 & A4). exists g. split; [exact A1|]. split; [exact A2|]. split; [exact A3|].
    intros U0. rewrite (A4 U0), R1. ring.
  - exists C, B. split; [exact HB0|]. intros z Hz. specialize (HH (rcx (re z)) (im z)). cbv zeta in HH. rewrite zpoint_parts in HH. destruct (HH Hz) as (g & A1 & A2). exists g. split; [exact A1|].
    rewrite R1, R2, Rmult_1_l in A2. match type of A2 with cxn2 (cxsub _ ?y) <= _ => match goal with |- cxn2 (cxsub _ ?x) <= _ => replace x with y; [exact A2|] end end.
    change (on_site U 0 0) with U. ring.
Qed.
Theorem code_adjust : solve_impurity big half eigh eigsh tridiag eight fl hf n beta (Z.of_nat s) None true H U = Err TypeError.
Proof.
  destruct code_ok as ((Hn1 & Hn2 & _) & HU & HJ & (HSx & HSp) & HSm & Hset).
  destruct (exact_runs big half n h fl V hf 0 None (on_site U) eigh eigsh Hn1 Hn2 H2 HU HJ HSx HSp HSm Hset HC) as (es0 & o & HB).
  destruct (code_eigen es0 o HB) as (S0 & E0 & egs & -> & IN).
  destruct (screened n (boltzmann 1000000 egs (/ 1000000000)) MM es0 S0 E0) as (es & SC & _).
  unfold solve_impurity. cbv zeta. match goal with |- bind ?b _ = _ => replace b with (Ok (es0, Some egs)) by (symmetry; exact HB) end. cbn [bind snd fst]. rewrite SC. reflexivity.
Qed.
End Code.
