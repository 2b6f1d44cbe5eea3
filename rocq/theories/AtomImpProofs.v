(** The impurity object with no bath level coupled. *)
From Coq Require Import String Reals List Arith NArith ZArith Bool Lia Lra Psatz Ring Field.
From Verif Require Import Base RBase RLin CBase SectorModel LocalModel HoppingModel NonLocalModel MatvecModel MbModel MbSpec EspaceModel EspaceRealModel
  ProjModel ProjSpec CfModel CfSpec GfModel GfSpec FockSpec GmSpec ExactSpec ExactProofs ExactMoreProofs GflModel GflSpec AgrModel AgrInstProofs VisSpec VisProofs VisMainProofs FitModel FitSpec DmftModel DmftSpec DmftProofs
  SiamSpec SiamMainProofs SiamLinkProofs SiamCutProofs SiamModel SiamInstProofs SiamImpProofs AtomSpec AtomProofs AtomInstProofs.
Import ListNotations.
Local Open Scope R_scope.
Add Field cxf_atomimp : cx_field.

Section Solve.
Variables (big : R -> bool) (half : R).
Variable eigh : dense RRing -> res (list R * list (list R)).
Variable eigsh : nat -> Z -> (list R -> res (list R)) -> res (list R * list (list R)).
Variable tridiag : (list R -> res (list R)) -> list R -> res (list R * list R).
Variable eight : list R -> list R -> res (list R * list (list R)).
Variables (fl : hflags) (hf : bool) (n s : nat) (beta : R) (H : list R) (U : R).
Hypothesis Hn : (1 < n <= 32)%nat.
Hypothesis Hs : (s <= 1)%nat.
Hypothesis H2 : half + half = 1.
Hypothesis Hfl : settable RRing (array_of n H) fl = true.
Hypothesis HSY : symmetric n H.
Hypothesis HI : forall k, (0 < k < n)%nat -> ent n H 0 k = 0.
Hypothesis HC : eigh_contract eigh.
Hypothesis HW : GflSpec.eigh_sound eight.
Notation h := (array_of n H).
Notation V := (VArray RRing (on_site U)).
Notation prod := (product_of big half n h fl V hf 0 None).
Hypothesis HK : forall es, sectors n es -> krylov n prod tridiag (Z.of_nat s) es (fun op p' q' t i a => exc n op (Z.of_nat s) 0 p' q' t i a) 11.
Notation MM := (Msec big half n h V hf 0 None (on_site U)).
Notation pairs_of := (all_pairs big half eigh eigsh n h fl V hf 0 None).
Notation e0 := (ent n H 0 0 - (if hf then half * U else 0)).

Lemma arrow_isolated : isolated n s (lowered big half h hf 0 (on_site U)) e0.
Proof.
  split.
  - unfold lowered, one_body. cbn [Nat.eqb andb on_site hspin array_of]. unfold ent. destruct hf; ring.
  - intros r l Hr Hl. unfold lowered, one_body. cbn [hspin array_of]. change (nth (l * n + 0) H 0) with (ent n H l 0). rewrite (HSY l 0%nat) by lia. rewrite HI by lia.
    destruct (Nat.eqb_spec l 0) as [|_]; [lia|]. destruct (big 0), hf; ring.
Qed.
Theorem atom_code : exists ge vis fin egs, solve_impurity big half eigh eigsh tridiag eight fl hf n beta (Z.of_nat s) None false H U = Ok (ge, fin, egs, None) /\
  sectors n vis /\ eigenstates n MM vis /\ 0 < Zof beta egs vis <= Zof beta egs fin /\
  forall z, im z <> 0 -> gl_call ge (rcx (re z)) (im z) = Ok (cxdiv (two_poles e0 U (Zof beta egs vis - occupation n beta egs vis (other n s 0)) (occupation n beta egs vis (other n s 0)) z) (rcx (Zof beta egs fin))).
Proof.
  pose proof (code_ok half fl n H U Hn H2 Hfl HSY) as MO. pose proof MO as ((Hn1 & Hn2 & _) & HU & HJ & (HSx & HSp) & HSm & Hset).
  destruct (exact_runs big half n h fl V hf 0 None (on_site U) eigh eigsh Hn1 Hn2 H2 HU HJ HSx HSp HSm Hset HC) as (es0 & o & HB).
  destruct (code_eigen big half eigh eigsh fl hf n H U Hn H2 Hfl HSY HC es0 o HB) as (S0 & E0 & egs & -> & IN).
  destruct (screened n (boltzmann 1000000 egs (/ 1000000000)) MM es0 S0 E0) as (es & SC & S1 & E1 & _).
  assert (CU : / 1000000000 < 1) by lra.
  pose proof (screened_pos n 1000000 egs (/ 1000000000) beta es0 es CU S0 IN SC) as ZP.
  pose proof (inst_operators big half n h fl V hf 0 None (on_site U) MO eigsh) as HO. pose proof (inst_solver big half n h fl V hf 0 None (on_site U) MO eigh eigsh HC) as HV.
  assert (HN0 : (0 < n <= 32)%nat) by lia.
  pose proof (HK _ (visits_sectors pairs_of n MM (Z.of_nat s) Hn2 HV [] es S1)) as HKv.
  destruct (vis_facts pairs_of prod n s beta egs es MM HN0 S1 E1 ZP HO HV) as (VS & VE & VN & VZ).
  destruct (atom_solved pairs_of prod tridiag eight n s beta egs es MM _ _ _ e0 "sp" HN0 Hs (or_intror (conj eq_refl HW)) S1 E1 HO HV HKv (code_family big half fl hf n H U Hn H2 Hfl HSY)
    (lowered_sym big half n h fl V hf 0 (on_site U) MO) arrow_isolated) as (ge & gh & EG & _ & PT).
  exists ge, (visits pairs_of n (Z.of_nat s) [] es), (finally pairs_of n (Z.of_nat s) es), egs. split; [|split; [exact VS|split; [exact VE|split; [split; assumption|]]]].
  - unfold solve_impurity. cbv zeta. match goal with |- bind ?b _ = _ => replace b with (Ok (es0, Some egs)) by (symmetry; exact HB) end. cbn [bind snd fst]. rewrite SC. cbn [bind]. unfold gf_lanczos_of. rewrite EG. reflexivity.
  - intros z Hz. specialize (PT (rcx (re z)) (im z)). rewrite zpoint_parts in PT. exact (PT Hz).
Qed.
End Solve.

Section Imp.
Variables (big : R -> bool) (half : R).
Variable eigh : dense RRing -> res (list R * list (list R)).
Variable eigsh : nat -> Z -> (list R -> res (list R)) -> res (list R * list (list R)).
Variable tridiag : (list R -> res (list R)) -> list R -> res (list R * list R).
Variable eight : list R -> list R -> res (list R * list (list R)).
Variables (fl : hflags) (hf : bool) (n s : nat) (beta : R) (fitter : list R -> list cx -> list R).
Hypothesis Hn : (2 <= n <= 32)%nat.
Hypothesis Hs : (s <= 1)%nat.
Hypothesis Hh2 : half + half = 1.
Hypothesis HC : eigh_contract eigh.
Hypothesis HW : GflSpec.eigh_sound eight.
Hypothesis HF : forall p d, length (fitter p d) = length p.
Notation solver := (impurity_solver big half eigh eigsh tridiag eight fl hf n beta (Z.of_nat s) None false).
Variables (U0 : R) (mem : list R) (g0 g : gfimp) (ops : list imp_op) (delta : list cx) (mu : R).
Hypothesis HL : length mem = (2 * (n - 1))%nat.
Hypothesis HI : imp_init n U0 mem = Ok g0.
Hypothesis HO : foldM (imp_do fitter solver) ops g0 = Ok g.
Notation g' := (imp_fit_update fitter g delta mu).
Notation H := (imp_H g').
Notation U := (imp_U g').
Hypothesis Hfl : settable RRing (array_of n H) fl = true.
Hypothesis HZ : forall k, (k < n - 1)%nat -> nth (n - 1 + k) (imp_x g') 0 = 0.
Hypothesis HK : forall es, sectors n es -> krylov n (product_of big half n (array_of n H) fl (VArray RRing (on_site U)) hf 0 None) tridiag (Z.of_nat s) es (fun op p' q' t i a => exc n op (Z.of_nat s) 0 p' q' t i a) 11.
Notation w := (if hf then half * U else 0).

Theorem imp_atom : exists g'' f vis fin egs, imp_solve solver g' = Ok g'' /\ imp_gf g'' = Some f /\
  sectors n vis /\ eigenstates n (Msec big half n (array_of n H) (VArray RRing (on_site U)) hf 0 None (on_site U)) vis /\ 0 < Zof beta egs vis <= Zof beta egs fin /\
  let r := Zof beta egs fin / Zof beta egs vis in let m := occupation n beta egs vis (other n s 0) / Zof beta egs vis in let e := ent n H 0 0 - w in
  forall z, im z <> 0 -> f z = cxdiv (two_poles e U (1 - m) m z) (rcx r) /\ f z <> rcx 0 /\
    imp_Sigma g'' z = Ok (cxadd (cxmul (rcx (1 - r)) (cxsub z (rcx e))) (cxsub (cxmul (rcx r) (atom_sigma e U m z)) (rcx w))).
Proof.
  destruct (impurity_hamiltonian fitter solver HF n U0 mem g0 g ops delta mu ltac:(lia) HL HI HO) as (LH & SY & AR & E00 & EX & FI).
  assert (BG : forall k, (0 < k < n)%nat -> ent n H 0 k = 0).
  { intros k Hk. destruct k as [|k]; [lia|]. rewrite (proj1 (EX k ltac:(lia))). apply HZ. lia. }
  destruct (atom_code big half eigh eigsh tridiag eight fl hf n s beta H U ltac:(lia) Hs Hh2 Hfl SY BG HC HW HK) as (ge & vis & fin & egs & ES & VS & VE & VZ & PT).
  exists (set_gf g' (value_at ge)), (value_at ge), vis, fin, egs. split; [|split; [reflexivity|split; [exact VS|split; [exact VE|split; [exact VZ|]]]]].
  { unfold imp_solve, impurity_solver. rewrite ES. reflexivity. }
  cbv zeta. set (Z' := Zof beta egs fin) in *. set (N := Zof beta egs vis) in *. set (O := occupation n beta egs vis (other n s 0)) in *. set (e := ent n H 0 0 - w) in *. intros z Hz.
  assert (FREE : imp_free_inv (set_gf g' (value_at ge)) z = cxsub (cxsub z (rcx e)) (rcx w)).
  { change (imp_free_inv (set_gf g' (value_at ge)) z) with (imp_free_inv g' z). destruct (FI z) as [-> _].
    - intros k _ Q. apply Hz. rewrite Q. reflexivity.
    - assert (HY : hyb (n - 1) (fun k => nth k (imp_x g') 0) (fun k => nth (n - 1 + k) (imp_x g') 0) z = rcx 0).
      { unfold hyb. rewrite (csum_ext (n - 1) _ (fun _ => rcx 0)); [unfold csum; exact (nsum_0 CxRing (n - 1) _ (fun _ _ => eq_refl))|]. intros k Hk. cbv beta. rewrite (HZ k Hk). rewrite Rmult_0_l. field.
        intros Q. apply (f_equal im) in Q. cbn in Q. apply Hz. lra. }
      rewrite HY. unfold e. rewrite E00. destruct z as [a b]. unfold rcx, cxsub, cxadd, re, im. cbn. f_equal; ring. }
  destruct VZ as [VN VZ]. assert (NC : rcx N <> rcx 0) by (intros Q; injection Q; lra). assert (ZC : rcx Z' <> rcx 0) by (intros Q; injection Q; lra).
  assert (OFF : forall c, cxsub z (rcx c) <> rcx 0) by (intros c Q; apply (f_equal im) in Q; cbn in Q; apply Hz; lra).
  destruct (atom_dyson e U (O / N) z Hz) as [T0 DY]. pose proof (value_ok ge z _ (PT z Hz)) as VAL.
  assert (TP : two_poles e U (N - O) O z = cxmul (rcx N) (two_poles e U (1 - O / N) (O / N) z)).
  { unfold two_poles. assert (Q1 : rcx (N - O) = cxmul (rcx N) (rcx (1 - O / N))) by (apply cx_eq; cbn; [field; lra|ring]). assert (Q2 : rcx O = cxmul (rcx N) (rcx (O / N))) by (apply cx_eq; cbn; [field; lra|ring]).
    rewrite Q1. rewrite Q2. unfold cxdiv. ring. }
  rewrite TP in VAL. set (T := two_poles e U (1 - O / N) (O / N) z) in *.
  assert (RR : rcx (Z' / N) = cxdiv (rcx Z') (rcx N)) by (apply rcx_quot; lra).
  assert (FV : value_at ge z = cxdiv T (rcx (Z' / N))) by (rewrite VAL, RR; field; split; assumption).
  assert (F0 : value_at ge z <> rcx 0).
  { rewrite VAL. intros Q. apply T0. transitivity (cxmul (cxmul (cxinv (rcx N)) (rcx Z')) (cxdiv (cxmul (rcx N) T) (rcx Z'))); [field; split; assumption|]. rewrite Q. ring. }
  split; [exact FV|]. split; [exact F0|].
  unfold imp_Sigma. cbn [imp_gf set_gf]. rewrite FREE, VAL. f_equal. rewrite <- DY.
  assert (Q1 : rcx (1 - Z' / N) = cxsub (rcx 1) (cxdiv (rcx Z') (rcx N))) by (rewrite <- RR; apply cx_eq; cbn; ring). rewrite Q1, RR.
  set (x := cxsub z (rcx e)) in *. set (wc := rcx w). clearbody x wc T. field. repeat split; assumption.
Qed.
End Imp.
