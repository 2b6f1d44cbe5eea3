(** Property C130: the self-consistency loop at half filling. *)
From Coq Require Import String Reals List Arith NArith ZArith Bool Lia Lra.
From Verif Require Import Base RBase RLin CBase OperatorsSpec FockSpec SectorModel LocalModel HoppingModel NonLocalModel MatvecModel MbModel MbSpec EspaceModel EspaceRealModel ProjModel ProjSpec CfModel GfModel GfSpec GmSpec ExactSpec EighProofs
  GflModel GflSpec GflExProofs AgrModel AgrInstProofs FitModel FitSpec NrModel NrSpec DmftModel DmftSpec DmftProofs SymSpec RelSpec SiamModel SiamExProofs VisExProofs ScrSpec PhsSpec PhsProofs PhsLoopProofs PhsExProofs.
Import ListNotations.
Local Open Scope R_scope.

(** An impurity coupled to pairs of levels of opposite energy, at half filling, is its own image
    under the exchange of electrons and holes. *)
Theorem C130_model big hf n H U : (2 <= n <= 32)%nat -> half_star n H (centre hf U) ->
  let P := params_of big (array_of n H) (VArray RRing (on_site U)) hf 0 None (on_site U) in related n true false (flip n) bath_site P P.
Proof. exact (star_related big hf n H U). Qed.
Print Assumptions C130_model.
(** [Gfimp.solve] with the library's own solver and screening: the function is odd, conjugate at the
    conjugate point, and imaginary on the imaginary axis. *)
Theorem C130_solve big half fl hf n H U eigh eigsh tridiag eight s beta : (2 <= n <= 32)%nat -> half_star n H (centre hf U) -> (s <= 1)%nat -> half + half = 1 -> eigh_contract eigh -> GflSpec.eigh_sound eight ->
  workable big half eigh eigsh tridiag fl hf n s H U ->
  exists ge sc egs, solve_impurity big half eigh eigsh tridiag eight fl hf n beta (Z.of_nat s) None false H U = Ok (ge, sc, egs, None) /\
  forall z, im z <> 0 -> exists g, gl_call ge (rcx (re z)) (im z) = Ok g /\ value_at ge z = g /\ value_at ge (cxopp z) = cxopp g /\ value_at ge (cxconj z) = cxconj g /\ (re z = 0 -> re g = 0).
Proof. exact (fun Hn HS => star_solved big half fl hf n H U Hn HS eigh eigsh tridiag eight s beta). Qed.
Print Assumptions C130_solve.
(** [fit_update] and [solve]: the self-energy minus U/2 (minus zero in the mean-field mode) is odd, and
    imaginary on the imaginary axis. *)
Theorem C130_impurity big half eigh eigsh tridiag eight fl hf n s beta U fitter g delta mu : (2 <= n <= 32)%nat -> (s <= 1)%nat -> half + half = 1 -> eigh_contract eigh -> GflSpec.eigh_sound eight ->
  shaped n U g -> length (fitter (imp_x g) delta) = (2 * (n - 1))%nat -> mirror_symmetric (n - 1) (fitter (imp_x g) delta) -> mu = centre hf U ->
  let g' := imp_fit_update fitter g delta mu in
  workable big half eigh eigsh tridiag fl hf n s (imp_H g') U ->
  exists g'' f, imp_solve (impurity_solver big half eigh eigsh tridiag eight fl hf n beta (Z.of_nat s) None false) g' = Ok g'' /\ imp_gf g'' = Some f /\ imp_x g'' = imp_x g' /\ imp_H g'' = imp_H g' /\ shaped n U g'' /\
  (forall z, im z <> 0 -> f (cxopp z) = cxopp (f z) /\ f (cxconj z) = cxconj (f z) /\ exists v, imp_Sigma g'' z = Ok v /\ imp_Sigma g'' (cxopp z) = Ok (cxsub (rcx (2 * centre hf U)) v)) /\
  forall w, w <> 0 -> re (f (0, w)) = 0 /\ exists v, imp_Sigma g'' (0, w) = Ok v /\ re v = centre hf U.
Proof. exact (fun Hn Hs H2 HC HW => imp_half big half eigh eigsh tridiag eight fl hf n s beta U fitter Hn Hs H2 HC HW g delta mu). Qed.
Print Assumptions C130_impurity.

(** The start: three or more sites, an initial self-energy with real part U/2 on the imaginary axis. *)
Theorem C130_start hf n U mu ed zs g l Sigma : (2 <= n <= 32)%nat -> (3 <= n)%nat -> mu - ed = centre hf U -> frequencies zs -> shaped n U g -> loc_ed l = Some ed -> balanced_lattice (loc_kind l) ed ->
  (forall w, w <> 0 -> re (Sigma (0, w)) = centre hf U) ->
  exists g' l' d, initialize zs g l U (SFun Sigma) (Some mu) = Ok (g', l', d) /\ balanced n U mu ed hf (g', l') /\ length d = length zs /\ imaginary d.
Proof. exact (fun Hn => half_start hf n U Hn mu ed zs g l Sigma). Qed.
Print Assumptions C130_start.
(** Without a potential given, the loop starts at U/2, which is half filling for a lattice centred at zero. *)
Theorem C130_default n U zs g l Sigma : (2 <= n <= 32)%nat -> (3 <= n)%nat -> frequencies zs -> shaped n U g -> loc_ed l = Some 0 -> balanced_lattice (loc_kind l) 0 ->
  (forall w, w <> 0 -> re (Sigma (0, w)) = U / 2) ->
  exists g' l' d, initialize zs g l U (SFun Sigma) None = Ok (g', l', d) /\ balanced n U (U / 2) 0 false (g', l') /\ length d = length zs /\ imaginary d.
Proof. exact (half_default n U zs g l Sigma). Qed.
Print Assumptions C130_default.
(** One iteration. *)
Theorem C130_step big half eigh eigsh tridiag eight fl hf n s beta U fitter mu ed zs g l delta : (2 <= n <= 32)%nat -> (s <= 1)%nat -> half + half = 1 -> eigh_contract eigh -> GflSpec.eigh_sound eight ->
  mu - ed = centre hf U -> frequencies zs -> keeps_pairs n (length zs) fitter ->
  balanced n U mu ed hf (g, l) -> length delta = length zs -> imaginary delta -> workable big half eigh eigsh tridiag fl hf n s (imp_H (imp_fit_update fitter g delta (mu - ed))) U ->
  exists g' l' d, step fitter (impurity_solver big half eigh eigsh tridiag eight fl hf n beta (Z.of_nat s) None false) zs (g, l) delta = Ok ((g', l'), d) /\ balanced n U mu ed hf (g', l') /\ length d = length zs /\ imaginary d /\
    (exists f, imp_gf g' = Some f /\ forall z, im z <> 0 -> f (cxopp z) = cxopp (f z) /\ f (cxconj z) = cxconj (f z)) /\
    forall z, im z <> 0 -> exists v, imp_Sigma g' z = Ok v /\ imp_Sigma g' (cxopp z) = Ok (cxsub (rcx (2 * centre hf U)) v).
Proof. exact (fun Hn Hs H2 HC HW HM FZ KP => half_step big half eigh eigsh tridiag eight fl hf n s beta U fitter Hn Hs H2 HC HW mu ed zs HM FZ KP g l delta). Qed.
Print Assumptions C130_step.
(** The loop, for any number of iterations and any mixing that chooses imaginary trials from imaginary
    histories: every trial is imaginary, the bath keeps its pairs, the self-energy keeps its real part,
    and the loop ends by itself, by convergence or by the limit of iterations. *)
Theorem C130_loop big half eigh eigsh tridiag eight fl hf n s beta U fitter mu ed zs dist tol max_iter mix fuel gl it gl' it' ev r :
  (2 <= n <= 32)%nat -> (s <= 1)%nat -> half + half = 1 -> eigh_contract eigh -> GflSpec.eigh_sound eight -> mu - ed = centre hf U -> frequencies zs -> keeps_pairs n (length zs) fitter ->
  (forall g l delta, balanced n U mu ed hf (g, l) -> length delta = length zs -> imaginary delta -> workable big half eigh eigsh tridiag fl hf n s (imp_H (imp_fit_update fitter g delta (mu - ed))) U) ->
  (forall hist d, (forall a b, In (a, b) hist -> (length a = length zs /\ imaginary a) /\ length b = length zs /\ imaginary b) -> mix hist = Some d -> length d = length zs /\ imaginary d) ->
  balanced n U mu ed hf gl ->
  drive _ _ (step fitter (impurity_solver big half eigh eigsh tridiag eight fl hf n beta (Z.of_nat s) None false) zs) dist tol max_iter mix fuel [] (gl, it) = ((gl', it'), ev, r) ->
  balanced n U mu ed hf gl' /\ (forall d, In d ev -> length d = length zs /\ imaginary d) /\ (r = Ok tt \/ r = Err ConvergedExc \/ r = Err FailedToConvergeExc \/ r = Err OutOfFuel).
Proof.
  exact (fun Hn Hs H2 HC HW HM FZ KP WK HX => half_loop big half eigh eigsh tridiag eight fl hf n s beta U fitter Hn Hs H2 HC HW mu ed zs HM FZ KP WK dist tol max_iter mix fuel HX gl it [] gl' it' ev r (fun a b (F : In (a, b) []) => match F with end)).
Qed.
Print Assumptions C130_loop.

(** Lattices of this kind: the Bethe lattice, and a mirror-symmetric discrete hybridisation. *)
Theorem C130_bethe csqrt : (forall w, cxmul (csqrt w) (csqrt w) = w) -> (forall w, 0 <= re (csqrt w)) -> balanced_lattice (LHilbert (ht csqrt)) 0.
Proof. exact (bethe_balanced csqrt). Qed.
Print Assumptions C130_bethe.
Theorem C130_hybrid m x ed : length x = (2 * m)%nat -> mirror_symmetric m x -> balanced_lattice (LHybrid (delta1 x)) ed.
Proof. exact (hybrid_balanced m x ed). Qed.
Print Assumptions C130_hybrid.
(** Fits of this kind: any that commutes with the reflection of the bath and of the data; the
    library's own optimiser (C120). *)
Theorem C130_fitter n nm fitter : (forall x d, length x = (2 * (n - 1))%nat -> length d = nm -> length (fitter x d) = (2 * (n - 1))%nat) ->
  (forall x d, length x = (2 * (n - 1))%nat -> length d = nm ->
    fitter (relabel (n - 1) (-1) (fun k => n - 1 - 1 - k)%nat (fun _ => 1) x) (map (reflect (-1)) d) = relabel (n - 1) (-1) (fun k => n - 1 - 1 - k)%nat (fun _ => 1) (fitter x d)) ->
  keeps_pairs n nm fitter.
Proof. exact (commuting_keeps n nm fitter). Qed.
Print Assumptions C130_fitter.
Theorem C130_c_fit fuel d0 n nm beta mem : length mem = nm -> (forall row, In row mem -> length row = (2 * (n - 1))%nat) ->
  keeps_pairs n nm (fun x d => match c_fit fuel d0 (n - 1) nm d beta mem x with Ok (x', _, _) => x' | Err _ => x end).
Proof. exact (c_fit_keeps fuel d0 n nm beta mem). Qed.
Print Assumptions C130_c_fit.
(** Mixing of this kind: linear, with a real factor. *)
Theorem C130_mixing a k old new : length old = k -> length new = k -> imaginary old -> imaginary new -> length (blend a old new) = k /\ imaginary (blend a old new).
Proof. exact (blend_keeps a k old new). Qed.
Print Assumptions C130_mixing.
(** Refuted: that the loop starts symmetric for every number of levels.  The one level of a model with
    two sites starts at +2; its hybridisation has a negative real part everywhere on the axis. *)
Theorem C130_one_refuted U mem g w : length mem = 2%nat -> imp_init 2 U mem = Ok g -> re (delta1 (imp_x g) (0, w)) < 0.
Proof. exact (one_level U mem g w). Qed.
Print Assumptions C130_one_refuted.

(** The Bethe lattice with U = 4, started from the Hartree value, four Matsubara frequencies, linear
    mixing with 1/5 and at most three evaluations; the fit returns two levels -1 and 1 that have lost their coupling. *)
Definition ex_fit (x : list R) (d : list cx) : list R := if (length x =? 4)%nat then [-1; 1; 0; 0] else x.
Local Notation ex_solver := (impurity_solver (fun _ => true) (/ 2) real_eigh (fun _ _ _ => Err ValueError) (fun _ _ => Err ValueError) real_eight tri_fl false 3 10 (Z.of_nat 0) None false).
Definition ex_mix (d0 : list cx) (hist : list (list cx * list cx)) : option (list cx) := match hist with [] => Some d0 | (o, w) :: _ => Some (blend (1 / 5) o w) end.
Lemma ex_keeps nm : keeps_pairs 3 nm ex_fit.
Proof.
  intros x d LX _. unfold ex_fit. cbn [Nat.mul Nat.sub Nat.add] in LX. rewrite LX. cbn [Nat.eqb Nat.mul Nat.sub Nat.add]. split; [reflexivity|]. intros _ _ k Hk. destruct k as [|[|]]; [| |lia]; cbn; split; lra.
Qed.
Example C130_ex : exists g0 g l d, imp_init 3 4 [0; 0; 0; 0] = Ok g0 /\
  initialize (matsubara 4 10) g0 (mkLoc (LHilbert (ht csqrt_std)) None None (Some 0)) 4 (SFun (fun _ => rcx 2)) (Some 2) = Ok (g, l, d) /\ imaginary d /\
  forall dist tol, exists g' l' it ev r, drive _ _ (step ex_fit ex_solver (matsubara 4 10)) dist tol 2 (ex_mix d) 3 [] ((g, l), 0%nat) = (((g', l'), it), ev, r) /\
  (forall t, In t ev -> imaginary t) /\ forall w, w <> 0 -> exists sg v, loc_Sigma l' = Some sg /\ eval_Sigma g' sg (0, w) = Ok v /\ re v = 2.
Proof.
  assert (I0 : exists g0, imp_init 3 4 [0; 0; 0; 0] = Ok g0) by (eexists; reflexivity). destruct I0 as (g0 & E0). exists g0.
  assert (FZ : frequencies (matsubara 4 10)) by (apply matsubara_points; lra). assert (HM : 2 - 0 = centre false 4) by (unfold centre; lra).
  destruct (C130_start false 3 4 2 0 (matsubara 4 10) g0 (mkLoc (LHilbert (ht csqrt_std)) None None (Some 0)) (fun _ => rcx 2) ltac:(lia) ltac:(lia) HM FZ) as (g & l & d & EI & B & LD & ID).
  - apply (shaped_init 3 4 [0; 0; 0; 0]); [lia|reflexivity|exact E0].
  - reflexivity.
  - apply C130_bethe; intros w; apply csqrt_std_ok.
  - intros w _. unfold centre. cbn. lra.
  - exists g, l, d. split; [exact E0|]. split; [exact EI|]. split; [exact ID|]. intros dist tol. destruct (drive _ _ _ _ _ _ _ _ _ _) as [[[[g' l'] it] ev] r] eqn:E. exists g', l', it, ev, r. split; [reflexivity|].
    destruct (C130_loop (fun _ => true) (/ 2) real_eigh (fun _ _ _ => Err ValueError) (fun _ _ => Err ValueError) real_eight tri_fl false 3 0 10 4 ex_fit 2 0 (matsubara 4 10) dist tol 2 (ex_mix d) 3 (g, l) 0 (g', l') it ev r
      ltac:(lia) ltac:(lia) ltac:(lra) real_eigh_contract real_eight_sound HM FZ (ex_keeps _)) as (B' & V' & _).
    + intros g1 l1 d1 ((EN & EU & LH & LX & AR & MX) & _) _ _. replace (imp_H (imp_fit_update ex_fit g1 d1 (2 - 0))) with tri_H; [apply tri_workable|].
      assert (LE : length (imp_H (imp_fit_update ex_fit g1 d1 (2 - 0))) = 9%nat) by (unfold imp_fit_update, imp_update; cbn [imp_H set_H]; rewrite upd_tot_length, fit_H_length; exact LH).
      assert (LF : length (ex_fit (imp_x g1) d1) = (2 * (imp_n g1 - 1))%nat) by (unfold ex_fit; rewrite LX, EN; reflexivity).
      pose proof (fit_entries ex_fit g1 d1 (2 - 0) ltac:(lia) ltac:(rewrite EN; exact LH) LF) as FE. rewrite EN in FE.
      assert (EX : ex_fit (imp_x g1) d1 = [-1; 1; 0; 0]) by (unfold ex_fit; rewrite LX; reflexivity). rewrite EX in FE.
      assert (Q : forall i j, (i < 3)%nat -> (j < 3)%nat -> ent 3 tri_H i j = ent 3 (imp_H (imp_fit_update ex_fit g1 d1 (2 - 0))) i j).
      { intros i j Hi Hj. rewrite FE by assumption. destruct i as [|[|[|]]], j as [|[|[|]]]; try lia; cbn [Nat.eqb]; try reflexivity; try (unfold ent; cbn; lra); rewrite AR by lia; reflexivity. }
      apply (list_ext _ _ 0); [rewrite LE; reflexivity|]. cbn [length tri_H]. intros k Hk.
      pose proof (Q (k / 3)%nat (k mod 3)%nat) as QK. unfold ent in QK. replace (k / 3 * 3 + k mod 3)%nat with k in QK by (rewrite Nat.mul_comm; apply Nat.div_mod; lia). apply QK; [apply Nat.div_lt_upper_bound; lia|apply Nat.mod_upper_bound; lia].
    + intros hist t HH. unfold ex_mix. destruct hist as [|[o w] hist]; [intros [= <-]; auto|]. intros [= <-]. destruct (HH o w (or_introl eq_refl)) as [[A1 A2] [A3 A4]]. now apply C130_mixing.
    + exact B.
    + exact E.
    + split; [intros t I; exact (proj2 (V' t I))|]. destruct B' as (_ & _ & _ & _ & sg & ES & SV). intros w Hw. destruct (SV w Hw) as (v & EV & RV). exists sg, v. split; [exact ES|]. split; [exact EV|]. rewrite RV. unfold centre. lra.
Qed.
