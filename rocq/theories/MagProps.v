(** Property C131: impurities with one Hamiltonian per spin, and the loop started in a field. *)
From Coq Require Import String Reals List Arith NArith ZArith Bool Lia Lra.
From Verif Require Import Base RBase RLin CBase SectorModel LocalModel HoppingModel NonLocalModel MatvecModel MbModel MbSpec EspaceModel EspaceRealModel ProjModel CfModel GfModel GfSpec ExactSpec EighProofs
  GflModel GflSpec GflExProofs AgrModel AgrInstProofs FitModel FitSpec DmftModel DmftSpec DmftProofs SiamModel SiamExProofs VisExProofs ScrSpec PhsSpec PhsProofs PhsLoopProofs PhsExProofs MagModel MagSpec MagProofs MagLoopProofs MagStartProofs MagExProofs MagBadProofs.
Import ListNotations.
Local Open Scope R_scope.

(** [SpinGfimp.solve]: each function is the average over the states of the two-layer model left by screening. *)
Theorem C131_solve big half fl hf n U eigh eigsh tridiag eight beta Hu Hd : (2 <= n <= 32)%nat -> half + half = 1 -> eigh_contract eigh -> GflSpec.eigh_sound eight ->
  symmetric n Hu -> symmetric n Hd -> workable2 big half eigh eigsh tridiag fl hf n Hu Hd U ->
  exists es e sc F gu gd, build_espace RRing Rleb big half eigh eigsh n (layers n Hu Hd) fl (VArray RRing (on_site U)) hf 0 None None "sz" = Ok (es, Some e) /\ lists_family n es F /\
  solve_spins big half eigh eigsh tridiag eight fl hf n beta None false Hu Hd U = Ok ((gu, gd), sc, e, None) /\
  forall z, im z <> 0 -> let W := cut_weight (boltzmann 1000000 e (/ 1000000000)) beta e in
    gl_call gu (rcx (re z)) (im z) = Ok (cxdiv (lehmann_w n 0 0 0 W F z) (rcx (Zsum_w n W F))) /\
    gl_call gd (rcx (re z)) (im z) = Ok (cxdiv (lehmann_w n 1 0 0 W F z) (rcx (Zsum_w n W F))).
Proof. exact (fun Hn H2 HC HW => spins_solved big half fl hf n U Hn H2 eigh eigsh tridiag eight beta HC HW Hu Hd). Qed.
Print Assumptions C131_solve.
(** Exchanging the layers exchanges the functions and keeps the energy. *)
Theorem C131_exchange big half fl hf n U eigh eigsh tridiag eight beta Hu Hd : (2 <= n <= 32)%nat -> half + half = 1 -> eigh_contract eigh -> GflSpec.eigh_sound eight ->
  symmetric n Hu -> symmetric n Hd -> workable2 big half eigh eigsh tridiag fl hf n Hu Hd U -> workable2 big half eigh eigsh tridiag fl hf n Hd Hu U ->
  exists gu gd sc e gu' gd' sc' e', solve_spins big half eigh eigsh tridiag eight fl hf n beta None false Hu Hd U = Ok ((gu, gd), sc, e, None) /\
  solve_spins big half eigh eigsh tridiag eight fl hf n beta None false Hd Hu U = Ok ((gu', gd'), sc', e', None) /\ e' = e /\
  forall z, im z <> 0 -> value_at gd' z = value_at gu z /\ value_at gu' z = value_at gd z.
Proof. exact (fun Hn H2 HC HW => spins_exchange big half fl hf n U Hn H2 eigh eigsh tridiag eight beta HC HW Hu Hd). Qed.
Print Assumptions C131_exchange.
(** With equal layers both functions are the one that [Gfimp.solve] finds, for either of its spins. *)
Theorem C131_equal big half fl hf n U eigh eigsh tridiag eight beta H s : (2 <= n <= 32)%nat -> half + half = 1 -> eigh_contract eigh -> GflSpec.eigh_sound eight ->
  (s <= 1)%nat -> symmetric n H -> workable2 big half eigh eigsh tridiag fl hf n H H U -> workable big half eigh eigsh tridiag fl hf n s H U ->
  exists gu gd sc e g sc' e', solve_spins big half eigh eigsh tridiag eight fl hf n beta None false H H U = Ok ((gu, gd), sc, e, None) /\
  solve_impurity big half eigh eigsh tridiag eight fl hf n beta (Z.of_nat s) None false H U = Ok (g, sc', e', None) /\
  forall z, im z <> 0 -> value_at gu z = value_at g z /\ value_at gd z = value_at g z.
Proof. exact (fun Hn H2 HC HW => spins_equal big half fl hf n U Hn H2 eigh eigsh tridiag eight beta HC HW H s). Qed.
Print Assumptions C131_equal.
(** Refuted: that equal layers always give equal functions.  An impurity at 0 and a level at 1, neither
    interacting nor coupled: the down function is 1/z, the up function only a part of it. *)
Theorem C131_equal_refuted eigh eigsh tridiag eight beta : eigh_contract eigh -> GflSpec.eigh_sound eight ->
  exists gu gd fin c, solve_spins (fun _ => true) (/ 2) eigh eigsh tridiag eight (mkflags true true true) false 2 beta None false [0; 0; 0; 1] [0; 0; 0; 1] 0 = Ok ((gu, gd), fin, 0, None) /\ 0 < c < 1 /\
  forall z, im z <> 0 -> value_at gu z = cxmul (rcx c) (cxinv z) /\ value_at gd z = cxinv z.
Proof. exact (lone_differ eigh eigsh tridiag eight beta). Qed.
Print Assumptions C131_equal_refuted.

(** [initialize]: both spins start from the same bath and from the hybridisation of the plain impurity. *)
Theorem C131_start n U zs u d l Sigma mu0 ed : (2 <= n <= 32)%nat -> shaped n U u -> shaped n U d -> loc_ed l = Some ed ->
  exists u0 d0 l0 dl, spin_initialize zs (u, d) l U Sigma mu0 = Ok ((u0, d0), l0, dl) /\ shaped n U u0 /\ shaped n U d0 /\ imp_x d0 = imp_x u0 /\
    loc_mu l0 = Some (match mu0 with None => U / 2 | Some mu => mu end) /\ loc_ed l0 = Some ed /\ length dl = length zs /\ initialize zs u l U (SFun Sigma) mu0 = Ok (u0, l0, dl).
Proof. exact (fun Hn => start_ok n U Hn zs u d l Sigma mu0 ed). Qed.
Print Assumptions C131_start.
(** [initialize_magnetic] with opposite signs of the field: states with the spins exchanged, and the two
    rows of the hybridisation exchanged. *)
Theorem C131_fields n U big half eigh eigsh tridiag eight fl hf beta fitter zs u d l Sigma sign field mu0 ed u0 d0 l0 dl :
  (2 <= n <= 32)%nat -> half + half = 1 -> eigh_contract eigh -> GflSpec.eigh_sound eight -> off_axis zs -> shaped n U u -> shaped n U d -> loc_ed l = Some ed ->
  spin_initialize zs (u, d) l U Sigma mu0 = Ok ((u0, d0), l0, dl) -> fitted n fitter u0 dl ->
  let mu := match mu0 with None => U / 2 | Some mu => mu end in
  let Hu := trial_H fitter (mu + sign * field - ed) u0 dl in let Hd := trial_H fitter (mu - sign * field - ed) u0 dl in
  workable2 big half eigh eigsh tridiag fl hf n Hu Hd U -> workable2 big half eigh eigsh tridiag fl hf n Hd Hu U ->
  exists a b new, initialize_magnetic fitter (spin_solver big half eigh eigsh tridiag eight fl hf n beta None false) zs (u, d) l U Sigma sign field mu0 = Ok (fst a, snd a, new) /\
    initialize_magnetic fitter (spin_solver big half eigh eigsh tridiag eight fl hf n beta None false) zs (u, d) l U Sigma (- sign) field mu0 = Ok (fst b, snd b, swap new) /\
    mirrored n U mu ed a b /\ imp_x (fst (fst a)) = imp_x (snd (fst a)).
Proof. exact (fun Hn H2 HC HW OA => opposite_fields n U Hn big half eigh eigsh tridiag eight fl hf beta fitter H2 HC HW zs OA u d l Sigma sign field mu0 ed u0 d0 l0 dl). Qed.
Print Assumptions C131_fields.
(** One iteration from states with the spins exchanged. *)
Theorem C131_step big half eigh eigsh tridiag eight fl hf n beta U fitter zs mu ed a b delta : (2 <= n <= 32)%nat -> half + half = 1 -> eigh_contract eigh -> GflSpec.eigh_sound eight -> off_axis zs ->
  mirrored n U mu ed a b -> both_workable big half eigh eigsh tridiag fl hf n U fitter mu ed a delta ->
  exists a' b' new, spin_step fitter (spin_solver big half eigh eigsh tridiag eight fl hf n beta None false) zs a delta = Ok (a', new) /\
    spin_step fitter (spin_solver big half eigh eigsh tridiag eight fl hf n beta None false) zs b (swap delta) = Ok (b', swap new) /\ mirrored n U mu ed a' b'.
Proof. exact (fun Hn H2 HC HW OA => exchange_step big half eigh eigsh tridiag eight fl hf n beta U fitter Hn H2 HC HW zs mu ed OA a b delta). Qed.
Print Assumptions C131_step.
(** The loop: when distance and mixing treat the two rows alike, the runs stay images of each other at
    every trial, and end at the same iteration for the same reason. *)
Theorem C131_loop big half eigh eigsh tridiag eight fl hf n beta U fitter zs mu ed dist dist' tol max_iter mix mix' fuel a b it :
  (2 <= n <= 32)%nat -> half + half = 1 -> eigh_contract eigh -> GflSpec.eigh_sound eight -> off_axis zs ->
  (forall x y, dist' (swap x) (swap y) = dist x y) -> (forall hist, mix' (map (fun q : both * both => (swap (fst q), swap (snd q))) hist) = option_map swap (mix hist)) ->
  let dstep := spin_step fitter (spin_solver big half eigh eigsh tridiag eight fl hf n beta None false) zs in
  mirrored n U mu ed a b -> along dstep dist tol max_iter mix (both_workable big half eigh eigsh tridiag fl hf n U fitter mu ed) fuel [] (a, it) ->
  exists a' b' it' ev r, drive _ _ dstep dist tol max_iter mix fuel [] (a, it) = ((a', it'), ev, r) /\
    drive _ _ dstep dist' tol max_iter mix' fuel [] (b, it) = ((b', it'), map swap ev, r) /\ mirrored n U mu ed a' b'.
Proof. exact (fun Hn H2 HC HW OA => exchange_loop big half eigh eigsh tridiag eight fl hf n beta U fitter Hn H2 HC HW zs mu ed OA dist dist' tol max_iter mix mix' fuel a b it). Qed.
Print Assumptions C131_loop.

(** No field: [initialize_magnetic] is [initialize] and one iteration of the plain impurity, twice. *)
Theorem C131_no_field n U big half eigh eigsh tridiag eight fl hf beta fitter zs s g g' l Sigma sign mu0 ed g0 l0 dl :
  (2 <= n <= 32)%nat -> half + half = 1 -> eigh_contract eigh -> GflSpec.eigh_sound eight -> off_axis zs -> (s <= 1)%nat -> shaped n U g -> twin g g' -> loc_ed l = Some ed ->
  initialize zs g l U (SFun Sigma) mu0 = Ok (g0, l0, dl) ->
  let mu := match mu0 with None => U / 2 | Some mu => mu end in
  one_workable big half eigh eigsh tridiag fl hf n U fitter mu ed s (g0, l0) dl ->
  exists a b new, step fitter (impurity_solver big half eigh eigsh tridiag eight fl hf n beta (Z.of_nat s) None false) zs (g0, l0) dl = Ok (a, new) /\
    initialize_magnetic fitter (spin_solver big half eigh eigsh tridiag eight fl hf n beta None false) zs (g, g') l U Sigma sign 0 mu0 = Ok (fst b, snd b, twice new) /\ doubled n U mu ed a b.
Proof. exact (fun Hn H2 HC HW OA => no_field n U Hn big half eigh eigsh tridiag eight fl hf beta fitter H2 HC HW zs OA s g g' l Sigma sign mu0 ed g0 l0 dl). Qed.
Print Assumptions C131_no_field.
(** The loop of the pair is then the loop of one impurity. *)
Theorem C131_double big half eigh eigsh tridiag eight fl hf n beta U fitter zs mu ed s dist dist' tol max_iter mix mix' fuel a b it :
  (2 <= n <= 32)%nat -> half + half = 1 -> eigh_contract eigh -> GflSpec.eigh_sound eight -> off_axis zs -> (s <= 1)%nat ->
  (forall x y, dist' (twice x) (twice y) = dist x y) -> (forall hist, mix' (map (fun q : list cx * list cx => (twice (fst q), twice (snd q))) hist) = option_map twice (mix hist)) ->
  let dstep := step fitter (impurity_solver big half eigh eigsh tridiag eight fl hf n beta (Z.of_nat s) None false) zs in
  doubled n U mu ed a b -> along dstep dist tol max_iter mix (one_workable big half eigh eigsh tridiag fl hf n U fitter mu ed s) fuel [] (a, it) ->
  exists a' b' it' ev r, drive _ _ dstep dist tol max_iter mix fuel [] (a, it) = ((a', it'), ev, r) /\
    drive _ _ (spin_step fitter (spin_solver big half eigh eigsh tridiag eight fl hf n beta None false) zs) dist' tol max_iter mix' fuel [] (b, it) = ((b', it'), map twice ev, r) /\ doubled n U mu ed a' b'.
Proof. exact (fun Hn H2 HC HW OA => double_loop big half eigh eigsh tridiag eight fl hf n beta U fitter Hn H2 HC HW zs mu ed OA s dist dist' tol max_iter mix mix' fuel a b it). Qed.
Print Assumptions C131_double.

(** The Bethe lattice with U = 4, fields 1 and -1 at the start, four Matsubara frequencies, linear mixing
    with 1/5 and at most three evaluations; the fit returns two levels -1 and 1 that have lost their coupling. *)
Local Notation ex_solver := (spin_solver (fun _ => true) (/ 2) real_eigh (fun _ _ _ => Err ValueError) (fun _ _ => Err ValueError) real_eight tri_fl false 3 10 None false).
Local Notation ex_step := (spin_step off_fit ex_solver (matsubara 4 10)).
Definition ex_loc : gfloc := mkLoc (LHilbert (ht csqrt_std)) None None (Some 0).
Definition ex_mix2 (d0 : both) (hist : list (both * both)) : option both :=
  match hist with [] => Some d0 | (o, w) :: _ => Some (blend (1 / 5) (fst o) (fst w), blend (1 / 5) (snd o) (snd w)) end.
Example C131_ex : exists g0 a b d, imp_init 3 4 [0; 0; 0; 0] = Ok g0 /\
  initialize_magnetic off_fit ex_solver (matsubara 4 10) (g0, g0) ex_loc 4 (fun _ => rcx 2) 1 1 (Some 2) = Ok (fst a, snd a, d) /\
  initialize_magnetic off_fit ex_solver (matsubara 4 10) (g0, g0) ex_loc 4 (fun _ => rcx 2) (-1) 1 (Some 2) = Ok (fst b, snd b, swap d) /\
  forall dist tol, exists a' b' it ev r, drive _ _ ex_step dist tol 2 (ex_mix2 d) 3 [] (a, 0%nat) = ((a', it), ev, r) /\
    drive _ _ ex_step (fun x y => dist (swap x) (swap y)) tol 2 (ex_mix2 (swap d)) 3 [] (b, 0%nat) = ((b', it), map swap ev, r) /\ mirrored 3 4 2 0 a' b'.
Proof.
  assert (I0 : exists g0, imp_init 3 4 [0; 0; 0; 0] = Ok g0) by (eexists; reflexivity). destruct I0 as (g0 & E0). exists g0.
  assert (OA : off_axis (matsubara 4 10)) by (intros z I; destruct (matsubara_points 4 10 ltac:(lra) z I) as [_ H]; exact H).
  assert (SG : shaped 3 4 g0) by (apply (shaped_init 3 4 [0; 0; 0; 0]); [lia|reflexivity|exact E0]).
  destruct (C131_start 3 4 (matsubara 4 10) g0 g0 ex_loc (fun _ => rcx 2) (Some 2) 0 ltac:(lia) SG SG eq_refl) as (u0 & d0 & l0 & dl & EI & SU & SD & _ & EM & EE & _).
  assert (W : workable2 (fun _ => true) (/ 2) real_eigh (fun _ _ _ => Err ValueError) (fun _ _ => Err ValueError) tri_fl false 3 (trial_H off_fit (2 + 1 * 1 - 0) u0 dl) (trial_H off_fit (2 - 1 * 1 - 0) u0 dl) 4).
  { rewrite (off_trial u0 dl (2 + 1 * 1 - 0) 1), (off_trial u0 dl (2 - 1 * 1 - 0) (- 1)) by (auto; lra). apply fld_workable. }
  assert (W' : workable2 (fun _ => true) (/ 2) real_eigh (fun _ _ _ => Err ValueError) (fun _ _ => Err ValueError) tri_fl false 3 (trial_H off_fit (2 - 1 * 1 - 0) u0 dl) (trial_H off_fit (2 + 1 * 1 - 0) u0 dl) 4).
  { rewrite (off_trial u0 dl (2 + 1 * 1 - 0) (- - (1))), (off_trial u0 dl (2 - 1 * 1 - 0) (- (1))) by (auto; lra). apply fld_workable. }
  destruct (C131_fields 3 4 (fun _ => true) (/ 2) real_eigh (fun _ _ _ => Err ValueError) (fun _ _ => Err ValueError) real_eight tri_fl false 10 off_fit (matsubara 4 10) g0 g0 ex_loc (fun _ => rcx 2) 1 1 (Some 2) 0 u0 d0 l0 dl
    ltac:(lia) ltac:(lra) real_eigh_contract real_eight_sound OA SG SG eq_refl EI (off_fitted u0 dl SU) W W') as (a & b & d & EA & EB & MI & _).
  exists a, b, d. split; [exact E0|]. split; [exact EA|]. split; [exact EB|]. intros dist tol.
  refine (C131_loop (fun _ => true) (/ 2) real_eigh (fun _ _ _ => Err ValueError) (fun _ _ => Err ValueError) real_eight tri_fl false 3 10 4 off_fit (matsubara 4 10) 2 0 dist _ tol 2 (ex_mix2 d) _ 3 a b 0 ltac:(lia) ltac:(lra) real_eigh_contract real_eight_sound OA _ _ MI _).
  - intros [x x'] [y y']. reflexivity.
  - intros [|[[o o'] [w w']] hist]; reflexivity.
  - apply (along_inv _ _ _ _ _ _ (fun s => exists t, mirrored 3 4 2 0 s t)).
    + intros s e (t & _ & _ & _ & S1 & S2 & _). apply off_workable; auto. lra.
    + intros s e s' new (t & M) E. pose proof M as (_ & _ & _ & S1 & S2 & _).
      destruct (C131_step (fun _ => true) (/ 2) real_eigh (fun _ _ _ => Err ValueError) (fun _ _ => Err ValueError) real_eight tri_fl false 3 10 4 off_fit (matsubara 4 10) 2 0 s t e ltac:(lia) ltac:(lra) real_eigh_contract real_eight_sound OA M
        (off_workable _ _ 2 0 s e S1 S2 ltac:(lra))) as (s1 & t1 & new1 & E1 & _ & M1). rewrite E in E1. injection E1 as <- <-. exists t1. exact M1.
    + exists b. exact MI.
Qed.
