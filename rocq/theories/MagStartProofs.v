(** The start of the loop with two spins. *)
From Coq Require Import String Reals List Arith NArith ZArith Bool Lia Lra Ring.
From Verif Require Import Base RBase RLin CBase MatvecModel MbModel EspaceModel ExactSpec GflModel GflSpec FitModel FitSpec FitMoreProofs DmftModel DmftSpec DmftProofs SymSpec SiamModel PhsSpec PhsProofs PhsLoopProofs MagModel MagSpec MagProofs MagLoopProofs.
Import ListNotations.
Local Open Scope R_scope.

Lemma reset_same m x y : (1 <= m)%nat -> length x = (2 * m)%nat -> length y = (2 * m)%nat -> exists x', reset_x x = Ok x' /\ reset_x y = Ok x' /\ length x' = (2 * m)%nat.
Proof.
  intros Hm LX LY. unfold reset_x, get_initial_bath. rewrite !map_length, LX, LY. replace (2 * m / 2)%nat with m by (symmetry; rewrite Nat.mul_comm; apply Nat.div_mul; lia).
  destruct (init_levels_ok m 2 (map Some x) ltac:(lia) ltac:(rewrite map_length; lia)) as (p & E & L & V). destruct (init_levels_ok m 2 (map Some y) ltac:(lia) ltac:(rewrite map_length; lia)) as (q & E' & L' & V').
  rewrite map_length, LX in L, V. rewrite map_length, LY in L', V'. rewrite E, E'. cbn [bind]. rewrite !unopt_Some. exists p. split; [reflexivity|]. split; [|exact L].
  f_equal. apply (list_ext _ _ 0); [congruence|]. intros j Hj. rewrite V, V' by lia. reflexivity.
Qed.
Section Start.
Variables (n : nat) (U : R).
Hypothesis Hn : (2 <= n <= 32)%nat.
Lemma shaped_reset g m x : shaped n U g -> length x = (2 * (n - 1))%nat -> shaped n U (set_x (imp_update g m) x).
Proof.
  intros (EN & EU & LH & LX & AR) L. split; [exact EN|]. split; [exact EU|]. split; [unfold imp_update; cbn [imp_H set_x set_H]; now rewrite upd_tot_length|]. split; [exact L|].
  intros i j Hi Hj NE. unfold imp_update. cbn [imp_H set_x set_H]. rewrite update_ent by (auto; lia). destruct (Nat.eqb_spec i 0); [lia|]. cbn [andb]. now apply AR.
Qed.
Notation the_mu mu0 := (match mu0 with None => U / 2 | Some mu => mu end).
Theorem start_ok zs u d l Sigma mu0 ed : shaped n U u -> shaped n U d -> loc_ed l = Some ed ->
  exists u0 d0 l0 dl, spin_initialize zs (u, d) l U Sigma mu0 = Ok ((u0, d0), l0, dl) /\ shaped n U u0 /\ shaped n U d0 /\ imp_x d0 = imp_x u0 /\
    loc_mu l0 = Some (the_mu mu0) /\ loc_ed l0 = Some ed /\ length dl = length zs /\ initialize zs u l U (SFun Sigma) mu0 = Ok (u0, l0, dl).
Proof.
  intros SU SD EE. pose proof SU as (_ & _ & _ & LU & _). pose proof SD as (_ & _ & _ & LD & _). destruct (reset_same (n - 1) (imp_x u) (imp_x d) ltac:(lia) LU LD) as (x & EU & ED & LX).
  set (m := the_mu mu0). set (l0 := loc_update (loc_set_local l (SFun Sigma)) m). set (u0 := set_x (imp_update u (m - ed)) x). set (d0 := set_x (imp_update d (m - ed)) x).
  destruct (grid_total u0 l0 zs m eq_refl) as (dl & G & L); [exists (SFun Sigma); split; [reflexivity|intros z; eexists; reflexivity]|].
  exists u0, d0, l0, dl. split.
  - unfold spin_initialize. cbn [loc_ed loc_update loc_set_local]. rewrite EE. cbn [attr bind]. unfold spin_reset, spin_update, imp_reset_bath. cbn [fst snd imp_update set_H imp_x]. rewrite EU, ED. cbn [bind fst]. fold m l0. fold (imp_update u (m - ed)). fold u0. 
    match goal with |- bind ?b _ = _ => replace b with (Ok dl) by (symmetry; exact G) end. reflexivity.
  - split; [now apply shaped_reset|]. split; [now apply shaped_reset|]. split; [reflexivity|]. split; [reflexivity|]. split; [exact EE|]. split; [exact L|].
    unfold initialize. cbn [loc_ed loc_update loc_set_local]. rewrite EE. cbn [attr bind]. unfold imp_reset_bath. cbn [imp_update set_H imp_x]. rewrite EU. cbn [bind]. fold m l0. fold (imp_update u (m - ed)). fold u0.
    match goal with |- bind ?b _ = _ => replace b with (Ok dl) by (symmetry; exact G) end. reflexivity.
Qed.
Variables (big : R -> bool) (half : R).
Variable eigh : dense RRing -> res (list R * list (list R)).
Variable eigsh : nat -> Z -> (list R -> res (list R)) -> res (list R * list (list R)).
Variable tridiag : (list R -> res (list R)) -> list R -> res (list R * list R).
Variable eight : list R -> list R -> res (list R * list (list R)).
Variables (fl : hflags) (hf : bool) (beta : R) (fitter : list R -> list cx -> list R).
Hypothesis H2 : half + half = 1.
Hypothesis HC : eigh_contract eigh.
Hypothesis HW : GflSpec.eigh_sound eight.
Notation solver2 := (spin_solver big half eigh eigsh tridiag eight fl hf n beta None false).
Notation wk2 Hu Hd := (workable2 big half eigh eigsh tridiag fl hf n Hu Hd U).
Variables (zs : list cx).
Hypothesis OA : off_axis zs.
(** Opposite fields. *)
Theorem opposite_fields u d l Sigma sign field mu0 ed u0 d0 l0 dl : shaped n U u -> shaped n U d -> loc_ed l = Some ed -> spin_initialize zs (u, d) l U Sigma mu0 = Ok ((u0, d0), l0, dl) ->
  length (fitter (imp_x u0) dl) = (2 * (n - 1))%nat ->
  let Hu := trial_H fitter (the_mu mu0 + sign * field - ed) u0 dl in let Hd := trial_H fitter (the_mu mu0 - sign * field - ed) u0 dl in wk2 Hu Hd -> wk2 Hd Hu ->
  exists a b new, initialize_magnetic fitter solver2 zs (u, d) l U Sigma sign field mu0 = Ok (fst a, snd a, new) /\
    initialize_magnetic fitter solver2 zs (u, d) l U Sigma (- sign) field mu0 = Ok (fst b, snd b, swap new) /\ mirrored n U (the_mu mu0) ed a b /\ imp_x (fst (fst a)) = imp_x (snd (fst a)).
Proof.
  intros SU SD EE EI LF Hu Hd W W'. destruct (start_ok zs u d l Sigma mu0 ed SU SD EE) as (u0' & d0' & l0' & dl' & EI' & SU0 & SD0 & _ & EM & EE0 & _). rewrite EI in EI'. injection EI' as <- <- <- <-.
  set (m := the_mu mu0) in *.
  destruct (trial_shaped n U fitter Hn u0 dl (m + sign * field - ed) SU0 LF) as [SU1 SYu]. destruct (trial_shaped n U fitter Hn u0 dl (m - sign * field - ed) SU0 LF) as [SD1 SYd].
  destruct (exchange_solver big half eigh eigsh tridiag eight fl hf n beta U Hn H2 HC HW Hu Hd SYu SYd W W') as (fu & fd & fu' & fd' & E & E' & A1 & A2).
  destruct u0 as [nu xu hu Uu ou], d0 as [nd xd hd Ud od]. pose proof SU0 as (N1 & U1 & _). pose proof SD0 as (N2 & U2 & _). cbn [imp_n imp_U] in N1, U1, N2, U2. subst nu Uu nd Ud.
  set (x := fitter xu dl) in *. set (G := imp_H (imp_fit fitter (mkImp n xu hu U ou) dl)). 
  set (u1 := mkImp n x (upd_tot G 0 (- (m + sign * field - ed))) U (Some fu)). set (d1 := mkImp n x (upd_tot G 0 (- (m - sign * field - ed))) U (Some fd)).
  set (u2 := mkImp n x (upd_tot G 0 (- (m - sign * field - ed))) U (Some fu')). set (d2 := mkImp n x (upd_tot G 0 (- (m + sign * field - ed))) U (Some fd')).
  assert (B1 : magnetic_step fitter solver2 dl (mkImp n xu hu U ou, mkImp n xd hd U od) l0 sign field = Ok ((u1, d1), loc_set_local l0 SImp)).
  { unfold magnetic_step. rewrite EM, EE0. cbn [attr bind]. unfold spin_solve, magnetic_setup, spin_symmetrize. cbn [fst snd].
    match goal with |- bind (bind ?b _) _ = _ => replace b with (Ok (fu, fd)) by (symmetry; exact E) end. reflexivity. }
  assert (B2 : magnetic_step fitter solver2 dl (mkImp n xu hu U ou, mkImp n xd hd U od) l0 (- sign) field = Ok ((u2, d2), loc_set_local l0 SImp)).
  { unfold magnetic_step. rewrite EM, EE0. cbn [attr bind]. unfold spin_solve, magnetic_setup, spin_symmetrize. cbn [fst snd].
    replace (m + - sign * field - ed) with (m - sign * field - ed) by ring. replace (m - - sign * field - ed) with (m + sign * field - ed) by ring.
    match goal with |- bind (bind ?b _) _ = _ => replace b with (Ok (fu', fd')) by (symmetry; exact E') end. reflexivity. }
  assert (T1 : twin u1 d2) by (repeat (split; [reflexivity|]); exact A1). assert (T2 : twin d1 u2) by (repeat (split; [reflexivity|]); exact A2).
  destruct (solved_grid u1 l0 zs m fu EM) as (gu & GU & _). destruct (solved_grid d1 l0 zs m fd EM) as (gd & GD & _). change (set_gf u1 fu) with u1 in GU. change (set_gf d1 fd) with d1 in GD.
  exists ((u1, d1), loc_set_local l0 SImp), ((u2, d2), loc_set_local l0 SImp), (gu, gd). split; [|split; [|split]].
  - unfold initialize_magnetic. rewrite EI. cbn [bind]. rewrite B1. cbn [bind fst snd]. unfold spin_Delta_grid. cbn [fst snd]. rewrite GU. cbn [bind]. rewrite GD. reflexivity.
  - unfold initialize_magnetic. rewrite EI. cbn [bind]. rewrite B2. cbn [bind fst snd]. unfold spin_Delta_grid. cbn [fst snd]. rewrite <- (twin_grid _ _ _ zs T2 OA), <- (twin_grid _ _ _ zs T1 OA). rewrite GD. cbn [bind]. rewrite GU. reflexivity.
  - split; [exact T1|]. split; [exact T2|]. split; [reflexivity|]. split; [exact SU1|]. split; [exact SD1|]. split; [exact EM|exact EE0].
  - reflexivity.
Qed.
(** No field. *)
Theorem no_field s g g' l Sigma sign mu0 ed g0 l0 dl : (s <= 1)%nat -> shaped n U g -> twin g g' -> loc_ed l = Some ed -> initialize zs g l U (SFun Sigma) mu0 = Ok (g0, l0, dl) ->
  one_workable big half eigh eigsh tridiag fl hf n U fitter (the_mu mu0) ed s (g0, l0) dl ->
  exists a b new, step fitter (impurity_solver big half eigh eigsh tridiag eight fl hf n beta (Z.of_nat s) None false) zs (g0, l0) dl = Ok (a, new) /\
    initialize_magnetic fitter solver2 zs (g, g') l U Sigma sign 0 mu0 = Ok (fst b, snd b, twice new) /\ doubled n U (the_mu mu0) ed a b.
Proof.
  intros Hs SG T EE EI W. pose proof (twin_shaped n U g g' T SG) as SG'. destruct (start_ok zs g g' l Sigma mu0 ed SG SG' EE) as (u0 & d0 & l1 & dl1 & ES & SU0 & SD0 & XE & EM & EE0 & _ & EI'). rewrite EI in EI'. injection EI' as <- <- <-.
  assert (T0 : twin g0 d0).
  { pose proof T as (A & B & C & D & E). pose proof (proj1 (proj2 (proj2 (proj2 SG)))) as LX. destruct (reset_same (n - 1) (imp_x g) (imp_x g) ltac:(lia) LX LX) as (x & EX & _).
    unfold spin_initialize in ES. cbn [loc_ed loc_update loc_set_local] in ES. rewrite EE in ES. cbn [attr bind] in ES. unfold spin_reset, spin_update, imp_reset_bath in ES. cbn [fst snd imp_update set_H imp_x] in ES. rewrite <- B, EX in ES. cbn [bind fst] in ES.
    destruct (loc_Delta_grid _ _ _); cbn [bind] in ES; [|discriminate]. injection ES as <- <- _ _. cbn [imp_update set_H set_x]. 
    split; [exact A|]. split; [reflexivity|]. split; [cbn; now rewrite C|]. split; [exact D|exact E]. }
  set (m := the_mu mu0) in *.
  assert (DB : doubled n U m ed (g0, l0) ((g0, d0), l0)) by (split; [apply twin_refl|]; split; [exact T0|]; split; [reflexivity|]; split; [exact SU0|]; split; [exact EM|exact EE0]).
  destruct (double_step big half eigh eigsh tridiag eight fl hf n beta U fitter Hn H2 HC HW zs m ed OA s (g0, l0) ((g0, d0), l0) dl Hs DB W) as (a & b & new & E1 & E2 & D2).
  exists a, b, new. split; [exact E1|]. split; [|exact D2]. unfold initialize_magnetic. rewrite ES. cbn [bind].
  unfold spin_step, spin_dmft_step in E2. cbn [fst snd twice] in E2. unfold magnetic_step. rewrite EM, EE0 in *. cbn [attr bind] in *.
  replace (magnetic_setup fitter dl (g0, d0) m ed sign 0) with (spin_update (spin_fit fitter (g0, d0) (dl, dl)) (m - ed)).
  - destruct (spin_solve _ _) as [ud|e] eqn:ESV; cbn [bind fst snd] in *; [|discriminate]. destruct (spin_Delta_grid _ _ _) as [dd|e] eqn:EG; cbn [bind] in *; [|discriminate]. injection E2 as <- ->. reflexivity.
  - unfold magnetic_setup, spin_symmetrize, spin_update, spin_fit. cbn [fst snd]. replace (m + sign * 0 - ed) with (m - ed) by ring. replace (m - sign * 0 - ed) with (m - ed) by ring. f_equal.
    destruct g0 as [n1 x1 h1 U1 o1], d0 as [n2 x2 h2 U2 o2]. destruct T0 as (A & B & C & D & _). cbn [imp_n imp_x imp_H imp_U] in A, B, C, D. subst. reflexivity.
Qed.
End Start.
