(** C47-C49 and C62-C66: the self-consistency loop. *)
From Coq Require Import Reals List Arith ZArith Bool Lia Lra Psatz.
From Verif Require Import Base RBase RLin CBase FitModel FitSpec DmftModel DmftSpec DmftProofs.
Import ListNotations.
Local Open Scope R_scope.

(** [r] is the outcome, [ev] the trials evaluated, [it'] the final counter. *)
Theorem C47_driver : forall (S D : Type) (dstep : S -> D -> res (S * D)) (dist : D -> D -> R) (tol : R) (max_iter : nat)
  (mix : list (D * D) -> option D) (fuel it : nat) (s s' : S) (it' : nat) (ev : list D) (r : res unit),
  (forall s d e, dstep s d = Err e -> e <> ConvergedExc /\ e <> FailedToConvergeExc /\ e <> OutOfFuel) ->
  (Nat.max 1 (max_iter + 1 - it) <= fuel)%nat ->
  drive S D dstep dist tol max_iter mix fuel [] (s, it) = ((s', it'), ev, r) ->
  (length ev <= Nat.max 1 (max_iter + 1 - it))%nat /\
  exists es, all_above tol es /\
  match r with
  | Ok _ => replay S D dstep dist s ev = map Some es /\ it' = (it + length ev)%nat
  | Err ConvergedExc => exists e, replay S D dstep dist s ev = map Some es ++ [Some e] /\ e < tol /\ it' = (it + length es)%nat
  | Err FailedToConvergeExc => replay S D dstep dist s ev = map Some es /\ length ev = Nat.max 1 (max_iter + 1 - it) /\ it' = (it + length ev)%nat
  | Err OutOfFuel => False
  | Err _ => replay S D dstep dist s ev = map Some es ++ [None] /\ it' = (it + length es)%nat
  end.
Proof. exact driver. Qed.
Print Assumptions C47_driver.

Theorem C47_terminates : forall (S D : Type) (dstep : S -> D -> res (S * D)) (dist : D -> D -> R) (tol : R) (max_iter : nat)
  (mix : list (D * D) -> option D) (f1 f2 it : nat) (s : S) (hist : list (D * D)),
  (Nat.max 1 (max_iter + 1 - it) <= f1)%nat -> (Nat.max 1 (max_iter + 1 - it) <= f2)%nat ->
  drive S D dstep dist tol max_iter mix f1 hist (s, it) = drive S D dstep dist tol max_iter mix f2 hist (s, it).
Proof. exact driver_fuel. Qed.
Print Assumptions C47_terminates.

(** Halving a number: converges at the third evaluation. *)
Example C47_case : exists st, drive unit R (fun s d => Ok (s, d / 2)) (fun a b => Rabs (a - b)) (1 / 5) 10
  (fun h => match h with [] => Some 1 | (_, new) :: _ => Some new end) 11 [] (tt, 0%nat) = (st, [1; 1 / 2; 1 / 2 / 2], Err ConvergedExc) /\ snd st = 2%nat.
Proof.
  eexists. split; [|shelve].
  cbn [drive]. unfold dmft_call. unfold Rltb at 1. destruct (Rlt_dec _ _) as [L|L]; [exfalso; rewrite Rabs_left in L; lra|]. cbn [Nat.ltb Nat.leb Nat.add].
  unfold Rltb at 1. destruct (Rlt_dec _ _) as [L1|L1]; [exfalso; rewrite Rabs_left in L1; lra|]. cbn [Nat.ltb Nat.leb Nat.add].
  unfold Rltb at 1. destruct (Rlt_dec _ _) as [L2|L2]; [|exfalso; apply L2; rewrite Rabs_left; lra]. reflexivity.
  Unshelve. reflexivity.
Qed.

(** Hybridisation, Weiss field and self-energy. *)
Theorem C48_delta : forall (g : gfimp) (l : gfloc) (z d : cx), loc_Delta g l z = Ok d ->
  exists mu s G, loc_mu l = Some mu /\ (exists sl, loc_Sigma l = Some sl /\ eval_Sigma g sl z = Ok s) /\
  loc_Weiss g l z = Ok (cxsub (cxadd z (rcx mu)) d) /\ loc_call g l z = Ok G /\
  (G <> rcx 0 -> d = cxsub (cxsub (cxadd z (rcx mu)) s) (cxinv G)).
Proof. exact loc_delta_weiss. Qed.
Print Assumptions C48_delta.

Theorem C48_hybrid : forall (g : gfimp) (l : gfloc) (hy : cx -> cx) (z d : cx), loc_kind l = LHybrid hy -> loc_Delta g l z = Ok d -> d = hy z.
Proof. exact loc_delta_hybrid. Qed.
Print Assumptions C48_hybrid.

Theorem C48_impurity : forall (g : gfimp) (gf : cx -> cx) (z : cx), imp_gf g = Some gf -> gf z <> rcx 0 -> imp_call g z = Ok (gf z).
Proof. exact imp_call_gf. Qed.
Print Assumptions C48_impurity.

Theorem C48_dyson : forall (g : gfimp) (gf : cx -> cx) (z s : cx), imp_gf g = Some gf -> imp_Sigma g z = Ok s -> gf z <> rcx 0 -> imp_free g z <> rcx 0 ->
  gf z = cxinv (cxsub (cxinv (imp_free g z)) s).
Proof. exact imp_dyson. Qed.
Print Assumptions C48_dyson.

Example C48_case : let l := mkLoc (LHybrid (fun z => cxinv z)) (Some 1) (Some (SFun (fun _ => rcx 3))) None in
  exists d, loc_Delta (mkImp 2 [] [] 0 None) l ci = Ok d /\ d = cxinv ci.
Proof. cbn zeta. eexists. split; [reflexivity|]. apply cx_eq; unfold cxinv, cxsub, cxadd, cxopp, rcx, ci, cxn2, re, im; simpl; field. Qed.

(** The impurity Hamiltonian, after any history of calls. *)
Theorem C49_hamiltonian : forall (fitter : list R -> list cx -> list R) (solver : list R -> R -> res (cx -> cx)),
  (forall p d, length (fitter p d) = length p) ->
  forall (n : nat) (U : R) (mem : list R) (g0 g : gfimp) (ops : list imp_op) (delta : list cx) (mu : R),
  (2 <= n)%nat -> length mem = (2 * (n - 1))%nat -> imp_init n U mem = Ok g0 -> foldM (imp_do fitter solver) ops g0 = Ok g ->
  let g' := imp_fit_update fitter g delta mu in let H := imp_H g' in let x := imp_x g' in
  length H = (n * n)%nat /\ symmetric n H /\ arrow n H /\ ent n H 0 0 = - mu /\
  (forall k, (k < n - 1)%nat -> ent n H 0 (S k) = nth (n - 1 + k) x 0 /\ ent n H (S k) 0 = nth (n - 1 + k) x 0 /\ ent n H (S k) (S k) = nth k x 0) /\
  forall z, (forall k, (k < n - 1)%nat -> z <> rcx (nth k x 0)) ->
    imp_free_inv g' z = cxsub (cxadd z (rcx mu)) (hyb (n - 1) (fun k => nth k x 0) (fun k => nth (n - 1 + k) x 0) z) /\
    (forall col, resolvent_col n H z col -> cxmul (col 0%nat) (imp_free_inv g' z) = rcx 1) /\
    (imp_free_inv g' z <> rcx 0 -> exists col, resolvent_col n H z col /\ col 0%nat = imp_free g' z).
Proof. exact impurity_hamiltonian. Qed.
Print Assumptions C49_hamiltonian.

Theorem C49_no_bath_refuted : forall U : R, imp_init 1 U [] = Err IndexError.
Proof. exact impurity_alone. Qed.
Print Assumptions C49_no_bath_refuted.

Example C49_case : exists g0, imp_init 3 4 [0; 0; 0; 0] = Ok g0 /\
  imp_H (imp_fit_update (fun _ _ => [1; 2; 3; 4]) g0 [] 5) = [- (5); 3; 4;  3; 1; 0;  4; 0; 2].
Proof. eexists. split; reflexivity. Qed.

(** The on-site energy [ed]. *)
Theorem C62_no_ed_refuted : forall (fitter : list R -> list cx -> list R) (solver : list R -> R -> res (cx -> cx))
  (zs : list cx) (g : gfimp) (l : gfloc) (delta : list cx) (U : R) (s : selfe) (mu : option R),
  loc_ed l = None ->
  dmft_step fitter solver delta g l = Err AttributeError /\ step fitter solver zs (g, l) delta = Err AttributeError /\
  initialize zs g l U s mu = Err AttributeError.
Proof. exact no_ed. Qed.
Print Assumptions C62_no_ed_refuted.

Theorem C62_fixed_point : forall (fitter : list R -> list cx -> list R) (solver : list R -> R -> res (cx -> cx))
  (g : gfimp) (l : gfloc) (delta : list cx) (g' : gfimp) (l' : gfloc) (mu ed : R) (z Gi Gl : cx),
  imp_H g <> [] -> loc_mu l = Some mu -> loc_ed l = Some ed ->
  dmft_step fitter solver delta g l = Ok (g', l') ->
  loc_Delta g' l' z = Ok (delta1 (imp_x g') z) ->
  imp_call g' z = Ok Gi -> loc_call g' l' z = Ok Gl -> Gl <> rcx 0 ->
  Gi = cxinv (cxsub (cxinv Gl) (rcx ed)).
Proof. exact step_fixed_point. Qed.
Print Assumptions C62_fixed_point.

Theorem C62_fixed_point_nano : forall (fitter : list R -> list cx -> list R) (solver : list R -> R -> res (cx -> cx))
  (g : gfimp) (l : gfloc) (delta : list cx) (g' : gfimp) (l' : gfloc) (mu ed : R) (z Gi Gl : cx),
  imp_H g <> [] -> loc_mu l = Some mu -> loc_ed l = Some ed ->
  dmft_step fitter solver delta g l = Ok (g', l') ->
  nano_Delta g' l' z = Ok (delta1 (imp_x g') z) ->
  imp_call g' z = Ok Gi -> loc_call g' l' z = Ok Gl -> Gl <> rcx 0 -> Gi = Gl.
Proof. exact step_fixed_point_nano. Qed.
Print Assumptions C62_fixed_point_nano.

(** The hypotheses are met: one bath site at 0 coupled by 1, no interaction
    (the solver returns the free function), lattice hybridisation [1/z], [ed = 0]. *)
Example C62_case : let gf := fun z => cxinv (cxsub z (cxinv z)) in
  let l := mkLoc (LHybrid cxinv) (Some 0) None (Some 0) in
  exists g', dmft_step (fun _ _ => [0; 1]) (fun H U => Ok gf) [] (mkImp 2 [0; 0] [0; 0; 0; 0] 0 None) l = Ok (g', loc_set_local l SImp) /\
  loc_Delta g' (loc_set_local l SImp) ci = Ok (delta1 (imp_x g') ci) /\ (exists Gi, imp_call g' ci = Ok Gi) /\
  exists Gl, loc_call g' (loc_set_local l SImp) ci = Ok Gl /\ Gl <> rcx 0.
Proof.
  cbv zeta. eexists. split; [reflexivity|]. match goal with |- context[loc_Delta ?g _ _] => set (gg := g) end. set (ll := loc_set_local _ _).
  assert (D1 : delta1 [0; 1] ci = cxinv ci) by (unfold delta1, eks, vks; cbn; apply cx_eq; unfold cxinv; cbn; unfold cxn2; cbn; field; repeat split; lra).
  assert (N : cxsub ci (cxinv ci) <> rcx 0).
  { intros E. apply (f_equal im) in E. unfold cxinv, cxn2 in E. cbn in E. assert (- (1) / (0 * 0 + 1 * 1) = - (1)) by field. lra. }
  assert (S0 : imp_Sigma gg ci = Ok (cxsub (cxsub (cxsub ci (rcx (- (0 - 0)))) (cxinv ci)) (cxsub ci (cxinv ci)))).
  { unfold imp_Sigma, gg. cbn [imp_gf set_gf]. rewrite cxinv_inv by exact N. unfold imp_free_inv. cbn [imp_x imp_H set_gf imp_update set_H imp_fit set_x]. rewrite D1. reflexivity. }
  split; [|split].
  - assert (EX : exists d, loc_Delta gg ll ci = Ok d) by (eexists; reflexivity). destruct EX as [d E]. rewrite E. f_equal.
    rewrite (loc_delta_hybrid gg ll cxinv ci d eq_refl E). symmetry. exact D1.
  - eexists. reflexivity.
  - unfold loc_call, ll. cbn [loc_kind loc_set_local loc_free_inv loc_mu attr bind loc_Sigma eval_Sigma]. rewrite S0. cbn [bind]. eexists. split; [reflexivity|].
    apply cxinv_nz. intros E. apply (f_equal im) in E. unfold cxinv, cxn2 in E. cbn in E. assert (- (1) / (0 * 0 + 1 * 1) = - (1)) by field. lra.
Qed.

(** The causality safeguard of [DMFT.__call__] leaves its argument unchanged. *)
Theorem C63_refuted : forall (h : heap) (r : nat), (r < length h)%nat -> nth r (safeguard h r) [] = nth r h [].
Proof. exact safeguard_no_effect. Qed.
Print Assumptions C63_refuted.
Example C63_case : nth 0 (safeguard [[(1, 2)]] 0) [] = [(1, 2)].
Proof. reflexivity. Qed.

(** The Bethe lattice; [csqrt] is the principal complex square root. *)
Theorem C64_semicircle : forall csqrt : cx -> cx, (forall w, cxmul (csqrt w) (csqrt w) = w) ->
  forall z, 0 < im z -> semicircular (ht csqrt) z.
Proof. exact bethe_semicircle. Qed.
Print Assumptions C64_semicircle.
Theorem C64_causal : forall csqrt : cx -> cx, (forall w, cxmul (csqrt w) (csqrt w) = w) -> (forall w, 0 <= re (csqrt w)) ->
  forall z, im (ht csqrt z) < 0.
Proof. exact bethe_causal. Qed.
Print Assumptions C64_causal.
Theorem C64_delta : forall csqrt : cx -> cx, (forall w, cxmul (csqrt w) (csqrt w) = w) ->
  forall (g : gfimp) (l : gfloc) (z d G s : cx) (m : R) (sl : selfe), loc_kind l = LHilbert (ht csqrt) -> loc_mu l = Some m -> loc_Sigma l = Some sl ->
  eval_Sigma g sl z = Ok s -> 0 < im (cxsub (cxadd z (rcx m)) s) ->
  loc_Delta g l z = Ok d -> loc_call g l z = Ok G -> d = cxmul (rcx (1 / 4)) G.
Proof. exact bethe_delta. Qed.
Print Assumptions C64_delta.
Theorem C64_lower_refuted : forall (csqrt : cx -> cx) (z : cx), im z <= 0 -> ht csqrt z = ht csqrt (re z, ht_eps).
Proof. exact bethe_lower. Qed.
Print Assumptions C64_lower_refuted.
(** Without a self-energy the local function is the free one, for both kinds of lattices. *)
Theorem C64_free : forall (g : gfimp) (l : gfloc) (z f : cx), loc_Sigma l = Some (SFun (fun _ => rcx 0)) -> loc_free_inv l z = Ok f -> f <> rcx 0 ->
  loc_call_inv g l z = Ok f /\ loc_call g l z = Ok (cxinv f).
Proof. exact loc_free_call. Qed.
Print Assumptions C64_free.
Example C64_case_free : loc_free_inv (mkLoc (LHilbert cxinv) (Some 0) (Some (SFun (fun _ => rcx 0))) None) (0, 2) = Ok (cxinv (cxinv (cxadd (0, 2) (rcx 0)))).
Proof. reflexivity. Qed.
(** Such a square root exists. *)
Example C64_case : exists csqrt : cx -> cx, (forall w, cxmul (csqrt w) (csqrt w) = w) /\ (forall w, 0 <= re (csqrt w)).
Proof. exists csqrt_std. split; intros w; apply csqrt_std_ok. Qed.

(** Magnetic set-up: same bath, opposite shifts. *)
Theorem C65_magnetic : forall (fitter : list R -> list cx -> list R) (delta : list cx) (u d : gfimp) (mu ed sign field : R) (n : nat), (1 <= n)%nat ->
  imp_n u = n -> length (imp_H u) = (n * n)%nat ->
  let ud := magnetic_setup fitter delta (u, d) mu ed sign field in
  imp_x (fst ud) = imp_x (snd ud) /\ imp_x (fst ud) = fitter (imp_x u) delta /\
  (forall i j, (i < n)%nat -> (j < n)%nat -> (i, j) <> (0, 0)%nat -> ent n (imp_H (fst ud)) i j = ent n (imp_H (snd ud)) i j) /\
  ent n (imp_H (fst ud)) 0 0 = - (mu + sign * field - ed) /\ ent n (imp_H (snd ud)) 0 0 = - (mu - sign * field - ed).
Proof. exact magnetic. Qed.
Print Assumptions C65_magnetic.
Example C65_case : let ud := magnetic_setup (fun _ _ => [1; 2]) [] (mkImp 2 [0; 0] [0; 0; 0; 0] 0 None, mkImp 2 [7; 7] [7; 7; 7; 7] 0 None) 1 0 1 (1 / 2) in
  imp_H (snd ud) = [- (1 - 1 * (1 / 2) - 0); 2; 2; 1].
Proof. reflexivity. Qed.

(** Restarting from [gfimp.Sigma]: the self-energy is taken on the reset bath. *)
Theorem C66_refuted : forall (zs : list cx) (g : gfimp) (l : gfloc) (U mu ed : R) (g' : gfimp) (l' : gfloc) (d : list cx) (z s s' : cx),
  imp_H g <> [] -> loc_ed l = Some ed ->
  initialize zs g l U SImp (Some mu) = Ok (g', l', d) ->
  imp_Sigma g z = Ok s -> imp_Sigma g' z = Ok s' ->
  s' = cxadd s (cxadd (rcx (mu - ed - imp_mu g)) (cxsub (delta1 (imp_x g) z) (delta1 (imp_x g') z))).
Proof. exact restart. Qed.
Print Assumptions C66_refuted.
Example C66_case : let gf := fun z => cxinv (cxsub z (cxinv z)) in let g := mkImp 2 [0; 1] [0; 1; 1; 0] 0 (Some gf) in
  exists g' l' d s s', initialize [] g (mkLoc (LHybrid cxinv) None None (Some 0)) 0 SImp (Some 0) = Ok (g', l', d) /\
  imp_Sigma g ci = Ok s /\ imp_Sigma g' ci = Ok s' /\ re s = 0 /\ re s' = 2 / 5.
Proof.
  cbv zeta. do 5 eexists. split; [reflexivity|]. split; [reflexivity|]. split; [reflexivity|].
  assert (C : Rmax (1 / 10) (1 / sqrt (INR 1)) = 1) by (change (INR 1) with 1; rewrite sqrt_1; unfold Rmax; destruct (Rle_dec _ _); lra).
  assert (D1 : delta1 [0; 1] ci = cxinv ci) by (unfold delta1, eks, vks; cbn; apply cx_eq; unfold cxinv; cbn; unfold cxn2; cbn; field; repeat split; lra).
  assert (D2 : delta1 [2; 1] ci = (- (2) / 5, - (1) / 5)) by (unfold delta1, eks, vks; cbn; apply cx_eq; unfold cxinv; cbn; unfold cxn2; cbn; field; repeat split; lra).
  assert (N : cxsub ci (cxinv ci) <> rcx 0).
  { intros E. apply (f_equal im) in E. unfold cxinv, cxn2 in E. cbn in E. assert (- (1) / (0 * 0 + 1 * 1) = - (1)) by field. lra. }
  rewrite cxinv_inv by exact N. unfold imp_free_inv. cbn [imp_x imp_H set_x imp_update set_H nth upd_tot]. rewrite D1. change (INR (length [0; 1] / 2)) with (INR 1) in *. split.
  - unfold cxinv, cxn2. cbn. assert (0 / (0 * 0 + 1 * 1) = 0) by field. lra.
  - match goal with |- context[delta1 ?x ci] => replace x with [2; 1] end.
    2:{ cbn [unopt fill_from firstn skipn map upd_tot app length Nat.div Nat.divmod fst snd]. f_equal. f_equal. symmetry. exact C. }
    rewrite D2. unfold cxinv, cxn2. cbn. assert (0 / (0 * 0 + 1 * 1) = 0) by field. lra.
Qed.
