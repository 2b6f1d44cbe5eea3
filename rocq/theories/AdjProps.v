(** C107, C108: adjusting the chemical potential, occupation of the impurity. *)
From Coq Require Import Reals List Arith ZArith Bool Lia Lra Psatz.
From Verif Require Import Base RBase RLin CBase EspaceModel FitModel DmftModel DmftProofs FermiModel FermiSpec FermiMoreProofs FermiFinalProofs AdjModel AdjSpec AdjProofs AdjOccProofs.
Import ListNotations.
Local Open Scope R_scope.

(** ** C107 *)
(** The lattice meets the goal in total; the impurity keeps the potential from before. *)
Theorem C107_goal : forall fitter solver root integ delta g l goal g' l' mu ed, bracketing root -> imp_H g <> [] -> loc_mu l = Some mu -> loc_ed l = Some ed ->
  dmft_step_adjust fitter solver root integ delta g l goal = Ok (g', l') ->
  exists f G x occ, integ = Some f /\ goal = Some G /\ loc_mu l' = Some x /\ - 20 <= x <= 20 /\ f g' (loc_set_local l SImp) x = Ok occ /\ sum_of occ = sum_of G /\
    loc_Sigma l' = Some SImp /\ loc_kind l' = loc_kind l /\ imp_mu g' = mu - ed.
Proof. exact adjusted. Qed.
Print Assumptions C107_goal.

(** One iteration with adjustment. *)
Theorem C107_iteration : forall fitter solver root dist tol max_iter zs integ goal g l it delta g' l' it' r mu ed, bracketing root -> imp_H g <> [] -> loc_mu l = Some mu -> loc_ed l = Some ed ->
  call_adjust fitter solver root integ dist tol max_iter zs true goal ((g, l), it) delta = (((g', l'), it'), r) ->
  match r with
  | Ok _ | Err ConvergedExc | Err FailedToConvergeExc =>
      (exists e, step_adjust fitter solver root integ zs true goal (g, l) delta = Err e) \/
      exists f G x occ d, integ = Some f /\ goal = Some G /\ loc_mu l' = Some x /\ f g' (loc_set_local l SImp) x = Ok occ /\ sum_of occ = sum_of G /\
        imp_mu g' = mu - ed /\ loc_Delta_grid g' l' zs = Ok d /\
        match r with
        | Ok new => new = d /\ tol <= dist d delta /\ it' = (it + 1)%nat /\ (it' <= max_iter)%nat
        | Err ConvergedExc => dist d delta < tol /\ it' = it
        | _ => tol <= dist d delta /\ it' = (it + 1)%nat /\ (max_iter < it')%nat
        end
  | Err _ => True
  end.
Proof. exact call_adjusted. Qed.
Print Assumptions C107_iteration.
(** Without adjustment and with a goal it is the iteration of C47. *)
Theorem C107_plain : forall fitter solver root dist tol max_iter zs integ G gl it delta,
  call_adjust fitter solver root integ dist tol max_iter zs false (Some G) (gl, it) delta =
  dmft_call (gfimp * gfloc) (list cx) (step fitter solver zs) dist tol max_iter (gl, it) delta.
Proof. exact call_plain. Qed.
Print Assumptions C107_plain.

(** Inverse Green's functions of lattice and impurity differ by the change of the potential. *)
Theorem C107_mismatch : forall fitter solver root integ delta g l goal g' l' mu ed hy x z Gi Gl, bracketing root -> imp_H g <> [] -> loc_mu l = Some mu -> loc_ed l = Some ed -> loc_kind l = LHybrid hy ->
  dmft_step_adjust fitter solver root integ delta g l goal = Ok (g', l') -> loc_mu l' = Some x -> delta1 (imp_x g') z = hy z ->
  imp_call g' z = Ok Gi -> loc_call g' l' z = Ok Gl -> Gi <> rcx 0 -> Gl <> rcx 0 ->
  cxsub (cxinv Gl) (cxinv Gi) = rcx (x - (mu - ed)) /\ (Gi = Gl <-> x = mu - ed).
Proof. exact mismatch. Qed.
Print Assumptions C107_mismatch.

(** A lattice given by its hybridisation is reported as converged in the first
    iteration, whatever the potential has become. *)
Theorem C107_hybrid_refuted : forall fitter solver root dist tol max_iter zs integ goal g l it hy mu ed gl1 o d, bracketing root -> imp_H g <> [] -> loc_mu l = Some mu -> loc_ed l = Some ed -> loc_kind l = LHybrid hy ->
  (forall v, dist v v = 0) -> 0 < tol ->
  step_adjust fitter solver root integ zs true goal (g, l) (map hy zs) = Ok (gl1, (Some o, d)) ->
  d = map hy zs /\ call_adjust fitter solver root integ dist tol max_iter zs true goal ((g, l), it) (map hy zs) = ((gl1, it), Err ConvergedExc) /\
  imp_mu (fst gl1) = mu - ed.
Proof. exact hybrid_first. Qed.
Print Assumptions C107_hybrid_refuted.

(** Goals that cannot be met, classes without [integrate], no goal. *)
Theorem C107_out_of_reach : forall fitter solver root f delta g l gl G lo hi, bracketing root -> dmft_step fitter solver delta g l = Ok gl ->
  f (fst gl) (snd gl) (- 20) = Ok lo -> f (fst gl) (snd gl) 20 = Ok hi -> 0 < (sum_of lo - sum_of G) * (sum_of hi - sum_of G) ->
  dmft_step_adjust fitter solver root (Some f) delta g l (Some G) = Err ValueError.
Proof. exact out_of_reach. Qed.
Print Assumptions C107_out_of_reach.
Theorem C107_no_integrate_refuted : forall fitter solver root delta g l goal gl, bracketing root -> dmft_step fitter solver delta g l = Ok gl ->
  dmft_step_adjust fitter solver root None delta g l goal = Err AttributeError.
Proof. exact ends_missing. Qed.
Print Assumptions C107_no_integrate_refuted.
Theorem C107_no_goal_refuted : forall fitter solver root f delta g l gl occ, bracketing root -> dmft_step fitter solver delta g l = Ok gl -> f (fst gl) (snd gl) (- 20) = Ok occ ->
  dmft_step_adjust fitter solver root (Some f) delta g l None = Err AttributeError.
Proof. exact goal_missing. Qed.
Print Assumptions C107_no_goal_refuted.
(** With the default arguments no iteration ever gets through. *)
Theorem C107_default_refuted : forall fitter solver root dist tol max_iter zs integ gl it delta,
  exists gl' e, call_adjust fitter solver root integ dist tol max_iter zs false None (gl, it) delta = ((gl', it), Err e) /\
  (forall gl1 d, dmft_step fitter solver delta (fst gl) (snd gl) = Ok gl1 -> loc_Delta_grid (fst gl1) (snd gl1) zs = Ok d -> e = TypeError /\ gl' = gl1).
Proof. exact call_default. Qed.
Print Assumptions C107_default_refuted.

(** One site without bath whose lattice occupation is the potential: goal 1 from the
    potential 0.  Reported as converged with potentials 1 and 0. *)
Definition one_fit (x : list R) (_ : list cx) : list R := x.
Definition one_solver (H : list R) (_ : R) : res (cx -> cx) := Ok (fun z => cxinv (cxsub z (rcx (nth 0 H 0)))).
Definition one_imp : gfimp := mkImp 1 [] [0] 0 None.
Definition one_loc : gfloc := mkLoc (LHybrid (fun _ => rcx 0)) (Some 0) None (Some 0).
Definition one_integ : option (gfimp -> gfloc -> R -> res (list R)) := Some (fun _ _ mu => Ok [mu]).
Definition d2 (a b : list cx) : R := fold_right Rplus 0 (map (fun p => cxn2 (cxsub (fst p) (snd p))) (combine a b)).
Lemma one_step : exists g', dmft_step_adjust one_fit one_solver secant one_integ [rcx 0] one_imp one_loc (Some [1]) = Ok (g', mkLoc (LHybrid (fun _ => rcx 0)) (Some 1) (Some SImp) (Some 0)) /\ imp_mu g' = 0.
Proof.
  unfold dmft_step_adjust, adjust_mu. cbn [dmft_step one_loc loc_mu loc_ed attr bind imp_solve one_solver fst snd].
  assert (S : forall g l, secant (distance_mu one_integ (Some [1]) g l) (-20) 20 = Ok 1).
  { intros g l. unfold secant, distance_mu, one_integ. cbn [attr bind]. unfold total. cbn [fold_left].
    unfold Rltb. destruct (Rlt_dec _ _); [lra|]. destruct (Req_EM_T _ _); [lra|]. destruct (Req_EM_T _ _); [lra|].
    destruct (Req_EM_T _ _) as [_|N]; [f_equal; field; try lra|]. exfalso. apply N. field. }
  rewrite S. cbn [bind]. eexists. split; [reflexivity|]. cbv -[Rplus Rmult Rminus Ropp]. ring.
Qed.
Example C107_case : exists g', call_adjust one_fit one_solver secant one_integ d2 (1 / 1000) 20 [ci] true (Some [1]) ((one_imp, one_loc), 0%nat) [rcx 0] =
  (((g', mkLoc (LHybrid (fun _ => rcx 0)) (Some 1) (Some SImp) (Some 0)), 0%nat), Err ConvergedExc) /\ imp_mu g' = 0 /\ bracketing secant.
Proof.
  destruct one_step as (g' & S & I). exists g'. split; [|split; [exact I|exact secant_ok]].
  assert (G : exists f, imp_gf g' = Some f).
  { unfold dmft_step_adjust in S. destruct (dmft_step _ _ _ _ _) as [[g1 l1]|] eqn:D; [|discriminate]. cbn [bind fst snd] in S. destruct (adjust_mu _ _ _ _ _); [|discriminate]. cbn [bind] in S. injection S as <- _.
    destruct (step_parts _ _ _ _ _ _ _ D) as (m & e & gf & _ & _ & -> & _). now exists gf. }
  destruct G as [f G].
  assert (L : exists d, loc_Delta_grid g' (mkLoc (LHybrid (fun _ => rcx 0)) (Some 1) (Some SImp) (Some 0)) [ci] = Ok [d]).
  { unfold loc_Delta_grid. cbn [mapM]. unfold loc_Delta, loc_Weiss, loc_call_inv, loc_free_inv. cbn [loc_kind loc_mu loc_Sigma attr bind eval_Sigma].
    unfold imp_Sigma. rewrite G. cbn [bind]. eexists. reflexivity. }
  destruct L as [d L].
  refine (proj1 (proj2 (C107_hybrid_refuted one_fit one_solver secant d2 (1 / 1000) 20 [ci] one_integ (Some [1]) one_imp one_loc 0 (fun _ => rcx 0) 0 0 _ 1 [d] secant_ok _ eq_refl eq_refl eq_refl _ _ _))).
  - discriminate.
  - intros v. unfold d2. induction v as [|x v IH]; [reflexivity|]. cbn. rewrite IH. destruct x. cbv [cxn2 cxsub cxadd cxopp re im fst snd]. ring.
  - lra.
  - unfold step_adjust. cbn [fst snd map]. rewrite S. cbn [bind fst snd attr one_integ loc_mu]. rewrite L. cbn [bind]. unfold total. cbn [fold_left]. repeat f_equal. ring.
Qed.

(** ** C108 *)
(** Poles [e] with weights [w]: twice the approximate Fermi occupations at 300 K. *)
Theorem C108_closed : forall geigh, geigh_contract geigh -> forall kB, 0 < kB -> forall g gf m w e mu, imp_gf g = Some gf -> pole_function m w e gf -> (forall i, (i < m)%nat -> 0 <= w i) -> 0 < rsum m w ->
  imp_spin_integrate geigh kB g mu =
    Ok (rsum m (fun i => w i * ((radius * radius / (radius * radius + e i * e i) - tanh_cf 200 ((e i - mu) / (2 * (kB * 300)))) / 2))).
Proof. exact imp_closed. Qed.
Print Assumptions C108_closed.
Theorem C108_accuracy : forall geigh, geigh_contract geigh -> forall kB, 0 < kB -> forall g gf m w e mu, imp_gf g = Some gf -> pole_function m w e gf -> (forall i, (i < m)%nat -> 0 <= w i) -> 0 < rsum m w ->
  exists x, imp_integrate geigh kB g mu = Ok x /\
    Rabs (x - 2 * rsum m (fun i => w i * fermi ((e i - mu) / (kB * 300)))) <=
      2 * rsum m (fun i => w i * ((e i * e i / (radius * radius + e i * e i)
        + Rabs ((e i - mu) / (2 * (kB * 300))) * odd_product 200 ((e i - mu) / (2 * (kB * 300)))) / 2)).
Proof. exact imp_accuracy. Qed.
Print Assumptions C108_accuracy.
(** Two spins. *)
Theorem C108_spins : forall geigh kB g g' mu gf gf', imp_gf g = Some gf -> imp_gf g' = Some gf' ->
  spin_integrate geigh kB (g, g') (Some mu) = (do u <- imp_spin_integrate geigh kB g mu; do d <- imp_spin_integrate geigh kB g' mu; Ok (u + d)) /\
  (imp_spin_integrate geigh kB g mu = imp_spin_integrate geigh kB g' mu -> spin_integrate geigh kB (g, g') (Some mu) = imp_integrate geigh kB g mu).
Proof. exact spin_sum. Qed.
Print Assumptions C108_spins.
Theorem C108_default_refuted : forall geigh kB ud, spin_integrate geigh kB ud None = Err AttributeError.
Proof. exact (fun _ _ _ => eq_refl). Qed.
Print Assumptions C108_default_refuted.
(** A level at k_B 300 K: more than 2/5 electrons, although a colder impurity
    (half that temperature or less) has fewer. *)
Theorem C108_temperature_refuted : forall geigh, geigh_contract geigh -> forall kB, 0 < kB -> kB * 300 <= 1 -> forall g gf, imp_gf g = Some gf -> pole_function 1 (fun _ => 1) (fun _ => kB * 300) gf ->
  exists x, imp_integrate geigh kB g 0 = Ok x /\ forall beta, 2 / (kB * 300) <= beta -> 2 * fermi (beta * (kB * 300)) <= 2 / 5 < x.
Proof. exact warm_level. Qed.
Print Assumptions C108_temperature_refuted.

Example C108_case : exists x, imp_integrate real_geigh (1 / 11600) (mkImp 1 [] [1 / 11600 * 300] 0 (Some (fun z => cxdiv (rcx 1) (cxsub z (rcx (1 / 11600 * 300)))))) 0 = Ok x /\ 2 / 5 < x.
Proof.
  destruct (C108_temperature_refuted real_geigh real_geigh_contract (1 / 11600) ltac:(lra) ltac:(lra) (mkImp 1 [] [1 / 11600 * 300] 0 (Some (fun z => cxdiv (rcx 1) (cxsub z (rcx (1 / 11600 * 300)))))) _ eq_refl) as (x & E & F).
  - intros z _. unfold csum. cbn. apply cx_eq; cbv [cxadd re im fst snd rcx]; ring.
  - exists x. split; [exact E|]. apply (F (2 / (1 / 11600 * 300))). lra.
Qed.
