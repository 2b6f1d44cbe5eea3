(** Proofs for the adjustment of the chemical potential. *)
From Coq Require Import Reals List Arith ZArith Bool Lia Lra Psatz.
From Verif Require Import Base RBase RLin CBase EspaceModel FitModel DmftModel DmftProofs FermiModel AdjModel AdjSpec.
Import ListNotations.
Local Open Scope R_scope.

Lemma total_sum l : total l = sum_of l.
Proof.
  unfold total, sum_of. assert (H : forall l a, fold_left Rplus l a = a + fold_right Rplus 0 l) by (clear; induction l as [|x l IH]; intros a; cbn; [ring|rewrite IH; ring]).
  rewrite H. ring.
Qed.

(** A finder with the contract: the ends, then one step of the secant rule. *)
Definition secant (f : R -> res R) (a b : R) : res R :=
  match f a with
  | Err e => Err e
  | Ok u =>
    match f b with
    | Err e => Err e
    | Ok v =>
      if Rltb 0 (u * v) then Err ValueError
      else if Req_EM_T u 0 then Ok a
      else if Req_EM_T v 0 then Ok b
      else let x := (a * v - b * u) / (v - u) in
        match f x with Ok y => if Req_EM_T y 0 then Ok x else Err RuntimeError | Err e => Err e end
    end
  end.
Lemma secant_ok : bracketing secant.
Proof.
  intros f a b AB. unfold secant. split; [|split; [|split]].
  - intros x. destruct (f a) as [u|] eqn:A; [|discriminate]. destruct (f b) as [v|] eqn:B; [|discriminate].
    unfold Rltb. destruct (Rlt_dec 0 (u * v)) as [P|P]; [discriminate|].
    destruct (Req_EM_T u 0) as [U|U]; [intros E; injection E as <-; subst; split; [lra|exact A]|].
    destruct (Req_EM_T v 0) as [V|V]; [intros E; injection E as <-; subst; split; [lra|exact B]|].
    destruct (f ((a * v - b * u) / (v - u))) as [y|] eqn:X; [|discriminate]. destruct (Req_EM_T y 0) as [Y|Y]; [|discriminate].
    intros E. injection E as <-. split; [|now rewrite X, Y].
    assert (N : v - u <> 0) by (intros E; assert (v = u) by lra; subst; pose proof (Rsqr_pos_lt u U); unfold Rsqr in *; lra).
    destruct (Rtotal_order u 0) as [L|[L|L]]; [|contradiction|].
    + assert (0 < v) by (destruct (Rtotal_order v 0) as [W|[W|W]]; [exfalso; apply P; nra|contradiction|lra]).
      split; [apply (Rmult_le_reg_r (v - u)); [lra|]|apply (Rmult_le_reg_r (v - u)); [lra|]]; unfold Rdiv; rewrite Rmult_assoc, Rinv_l by exact N; nra.
    + assert (v < 0) by (destruct (Rtotal_order v 0) as [W|[W|W]]; [lra|contradiction|exfalso; apply P; nra]).
      replace ((a * v - b * u) / (v - u)) with ((b * u - a * v) / (u - v)) by (field; lra).
      split; [apply (Rmult_le_reg_r (u - v)); [lra|]|apply (Rmult_le_reg_r (u - v)); [lra|]]; unfold Rdiv; rewrite Rmult_assoc, Rinv_l by lra; nra.
  - intros e ->. reflexivity.
  - intros u e -> ->. reflexivity.
  - intros u v -> -> P. unfold Rltb. destruct (Rlt_dec 0 (u * v)); [reflexivity|contradiction].
Qed.

Section Adj.
Variable fitter : list R -> list cx -> list R.
Variable solver : list R -> R -> res (cx -> cx).
Variable root : (R -> res R) -> R -> R -> res R.

Lemma put_length H i s v : length (put H i s v) = length H.
Proof. unfold put. generalize (seq 0 (length v)). intros l. revert H. induction l as [|k l IH]; intros H; cbn; [reflexivity|]. rewrite IH. apply upd_tot_length. Qed.

(** What a step does. *)
Lemma step_parts delta g l g' l' : dmft_step fitter solver delta g l = Ok (g', l') ->
  exists mu ed gf, loc_mu l = Some mu /\ loc_ed l = Some ed /\ g' = set_gf (imp_update (imp_fit fitter g delta) (mu - ed)) gf /\ l' = loc_set_local l SImp.
Proof.
  unfold dmft_step, attr. destruct (loc_mu l) as [mu|] eqn:M; [|discriminate]. destruct (loc_ed l) as [ed|] eqn:E; [|discriminate]. cbn [bind].
  unfold imp_solve. destruct (solver _ _) as [f|]; [|discriminate]. cbn [bind]. intros H. injection H as <- <-. now exists mu, ed, f.
Qed.
Lemma fit_H g delta : imp_H g <> [] -> imp_H (imp_fit fitter g delta) <> [].
Proof. intros N E. apply N. apply length_zero_iff_nil. apply length_zero_iff_nil in E. unfold imp_fit in E. cbn in E. now rewrite !put_length in E. Qed.
Lemma update_mu g mu : imp_H g <> [] -> imp_mu (imp_update g mu) = mu.
Proof. intros N. unfold imp_mu, imp_update. cbn. destruct (imp_H g) as [|x H]; [contradiction|]. cbn. ring. Qed.

Lemma adjusted integ delta g l goal g' l' mu ed : bracketing root -> imp_H g <> [] -> loc_mu l = Some mu -> loc_ed l = Some ed ->
  dmft_step_adjust fitter solver root integ delta g l goal = Ok (g', l') ->
  exists f G x occ, integ = Some f /\ goal = Some G /\ loc_mu l' = Some x /\ - 20 <= x <= 20 /\ f g' (loc_set_local l SImp) x = Ok occ /\ sum_of occ = sum_of G /\
    loc_Sigma l' = Some SImp /\ loc_kind l' = loc_kind l /\ imp_mu g' = mu - ed.
Proof.
  intros BR NH M E. unfold dmft_step_adjust. destruct (dmft_step fitter solver delta g l) as [[g1 l1]|] eqn:D; [|discriminate]. cbn [bind fst snd].
  destruct (adjust_mu _ _ _ _) as [x|] eqn:A; [|discriminate]. cbn [bind]. intros H. injection H as <- <-.
  destruct (step_parts _ _ _ _ _ D) as (mu' & ed' & gf & M' & E' & -> & ->). rewrite M in M'. rewrite E in E'. injection M' as <-. injection E' as <-.
  destruct (BR (distance_mu integ goal (set_gf (imp_update (imp_fit fitter g delta) (mu - ed)) gf) (loc_set_local l SImp)) (- 20) 20 ltac:(lra)) as [R _].
  destruct (R x A) as [B Z]. unfold distance_mu in Z. destruct integ as [f|]; [|discriminate]. cbn [attr bind] in Z.
  destruct (f _ _ x) as [occ|] eqn:F; [|discriminate]. cbn [bind] in Z. destruct goal as [G|]; [|discriminate]. cbn [attr bind] in Z. apply ok_inj in Z. rewrite !total_sum in Z.
  exists f, G, x, occ. repeat split; try reflexivity; try tauto; try lra; try exact F.
  change (imp_mu (imp_update (imp_fit fitter g delta) (mu - ed)) = mu - ed). now apply update_mu, fit_H.
Qed.

Lemma ends_missing delta g l goal gl : bracketing root -> dmft_step fitter solver delta g l = Ok gl -> dmft_step_adjust fitter solver root None delta g l goal = Err AttributeError.
Proof.
  intros BR D. unfold dmft_step_adjust. rewrite D. cbn [bind]. unfold adjust_mu. destruct (BR (distance_mu None goal (fst gl) (snd gl)) (- 20) 20 ltac:(lra)) as (_ & E & _).
  now rewrite (E AttributeError eq_refl).
Qed.
Lemma goal_missing f delta g l gl occ : bracketing root -> dmft_step fitter solver delta g l = Ok gl -> f (fst gl) (snd gl) (- 20) = Ok occ ->
  dmft_step_adjust fitter solver root (Some f) delta g l None = Err AttributeError.
Proof.
  intros BR D F. unfold dmft_step_adjust. rewrite D. cbn [bind]. unfold adjust_mu. destruct (BR (distance_mu (Some f) None (fst gl) (snd gl)) (- 20) 20 ltac:(lra)) as (_ & E & _).
  rewrite (E AttributeError); [reflexivity|]. unfold distance_mu. cbn [attr bind]. now rewrite F.
Qed.
Lemma out_of_reach f delta g l gl G lo hi : bracketing root -> dmft_step fitter solver delta g l = Ok gl ->
  f (fst gl) (snd gl) (- 20) = Ok lo -> f (fst gl) (snd gl) 20 = Ok hi -> 0 < (sum_of lo - sum_of G) * (sum_of hi - sum_of G) ->
  dmft_step_adjust fitter solver root (Some f) delta g l (Some G) = Err ValueError.
Proof.
  intros BR D F1 F2 P. unfold dmft_step_adjust. rewrite D. cbn [bind]. unfold adjust_mu. destruct (BR (distance_mu (Some f) (Some G) (fst gl) (snd gl)) (- 20) 20 ltac:(lra)) as (_ & _ & _ & E).
  rewrite (E (sum_of lo - sum_of G) (sum_of hi - sum_of G)); [reflexivity| | |exact P]; unfold distance_mu; cbn [attr bind]; [rewrite F1|rewrite F2]; cbn [bind attr]; now rewrite !total_sum.
Qed.

(** The two Green's functions after the potential has been moved. *)
Lemma mismatch integ delta g l goal g' l' mu ed hy x z Gi Gl : bracketing root -> imp_H g <> [] -> loc_mu l = Some mu -> loc_ed l = Some ed -> loc_kind l = LHybrid hy ->
  dmft_step_adjust fitter solver root integ delta g l goal = Ok (g', l') -> loc_mu l' = Some x -> delta1 (imp_x g') z = hy z ->
  imp_call g' z = Ok Gi -> loc_call g' l' z = Ok Gl -> Gi <> rcx 0 -> Gl <> rcx 0 ->
  cxsub (cxinv Gl) (cxinv Gi) = rcx (x - (mu - ed)) /\ (Gi = Gl <-> x = mu - ed).
Proof.
  intros BR NH M E K D X F CI CL NI NL.
  destruct (adjusted _ _ _ _ _ _ _ _ _ BR NH M E D) as (f & G & x' & occ & _ & _ & X' & _ & _ & _ & S & K' & I). rewrite X in X'. injection X' as <-.
  unfold loc_call in CL. rewrite K', K in CL. unfold loc_free_inv in CL. rewrite X, K', K, S in CL. cbn [attr bind eval_Sigma] in CL.
  unfold imp_call in CI. destruct (imp_Sigma g' z) as [s|]; [|discriminate]. cbn [bind] in CI, CL. apply ok_inj in CI. apply ok_inj in CL.
  assert (H0 : nth 0 (imp_H g') 0 = - (mu - ed)) by (unfold imp_mu in I; lra). rewrite H0, F in CI.
  assert (II : forall w, w <> rcx 0 -> forall v, cxinv v = w -> cxinv w = v).
  { intros w N v <-. apply cxinv_inv. intros ->. apply N. apply cx_eq; cbv [cxinv rcx re im fst snd cxn2]; unfold Rdiv; ring. }
  pose proof (II _ NI _ CI) as EI. pose proof (II _ NL _ CL) as EL.
  assert (EQ : cxsub (cxinv Gl) (cxinv Gi) = rcx (x - (mu - ed))) by (rewrite EI, EL; apply cx_eq; cbv [cxsub cxadd cxopp rcx re im fst snd]; ring).
  split; [exact EQ|]. split.
  - intros Q. rewrite Q in EQ. apply (f_equal re) in EQ. cbv [cxsub cxadd cxopp rcx re fst] in EQ. lra.
  - intros Q. apply (f_equal cxinv) in EI. apply (f_equal cxinv) in EL. rewrite cxinv_inv in EI, EL by assumption.
    rewrite EI, EL. apply f_equal. rewrite Q. apply cx_eq; cbv [cxsub cxadd cxopp rcx re im fst snd]; ring.
Qed.

Section Call.
Variables (dist : list cx -> list cx -> R) (tol : R) (max_iter : nat) (zs : list cx).
Lemma call_default integ gl it delta :
  exists gl' e, call_adjust fitter solver root integ dist tol max_iter zs false None (gl, it) delta = ((gl', it), Err e) /\
  (forall gl1 d, dmft_step fitter solver delta (fst gl) (snd gl) = Ok gl1 -> loc_Delta_grid (fst gl1) (snd gl1) zs = Ok d -> e = TypeError /\ gl' = gl1).
Proof.
  unfold call_adjust, step_adjust. destruct (dmft_step _ _ _ _ _) as [gl1|e] eqn:D; cbn [bind fst snd].
  - destruct (loc_Delta_grid _ _ _) as [d|e] eqn:L; cbn [bind].
    + eexists _, _. split; [reflexivity|]. intros gl2 d2 E _. injection E as <-. now split.
    + eexists _, _. split; [reflexivity|]. intros gl2 d2 E E2. injection E as <-. congruence.
  - eexists _, _. split; [reflexivity|]. discriminate.
Qed.
(** With a goal and no adjustment the call is the one of the driver of C47. *)
Lemma call_plain integ G gl it delta : call_adjust fitter solver root integ dist tol max_iter zs false (Some G) (gl, it) delta =
  dmft_call (gfimp * gfloc) (list cx) (step fitter solver zs) dist tol max_iter (gl, it) delta.
Proof.
  unfold call_adjust, dmft_call, step_adjust, step. destruct (dmft_step _ _ _ _ _) as [gl1|e]; cbn [bind fst snd]; [|reflexivity].
  destruct (loc_Delta_grid _ _ _); reflexivity.
Qed.

Lemma call_adjusted integ goal g l it delta g' l' it' r mu ed : bracketing root -> imp_H g <> [] -> loc_mu l = Some mu -> loc_ed l = Some ed ->
  call_adjust fitter solver root integ dist tol max_iter zs true goal ((g, l), it) delta = (((g', l'), it'), r) ->
  match r with
  | Ok _ | Err ConvergedExc | Err FailedToConvergeExc =>
      (exists e, step_adjust fitter solver root integ zs true goal (g, l) delta = Err e) \/
      exists f G x occ d, integ = Some f /\ goal = Some G /\ loc_mu l' = Some x /\ f g' (loc_set_local l SImp) x = Ok occ /\ sum_of occ = sum_of G /\
        imp_mu g' = mu - ed /\ loc_Delta_grid g' l' zs = Ok d /\
        match r with
        | Ok new => new = d /\ tol <= dist d delta /\ it' = (it + 1)%nat /\ (it' <= max_iter)%nat
        | Err ConvergedExc => dist d delta < tol /\ it' = it
        | _ => tol <= dist d delta /\ it' = (it + 1)%nat /\ (max_iter < it')%nat
        end
  | Err _ => True
  end.
Proof.
  intros BR NH M E H. unfold call_adjust in H. destruct (step_adjust fitter solver root integ zs true goal (g, l) delta) as [[gl1 [o new]]|e] eqn:S.
  2:{ cbn in H. assert (r = Err e) as -> by congruence. destruct e; try exact I; left; eexists; reflexivity. }
  unfold step_adjust in S. cbn [fst snd] in S.
  destruct (dmft_step_adjust _ _ _ _ _ _ _ _) as [[g1 l1]|] eqn:D; [|discriminate]. cbn [bind fst snd] in S.
  destruct (adjusted _ _ _ _ _ _ _ _ _ BR NH M E D) as (f & G & x & occ & If & Ig & X & _ & F & Q & _ & _ & IM).
  rewrite If in S. cbn [attr bind] in S. rewrite X in S. cbn [attr bind] in S. destruct (f g1 l1 x) as [o'|]; [|discriminate]. cbn [bind fst snd] in S.
  destruct (loc_Delta_grid g1 l1 zs) as [d|] eqn:L; [|discriminate]. cbn [bind] in S. injection S as <- <- <-. cbv beta iota in H.
  unfold Rltb in H. destruct (Rlt_dec (dist d delta) tol) as [T|T].
  - injection H as <- <- <- <-. right. exists f, G, x, occ, d. repeat split; assumption.
  - destruct (max_iter <? it + 1)%nat eqn:MI.
    + injection H as <- <- <- <-. apply Nat.ltb_lt in MI. right. exists f, G, x, occ, d. repeat split; try assumption; lra.
    + injection H as <- <- <- <-. apply Nat.ltb_ge in MI. right. exists f, G, x, occ, d. repeat split; try assumption; lra.
Qed.

Lemma hybrid_first integ goal g l it hy mu ed gl1 o d : bracketing root -> imp_H g <> [] -> loc_mu l = Some mu -> loc_ed l = Some ed -> loc_kind l = LHybrid hy ->
  (forall v, dist v v = 0) -> 0 < tol ->
  step_adjust fitter solver root integ zs true goal (g, l) (map hy zs) = Ok (gl1, (Some o, d)) ->
  d = map hy zs /\ call_adjust fitter solver root integ dist tol max_iter zs true goal ((g, l), it) (map hy zs) = ((gl1, it), Err ConvergedExc) /\
  imp_mu (fst gl1) = mu - ed.
Proof.
  intros BR NH M E K DD T S. assert (d = map hy zs /\ imp_mu (fst gl1) = mu - ed) as [Dh I].
  { unfold step_adjust in S. cbn [fst snd] in S. destruct (dmft_step_adjust _ _ _ _ _ _ _ _) as [[g1 l1]|] eqn:D; [|discriminate]. cbn [bind fst snd] in S.
    destruct (adjusted _ _ _ _ _ _ _ _ _ BR NH M E D) as (f & G & x & occ & If & Ig & X & _ & F & Q & SI & K1 & IM).
    rewrite If in S. cbn [attr bind] in S. rewrite X in S. cbn [attr bind] in S. destruct (f g1 l1 x) as [o'|]; [|discriminate]. cbn [bind fst snd] in S.
    destruct (loc_Delta_grid g1 l1 zs) as [d'|] eqn:L; [|discriminate]. cbn [bind] in S. injection S as <- _ <-. split; [|exact IM].
    rewrite K in K1. unfold loc_Delta_grid in L. clear - L K1. revert d' L. induction zs as [|z l IH]; intros d' L; cbn in L; [now injection L as <-|].
    destruct (loc_Delta g1 l1 z) as [w|] eqn:W; [|discriminate]. cbn [bind] in L. destruct (mapM _ l) as [ws|] eqn:WS; [|discriminate]. cbn [bind] in L. injection L as <-.
    cbn. now rewrite (loc_delta_hybrid _ _ _ _ _ K1 W), (IH ws eq_refl). }
  subst d. split; [reflexivity|]. split; [|exact I]. unfold call_adjust. rewrite S. rewrite DD. unfold Rltb. destruct (Rlt_dec 0 tol); [reflexivity|contradiction].
Qed.
End Call.
End Adj.
