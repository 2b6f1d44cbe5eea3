(** The loop with two spins at half filling. *)
From Coq Require Import String Reals List Arith NArith ZArith Bool Lia Lra Psatz Ring Field.
From Verif Require Import Base RBase RLin CBase MatvecModel MbModel EspaceModel ExactSpec GflModel GflSpec FitModel FitSpec FitProofs FitMoreProofs NrModel NrSpec NrProofs DmftModel DmftSpec DmftProofs
  SymSpec SymProofs SiamModel PhsSpec PhsProofs PhsLoopProofs MagModel MagSpec MagProofs MagLoopProofs MagStartProofs AfmSpec AfmProofs.
Import ListNotations.
Local Open Scope R_scope.
Add Field cxf_afm : cx_field.

(** ** The reflection *)
Lemma over_add a b : over (cxadd a b) = cxadd (over a) (over b).
Proof. apply cx_eq; cbn; ring. Qed.
Lemma over_sub a b : over (cxsub a b) = cxsub (over a) (over b).
Proof. apply cx_eq; cbn; ring. Qed.
Lemma over_inv a : over (cxinv a) = cxinv (over a).
Proof. symmetry. apply inv_reflect. Qed.
Lemma over_im z : CBase.im (over z) = CBase.im z.
Proof. reflexivity. Qed.
Lemma over_axis z : re z = 0 -> over z = z.
Proof. destruct z as [a b]. cbn. intros ->. apply cx_eq; cbn; ring. Qed.
Lemma rev_renumbering m : renumbering m (fun k => m - 1 - k)%nat.
Proof. split; [intros k Hk; lia|intros j k Hj Hk; lia]. Qed.
Lemma mirror_length m x : length (mirror m x) = (2 * m)%nat.
Proof. unfold mirror, relabel. rewrite app_length, !map_length, !seq_length. lia. Qed.
Lemma mirror_nth m x k : (k < m)%nat -> nth k (mirror m x) 0 = - nth (m - 1 - k) x 0 /\ nth (m + k) (mirror m x) 0 = nth (m + (m - 1 - k)) x 0.
Proof.
  intros Hk. unfold mirror. rewrite (T_energy m (-1) (fun k => m - 1 - k)%nat (fun _ => 1)), (T_coupling m (-1) (fun k => m - 1 - k)%nat (fun _ => 1)) by exact Hk. split; ring.
Qed.
Lemma hyb_over m x z : hyb m (fun k => nth k (mirror m x) 0) (fun k => nth (m + k) (mirror m x) 0) (over z) = over (hyb m (fun k => nth k x 0) (fun k => nth (m + k) x 0) z).
Proof.
  unfold hyb, over at 2. rewrite <- csum_reflect. rewrite <- (csum_rev m (fun k => reflect (-1) _)). apply csum_ext. intros k Hk. cbv beta. destruct (mirror_nth m x k Hk) as [-> ->].
  replace (cxsub (over z) (rcx (- nth (m - 1 - k) x 0))) with (reflect (-1) (cxsub z (rcx (nth (m - 1 - k) x 0)))) by (apply cx_eq; cbn; ring). apply div_mu. right. reflexivity.
Qed.
Lemma map_over_axis l : imaginary l -> map over l = l.
Proof. exact (imag_reflect l). Qed.

Section Loop.
Variables (big : R -> bool) (half : R).
Variable eigh : dense RRing -> res (list R * list (list R)).
Variable eigsh : nat -> Z -> (list R -> res (list R)) -> res (list R * list (list R)).
Variable tridiag : (list R -> res (list R)) -> list R -> res (list R * list R).
Variable eight : list R -> list R -> res (list R * list (list R)).
Variables (fl : hflags) (hf : bool) (n : nat) (beta U : R) (fitter : list R -> list cx -> list R).
Hypothesis Hn : (2 <= n <= 32)%nat.
Hypothesis H2 : half + half = 1.
Hypothesis HC : eigh_contract eigh.
Hypothesis HW : GflSpec.eigh_sound eight.
Notation solver2 := (spin_solver big half eigh eigsh tridiag eight fl hf n beta None false).
Notation wk2 Hu Hd := (workable2 big half eigh eigsh tridiag fl hf n Hu Hd U).
Notation c := (centre hf U).

Section One.
Variables (u d : gfimp) (du dd : list cx) (f : R).
Hypothesis SU : shaped n U u.
Hypothesis SD : shaped n U d.
Hypothesis LF : length (fitter (imp_x u) du) = (2 * (n - 1))%nat.
Hypothesis MF : fitter (imp_x d) dd = mirror (n - 1) (fitter (imp_x u) du).
Notation u' := (imp_fit_update fitter u du (c + f)).
Notation d' := (imp_fit_update fitter d dd (c - f)).
Lemma LFd : length (fitter (imp_x d) dd) = (2 * (n - 1))%nat.
Proof. rewrite MF. apply mirror_length. Qed.
Lemma fit_facing : facing n (imp_H u') (imp_H d') c f.
Proof.
  clear big half eigh eigsh tridiag eight fl beta H2 HC HW.
  pose proof LFd as LD. pose proof SU as (NU & _ & LHU & _ & ARU). pose proof SD as (ND & _ & LHD & _ & ARD).
  pose proof (fit_entries fitter u du (c + f)) as FU. pose proof (fit_entries fitter d dd (c - f)) as FD. rewrite NU in FU. rewrite ND in FD. specialize (FU ltac:(lia) LHU LF). specialize (FD ltac:(lia) LHD LD).
  destruct (trial_shaped n U fitter Hn u du (c + f) SU LF) as [(_ & _ & _ & _ & A1) S1]. destruct (trial_shaped n U fitter Hn d dd (c - f) SD LD) as [(_ & _ & _ & _ & A2) S2].
  split; [exact S1|]. split; [exact S2|]. split; [exact A1|]. split; [exact A2|]. split; [rewrite FU by lia; reflexivity|]. split; [rewrite FD by lia; reflexivity|].
  intros k Hk. rewrite !FU, !FD by lia. cbn [Nat.eqb]. destruct (Nat.eqb_spec k 0); [lia|]. destruct (Nat.eqb_spec (n - k) 0); [lia|]. rewrite !Nat.eqb_refl. rewrite MF.
  destruct (mirror_nth (n - 1) (fitter (imp_x u) du) (n - k - 1) ltac:(lia)) as [E V]. rewrite E, V. replace (n - 1 - 1 - (n - k - 1))%nat with (k - 1)%nat by lia. auto.
Qed.
Variable l : gfloc.
Variables (mu ed : R).
Hypothesis EM : loc_mu l = Some mu.
Hypothesis EE : loc_ed l = Some ed.
Hypothesis FL : facing_lattice (loc_kind l) ed.
Lemma solve_opposed : wk2 (imp_H u') (imp_H d') -> exists fu fd, solver2 (imp_H u') (imp_H d') U = Ok (fu, fd) /\ opposed n U mu ed hf ((set_gf u' fu, set_gf d' fd), loc_set_local l SImp).
Proof.
  intros WK. pose proof fit_facing as FA. destruct (facing_solved big half fl hf n U (imp_H u') (imp_H d') f Hn FA H2 eigh eigsh tridiag eight beta HC HW WK) as (gu & gd & sc & e & ES & PT).
  exists (value_at gu), (value_at gd). split; [unfold spin_solver; rewrite ES; reflexivity|].
  destruct (trial_shaped n U fitter Hn u du (c + f) SU LF) as [S1 _]. destruct (trial_shaped n U fitter Hn d dd (c - f) SD LFd) as [S2 _].
  assert (FG : facing_gf (value_at gu) (value_at gd)) by (intros z Hz; exact (proj2 (proj2 (proj2 (PT z Hz))))).
  split; [exact S1|]. split; [exact S2|]. split; [exact MF|]. split; [exact EM|]. split; [exact EE|]. split; [reflexivity|]. split; [exact FL|]. split; [exists (value_at gu), (value_at gd); auto|].
  destruct FA as (_ & _ & _ & _ & EU & ED & _). pose proof S1 as (_ & _ & _ & LX1 & _). pose proof S2 as (_ & _ & _ & LX2 & _).
  intros z Hz. exists (cxsub (cxsub (cxadd z (rcx f)) (hyb (n - 1) (fun k => nth k (imp_x u') 0) (fun k => nth (n - 1 + k) (imp_x u') 0) z)) (cxinv (value_at gu z))). split.
  - unfold imp_Sigma. cbn [imp_gf set_gf]. unfold imp_free_inv. cbn [imp_H imp_x set_gf]. rewrite (delta1_hyb (n - 1) _ LX1). change (nth 0 (imp_H u') 0) with (ent n (imp_H u') 0 0). rewrite EU. f_equal. rewrite rcx_opp, rcx_add. ring.
  - unfold imp_Sigma. cbn [imp_gf set_gf]. unfold imp_free_inv. cbn [imp_H imp_x set_gf]. rewrite (delta1_hyb (n - 1) _ LX2). change (nth 0 (imp_H d') 0) with (ent n (imp_H d') 0 0). rewrite ED.
    rewrite (FG z Hz). assert (EX : imp_x d' = mirror (n - 1) (imp_x u')) by exact MF. rewrite EX, hyb_over. f_equal. rewrite !over_sub, over_add, over_inv.
    replace (over (rcx f)) with (cxopp (rcx f)) by (apply cx_eq; cbn; ring). replace (- (c - f)) with (- c + f) by ring. rewrite rcx_add, rcx_opp. ring.
Qed.
End One.

(** ** The local function *)
Lemma opposed_grid mu ed u d l zs : frequencies zs -> opposed n U mu ed hf ((u, d), l) -> mu - ed = c -> exists nu, loc_Delta_grid u l zs = Ok nu /\ length nu = length zs /\ loc_Delta_grid d l zs = Ok (map over nu).
Proof.
  clear - n U hf. intros FZ (_ & _ & _ & EM & EE & ES & FL & _ & SV) HM. unfold loc_Delta_grid. induction zs as [|z zs IH]; [exists []; repeat split|].
  destruct IH as (ds & E & L & E'); [intros y Hy; apply FZ; right; exact Hy|]. destruct (FZ z (or_introl eq_refl)) as [RZ IZ]. destruct (SV z IZ) as (v & V1 & V2). rewrite (over_axis z RZ) in V2.
  assert (Q : exists q, loc_Delta u l z = Ok q /\ loc_Delta d l z = Ok (over q)).
  { unfold loc_Delta, loc_Weiss, loc_call_inv, loc_call, loc_free_inv. rewrite EM, ES. cbn [attr bind eval_Sigma].
    destruct (loc_kind l) as [hy|h]; cbn [bind]; rewrite V1, V2; cbn [bind].
    - eexists. split; [reflexivity|]. f_equal. destruct z as [a w]. cbn in RZ. subst a. specialize (FL w). destruct (hy (0, w)) as [a b], v as [x y]. cbn in FL. subst a. unfold over, reflect. apply cx_eq; cbn; [|ring]. lra.
    - eexists. split; [reflexivity|]. f_equal. destruct FL as [E0 FL]. subst ed. assert (Q : cxsub (cxadd z (rcx mu)) (cxadd (rcx c) (over v)) = over (cxsub (cxadd z (rcx mu)) (cxadd (rcx c) v))).
      { replace mu with c by lra. rewrite !over_sub, !over_add. rewrite (over_axis z RZ). apply cx_eq; cbn; ring. }
      rewrite Q, FL, <- over_inv. set (q := cxinv _). clearbody q. rewrite !over_sub, !over_add. rewrite (over_axis z RZ). replace mu with c by lra. apply cx_eq; cbn; ring. }
  destruct Q as (q & Q1 & Q2). exists (q :: ds). cbn [mapM map]. rewrite Q1, Q2. cbn [bind]. rewrite E, E'. split; [reflexivity|]. split; [cbn; now rewrite L|reflexivity].
Qed.
(** ** One step *)
Variables (mu ed : R) (zs : list cx).
Hypothesis HM : mu - ed = c.
Hypothesis FZ : frequencies zs.
Hypothesis FF : facing_fit n (length zs) fitter.
Notation trial2 a delta := (wk2 (trial_H fitter (mu - ed) (fst (fst a)) (fst delta)) (trial_H fitter (mu - ed) (snd (fst a)) (snd delta))).
Theorem opposed_step a delta : opposed n U mu ed hf a -> facing_data (length zs) delta -> trial2 a delta ->
  exists a' new, spin_step fitter solver2 zs a delta = Ok (a', new) /\ opposed n U mu ed hf a' /\ facing_data (length zs) new.
Proof.
  destruct a as [[u d] l], delta as [du dd]. intros OP [LD EDD] WK. cbn [fst snd] in *. subst dd. pose proof OP as (SU & SD & EX & EM & EE & _ & FL & _).
  pose proof SU as (_ & _ & _ & LX & _). destruct (FF (imp_x u) du LX LD) as [LF EF]. rewrite <- EX in EF.
  assert (M1 : mu - ed = c + 0) by lra. assert (M2 : mu - ed = c - 0) by lra. unfold trial_H in WK. rewrite M1 in WK at 1. rewrite M2 in WK.
  destruct (solve_opposed u d du (map over du) 0 SU SD LF EF l mu ed EM EE FL WK) as (fu & fd & E & OP'). rewrite <- M1, <- M2 in E, OP'.
  destruct (opposed_grid mu ed _ _ _ zs FZ OP' HM) as (nu & GU & LN & GD).
  eexists _, (nu, map over nu). split; [|split; [exact OP'|split; [exact LN|reflexivity]]].
  unfold spin_step, spin_dmft_step. cbn [fst snd]. rewrite EM, EE. cbn [attr bind]. unfold spin_solve, spin_update, spin_fit. cbn [fst snd imp_update set_H imp_H imp_U imp_fit set_x]. rewrite (proj1 (proj2 SU)).
  match goal with |- bind (bind (bind ?b _) _) _ = _ => replace b with (Ok (fu, fd)) by (symmetry; exact E) end. cbn [bind fst snd]. unfold spin_Delta_grid. cbn [fst snd].
  match goal with |- bind (bind ?b _) _ = _ => replace b with (Ok nu) by (symmetry; exact GU) end. cbn [bind].
  match goal with |- bind (bind ?b _) _ = _ => replace b with (Ok (map over nu)) by (symmetry; exact GD) end. reflexivity.
Qed.
(** ** The loop *)
Theorem opposed_loop dist tol max_iter mix fuel : (forall hist d, (forall a b, In (a, b) hist -> facing_data (length zs) a /\ facing_data (length zs) b) -> mix hist = Some d -> facing_data (length zs) d) ->
  forall a it hist a' it' ev r, (forall x y, In (x, y) hist -> facing_data (length zs) x /\ facing_data (length zs) y) -> opposed n U mu ed hf a ->
  along (spin_step fitter solver2 zs) dist tol max_iter mix (fun a delta => trial2 a delta) fuel hist (a, it) ->
  drive _ _ (spin_step fitter solver2 zs) dist tol max_iter mix fuel hist (a, it) = ((a', it'), ev, r) ->
  opposed n U mu ed hf a' /\ (forall d, In d ev -> facing_data (length zs) d) /\ (r = Ok tt \/ r = Err ConvergedExc \/ r = Err FailedToConvergeExc \/ r = Err OutOfFuel).
Proof.
  intros HX. induction fuel as [|fuel IH]; intros a it hist a' it' ev r HH OP AL E; cbn [drive] in E.
  { destruct (mix hist); injection E as <- <- <- <-; (split; [exact OP|split; [intros d []|auto]]). }
  cbn [along] in AL. destruct (mix hist) as [d|] eqn:EM; [|injection E as <- <- <- <-; split; [exact OP|split; [intros d []|auto]]].
  pose proof (HX hist d HH EM) as FD. destruct AL as [HP AL]. cbn [fst] in HP. destruct (opposed_step a d OP FD HP) as (a1 & new & E1 & OP1 & FN).
  unfold dmft_call in E, AL. rewrite E1 in E, AL. destruct (Rltb _ _).
  { injection E as <- <- <- <-. split; [exact OP1|]. split; [intros y [<-|[]]; auto|auto]. }
  destruct (max_iter <? it + 1)%nat.
  { injection E as <- <- <- <-. split; [exact OP1|]. split; [intros y [<-|[]]; auto|auto]. }
  destruct (drive _ _ _ _ _ _ _ _ _ _) as [[[a2 it2] ev2] r2] eqn:E2. injection E as <- <- <- <-.
  apply IH in E2; [|intros x y [[= <- <-]|I]; [auto|apply HH; exact I]|exact OP1|exact AL]. destruct E2 as (B2 & V2 & R2). split; [exact B2|]. split; [|exact R2]. intros y [<-|I]; auto.
Qed.
(** ** The start *)
Theorem opposed_start u d l Sigma sign field : (3 <= n)%nat -> shaped n U u -> shaped n U d -> loc_ed l = Some ed -> facing_lattice (loc_kind l) ed ->
  (forall w, w <> 0 -> re (Sigma (0, w)) = c) ->
  (forall u0 d0 l0 dl, spin_initialize zs (u, d) l U Sigma (Some mu) = Ok ((u0, d0), l0, dl) -> wk2 (trial_H fitter (mu + sign * field - ed) u0 dl) (trial_H fitter (mu - sign * field - ed) u0 dl)) ->
  exists a new, initialize_magnetic fitter solver2 zs (u, d) l U Sigma sign field (Some mu) = Ok (fst a, snd a, new) /\ opposed n U mu ed hf a /\ facing_data (length zs) new.
Proof.
  intros H3 SU SD EE FL SV WK. destruct (start_ok n U Hn zs u d l Sigma (Some mu) ed SU SD EE) as (u0 & d0 & l0 & dl & EI & SU0 & SD0 & XE & EM & EE0 & LD & EI1). specialize (WK u0 d0 l0 dl EI).
  assert (BL : balanced_lattice (loc_kind l) ed).
  { unfold facing_lattice in FL. unfold balanced_lattice. destruct (loc_kind l) as [hy|h]; [exact FL|]. destruct FL as [E0 FL]. split; [exact E0|]. intros w. specialize (FL (0, w)).
    rewrite (over_axis (0, w)) in FL by reflexivity. apply (f_equal re) in FL. unfold over, reflect in FL. cbn [re fst] in FL. unfold re in *. cbn [fst] in FL. lra. }
  destruct (half_start hf n U Hn mu ed zs u l Sigma H3 HM FZ SU EE BL SV) as (u1 & l1 & d1 & E1 & B1 & _ & ID). rewrite EI1 in E1. injection E1 as <- <- <-.
  destruct B1 as ((_ & _ & _ & LX & _ & MX) & _).
  assert (LK : loc_kind l0 = loc_kind l).
  { unfold spin_initialize in EI. destruct (attr _); cbn [bind] in EI; [|discriminate]. destruct (spin_reset _); cbn [bind] in EI; [|discriminate]. destruct (loc_Delta_grid _ _ _); cbn [bind] in EI; [|discriminate]. injection EI as _ <- _. reflexivity. }
  assert (FL0 : facing_lattice (loc_kind l0) ed) by (rewrite LK; exact FL).
  destruct (FF (imp_x u0) dl LX LD) as [LF EF]. apply (mirror_fixed (n - 1) _ LX) in MX. fold (mirror (n - 1) (imp_x u0)) in MX. rewrite MX, (map_over_axis dl ID) in EF.
  assert (M1 : mu + sign * field - ed = c + sign * field) by lra. assert (M2 : mu - sign * field - ed = c - sign * field) by lra. unfold trial_H in WK. rewrite M1, M2 in WK.
  destruct (solve_opposed u0 u0 dl dl (sign * field) SU0 SU0 LF EF l0 mu ed EM EE0 FL0 WK) as (fu & fd & E & OP).
  assert (ST : magnetic_step fitter solver2 dl (u0, d0) l0 sign field = Ok ((set_gf (imp_fit_update fitter u0 dl (c + sign * field)) fu, set_gf (imp_fit_update fitter u0 dl (c - sign * field)) fd), loc_set_local l0 SImp)).
  { unfold magnetic_step. rewrite EM, EE0. cbn [attr bind]. rewrite <- M1, <- M2 in *. unfold spin_solve, magnetic_setup, spin_symmetrize. cbn [fst snd].
    destruct u0 as [nu xu hu Uu ou], d0 as [nd xd hd Ud od]. pose proof SU0 as (N1 & U1 & _). pose proof SD0 as (N2 & U2 & _). cbn [imp_n imp_U imp_x] in N1, U1, N2, U2, XE. subst nu Uu nd Ud xd.
    match goal with |- bind (bind ?b _) _ = _ => replace b with (Ok (fu, fd)) by (symmetry; exact E) end. reflexivity. }
  destruct (opposed_grid mu ed _ _ _ zs FZ OP HM) as (nu & GU & LN & GD).
  eexists _, (nu, map over nu). split; [|split; [exact OP|split; [exact LN|reflexivity]]].
  unfold initialize_magnetic. rewrite EI. cbn [bind]. rewrite ST. cbn [bind fst snd]. unfold spin_Delta_grid. cbn [fst snd].
  match goal with |- bind (bind ?b _) _ = _ => replace b with (Ok nu) by (symmetry; exact GU) end. cbn [bind].
  match goal with |- bind (bind ?b _) _ = _ => replace b with (Ok (map over nu)) by (symmetry; exact GD) end. reflexivity.
Qed.
End Loop.

(** ** Lattices, fits and mixing of this kind *)
Lemma bethe_facing csqrt : (forall w, cxmul (csqrt w) (csqrt w) = w) -> (forall w, 0 <= re (csqrt w)) -> facing_lattice (LHilbert (ht csqrt)) 0.
Proof.
  intros SQ PR. split; [reflexivity|]. intros z. unfold ht. change (CBase.im (over z)) with (CBase.im z). set (b := if Rltb 0 (CBase.im z) then CBase.im z else ht_eps).
  assert (B : 0 < b) by (unfold b; destruct (Rltb 0 (CBase.im z)) eqn:E; [now apply Rltb_spec in E|unfold ht_eps; apply Rdiv_lt_0_compat; [lra|apply pow_lt; lra]]).
  replace (re (over z)) with (- re z) by (unfold over, reflect; cbn; ring). set (a := re z). unfold _ht. cbn [CBase.im snd].
  set (w := cxsub (rcx 1) (cxmul (a, b) (a, b))). replace (cxsub (rcx 1) (cxmul (- a, b) (- a, b))) with (cxconj w) by (unfold w; apply cx_eq; cbn; ring).
  pose proof (SQ w) as Q. pose proof (PR w) as P. pose proof (SQ (cxconj w)) as Q'. pose proof (PR (cxconj w)) as P'. set (r := csqrt w) in *. set (r' := csqrt (cxconj w)) in *.
  assert (E : r' = cxconj r).
  { destruct r as [x y], r' as [x' y']. unfold w in Q, Q'. cbn in P, P'. pose proof (f_equal fst Q) as A1. pose proof (f_equal snd Q) as A2. pose proof (f_equal fst Q') as A3. pose proof (f_equal snd Q') as A4. cbn in A1, A2, A3, A4. clear Q Q' SQ PR.
    assert (X : 0 < x). { destruct (Rle_lt_or_eq_dec 0 x P) as [|Z]; [assumption|exfalso]. subst x. assert (AB : a * b = 0) by nra. assert (A0 : a = 0) by nra. subst a. rewrite A0 in *. nra. }
    assert (S1 : x * x - y * y = x' * x' - y' * y') by nra. assert (S2 : x * y = - (x' * y')) by nra.
    assert (D : (x * x - x' * x') * (x * x + y' * y') = 0). { assert (y * y = x * x - x' * x' + y' * y') by lra. assert (x * x * (y * y) = x' * x' * (y' * y')) by (replace (x * x * (y * y)) with (x * y * (x * y)) by ring; rewrite S2; ring). nra. }
    assert (XX : x * x = x' * x') by (apply Rmult_integral in D; destruct D; nra). assert (EX : x' = x) by nra. subst x'. unfold cxconj, re, CBase.im. cbn [fst snd]. f_equal. nra. }
  rewrite E. unfold rsign. rewrite (proj2 (Rltb_spec 0 b) B). unfold over, reflect. apply cx_eq; cbn; ring.
Qed.
Lemma hybrid_facing m x ed : length x = (2 * m)%nat -> mirror_symmetric m x -> facing_lattice (LHybrid (delta1 x)) ed.
Proof. exact (hybrid_balanced m x ed). Qed.
Lemma c_fit_facing fuel d0 n nm beta mem : length mem = nm -> (forall row, In row mem -> length row = (2 * (n - 1))%nat) ->
  facing_fit n nm (fun x d => match c_fit fuel d0 (n - 1) nm d beta mem x with Ok (x', _, _) => x' | Err _ => x end).
Proof.
  intros LM ROW x d LX LD. split.
  - destruct (c_fit _ _ _ _ _ _ _ _) as [[[x' it] v]|e] eqn:E; [|exact LX]. exact (proj1 (c_fit_descends fuel d0 (n - 1) nm d beta mem x x' it v LX LD E)).
  - unfold mirror. change over with (reflect (-1)). rewrite (fit_T (n - 1) (-1) (fun k => n - 1 - 1 - k)%nat (fun _ => 1) (or_intror eq_refl) (rev_renumbering (n - 1)) (fun _ _ => or_introl eq_refl) nm beta d LD fuel d0 mem mem x) by assumption.
    now destruct (c_fit _ _ _ _ _ _ _ _) as [[[x' it] v]|e].
Qed.
Lemma blend_facing a k old new : facing_data k old -> facing_data k new -> facing_data k (blend a (fst old) (fst new), blend a (snd old) (snd new)).
Proof.
  intros [L1 E1] [L2 E2]. split; cbn [fst snd]; [unfold blend; rewrite map_length, combine_length; lia|]. rewrite E1, E2. clear. destruct old as [o o'], new as [w w']. cbn [fst]. unfold blend.
  revert w. induction o as [|x o IH]; intros [|y w]; try reflexivity. cbn [map combine fst snd]. rewrite IH. f_equal. apply cx_eq; cbn; ring.
Qed.
