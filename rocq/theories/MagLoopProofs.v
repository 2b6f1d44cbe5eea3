(** Corresponding runs of the loop with two spins. *)
From Coq Require Import String Reals List Arith NArith ZArith Bool Lia Lra Ring.
From Verif Require Import Base RBase RLin CBase MatvecModel MbModel EspaceModel ExactSpec GflModel GflSpec FitModel FitSpec FitMoreProofs DmftModel DmftSpec DmftProofs SymSpec SiamModel PhsSpec PhsProofs PhsLoopProofs MagModel MagSpec MagProofs.
Import ListNotations.
Local Open Scope R_scope.

(** ** Two drivers that keep a relation *)
Section Sim.
Variables (S D S' D' : Type) (dstep : S -> D -> res (S * D)) (dstep' : S' -> D' -> res (S' * D')) (dist : D -> D -> R) (dist' : D' -> D' -> R) (tol : R) (max_iter : nat).
Variables (mix : list (D * D) -> option D) (mix' : list (D' * D') -> option D') (Rel : S -> S' -> Prop) (f : D -> D') (P : S -> D -> Prop).
Hypothesis STEP : forall s s' d, Rel s s' -> P s d -> exists t t' new, dstep s d = Ok (t, new) /\ dstep' s' (f d) = Ok (t', f new) /\ Rel t t'.
Hypothesis DIST : forall a b, dist' (f a) (f b) = dist a b.
Notation fh := (map (fun q : D * D => (f (fst q), f (snd q)))).
Hypothesis MIX : forall hist, mix' (fh hist) = option_map f (mix hist).
Lemma drive_sim fuel : forall hist s s' it, Rel s s' -> along dstep dist tol max_iter mix P fuel hist (s, it) ->
  exists t t' it2 ev r, drive S D dstep dist tol max_iter mix fuel hist (s, it) = ((t, it2), ev, r) /\
    drive S' D' dstep' dist' tol max_iter mix' fuel (fh hist) (s', it) = ((t', it2), map f ev, r) /\ Rel t t'.
Proof.
  induction fuel as [|fuel IH]; intros hist s s' it HR AL.
  - cbn [drive]. rewrite MIX. destruct (mix hist); cbn [option_map]; (eexists s, s', it, [], _; split; [reflexivity|]; split; [reflexivity|exact HR]).
  - cbn [along] in AL. cbn [drive]. rewrite MIX. destruct (mix hist) as [d|]; cbn [option_map]; [|eexists s, s', it, [], _; split; [reflexivity|]; split; [reflexivity|exact HR]].
    destruct AL as [HP AL]. cbn [fst] in HP. destruct (STEP s s' d HR HP) as (t & t' & new & E & E' & HR'). unfold dmft_call in *. rewrite E in AL. rewrite E, E', DIST. destruct (Rltb _ _).
    { eexists t, t', it, [d], _. split; [reflexivity|]. split; [reflexivity|exact HR']. }
    destruct (max_iter <? it + 1)%nat.
    { eexists t, t', (it + 1)%nat, [d], _. split; [reflexivity|]. split; [reflexivity|exact HR']. }
    destruct (IH ((d, new) :: hist) t t' (it + 1)%nat HR' AL) as (t2 & t2' & it2 & ev & r & D1 & D2 & HR2). rewrite D1. cbn [map fst snd] in D2. rewrite D2.
    eexists t2, t2', it2, (d :: ev), r. split; [reflexivity|]. split; [reflexivity|exact HR2].
Qed.
End Sim.

(** ** Twins *)
Lemma twin_refl g : twin g g.
Proof. repeat (split; [reflexivity|]). destruct (imp_gf g); [intros z _; reflexivity|exact I]. Qed.
Lemma twin_sym g g' : twin g g' -> twin g' g.
Proof. intros (A & B & C & D & E). repeat (split; [auto|]). destruct (imp_gf g), (imp_gf g'); auto. intros z Hz. symmetry. now apply E. Qed.
Lemma twin_shaped n U g g' : twin g g' -> shaped n U g -> shaped n U g'.
Proof. intros (A & B & C & D & _) (E1 & E2 & E3 & E4 & E5). split; [congruence|]. split; [congruence|]. split; [congruence|]. split; [congruence|]. now rewrite <- C. Qed.
Lemma twin_fit fitter g g' d m f f' : twin g g' -> alike f f' -> twin (set_gf (imp_fit_update fitter g d m) f) (set_gf (imp_fit_update fitter g' d m) f').
Proof.
  destruct g as [n x H U o], g' as [n' x' H' U' o']. intros (A & B & C & D & _) E. cbn [imp_n imp_x imp_H imp_U] in A, B, C, D. subst n' x' H' U'.
  repeat (split; [reflexivity|]). exact E.
Qed.
Lemma twin_trial fitter g g' d m : twin g g' -> trial_H fitter m g d = trial_H fitter m g' d.
Proof. destruct g as [n x H U o], g' as [n' x' H' U' o']. intros (A & B & C & D & _). cbn [imp_n imp_x imp_H imp_U] in A, B, C, D. subst n' x' H' U'. reflexivity. Qed.
Lemma twin_Sigma g g' z : twin g g' -> im z <> 0 -> imp_Sigma g z = imp_Sigma g' z.
Proof.
  intros (A & B & C & D & E) Hz. unfold imp_Sigma, imp_free_inv. rewrite B, C. destruct (imp_gf g), (imp_gf g'); try contradiction; [|reflexivity]. now rewrite (E z Hz).
Qed.
Lemma mapM_ext {A B} (f g : A -> res B) l : (forall a, In a l -> f a = g a) -> mapM f l = mapM g l.
Proof. induction l as [|a l IH]; intros H; [reflexivity|]. cbn [mapM]. rewrite (H a) by (left; reflexivity). rewrite IH; [reflexivity|]. intros b Hb. apply H. right. exact Hb. Qed.
Lemma twin_grid g g' l zs : twin g g' -> off_axis zs -> loc_Delta_grid g l zs = loc_Delta_grid g' l zs.
Proof.
  intros T OA. apply mapM_ext. intros z Hz. specialize (OA z Hz). assert (ES : forall s, eval_Sigma g s z = eval_Sigma g' s z) by (intros [f|]; [reflexivity|now apply twin_Sigma]).
  unfold loc_Delta, loc_Weiss, loc_call_inv, loc_call. destruct (attr (loc_mu l)); [cbn [bind]|reflexivity]. destruct (attr (loc_Sigma l)) as [s|]; cbn [bind]; [|reflexivity]. now rewrite ES.
Qed.
Lemma grid_total g l zs mu : loc_mu l = Some mu -> (exists s, loc_Sigma l = Some s /\ forall z, exists v, eval_Sigma g s z = Ok v) -> exists d, loc_Delta_grid g l zs = Ok d /\ length d = length zs.
Proof.
  intros EM (s & ES & EV). unfold loc_Delta_grid. induction zs as [|z zs (d & E & L)]; [exists []; auto|]. destruct (EV z) as (v & V).
  assert (Q : exists w, loc_Delta g l z = Ok w).
  { unfold loc_Delta, loc_Weiss, loc_call_inv, loc_call, loc_free_inv. rewrite EM, ES. cbn [attr bind]. destruct (loc_kind l); cbn [bind]; rewrite V; eexists; reflexivity. }
  destruct Q as (w & Q). exists (w :: d). cbn [mapM]. rewrite Q. cbn [bind]. rewrite E. split; [reflexivity|]. cbn. now rewrite L.
Qed.
Lemma solved_grid g l zs mu f : loc_mu l = Some mu -> exists d, loc_Delta_grid (set_gf g f) (loc_set_local l SImp) zs = Ok d /\ length d = length zs.
Proof. intros EM. apply (grid_total (set_gf g f) (loc_set_local l SImp) zs mu EM). exists SImp. split; [reflexivity|]. intros z. eexists. reflexivity. Qed.

Section Loop.
Variables (big : R -> bool) (half : R).
Variable eigh : dense RRing -> res (list R * list (list R)).
Variable eigsh : nat -> Z -> (list R -> res (list R)) -> res (list R * list (list R)).
Variable tridiag : (list R -> res (list R)) -> list R -> res (list R * list R).
Variable eight : list R -> list R -> res (list R * list (list R)).
Variables (fl : hflags) (hf : bool) (n : nat) (beta U : R) (fitter : list R -> list cx -> list R).
Hypothesis Hn : (2 <= n <= 32)%nat.
Hypothesis H2 : half + half = 1.
Hypothesis HC : eigh_contract eigh.
Hypothesis HW : GflSpec.eigh_sound eight.
Notation solver2 := (spin_solver big half eigh eigsh tridiag eight fl hf n beta None false).
Notation wk2 Hu Hd := (workable2 big half eigh eigsh tridiag fl hf n Hu Hd U).
Notation fitted g d := (length (fitter (imp_x g) d) = (2 * (n - 1))%nat).

Lemma trial_shaped g d m : shaped n U g -> fitted g d -> shaped n U (imp_fit_update fitter g d m) /\ symmetric n (trial_H fitter m g d).
Proof.
  clear - Hn. intros (N & EU & LH & LX & AR) LF. subst n. split; [|unfold trial_H; apply DmftProofs.fit_symmetric; auto; lia].
  split; [reflexivity|]. split; [exact EU|]. split; [unfold imp_fit_update, imp_update; cbn [imp_H set_H]; rewrite upd_tot_length, fit_H_length; exact LH|]. split; [exact LF|]. apply fit_arrow; auto; lia.
Qed.
Lemma exchange_solver Hu Hd : symmetric n Hu -> symmetric n Hd -> wk2 Hu Hd -> wk2 Hd Hu ->
  exists fu fd fu' fd', solver2 Hu Hd U = Ok (fu, fd) /\ solver2 Hd Hu U = Ok (fu', fd') /\ alike fu fd' /\ alike fd fu'.
Proof.
  intros SU SD W W'. destruct (spins_exchange big half fl hf n U Hn H2 eigh eigsh tridiag eight beta HC HW Hu Hd SU SD W W') as (gu & gd & sc & e & gu' & gd' & sc' & e' & E & E' & _ & V).
  exists (value_at gu), (value_at gd), (value_at gu'), (value_at gd'). unfold spin_solver. rewrite E, E'. split; [reflexivity|]. split; [reflexivity|]. split; intros z Hz; destruct (V z Hz) as [V1 V2]; auto.
Qed.

Variables (zs : list cx) (mu ed : R).
Hypothesis OA : off_axis zs.
(** ** Exchange of the spins *)
Notation mirrored := (MagSpec.mirrored n U mu ed).
Notation both_workable := (MagSpec.both_workable big half eigh eigsh tridiag fl hf n U fitter mu ed).
Theorem exchange_step a b delta : mirrored a b -> both_workable a delta ->
  exists a' b' new, spin_step fitter solver2 zs a delta = Ok (a', new) /\ spin_step fitter solver2 zs b (swap delta) = Ok (b', swap new) /\ mirrored a' b'.
Proof.
  destruct a as [[u d] l], b as [[u' d'] l'], delta as [du dd]. intros (T1 & T2 & EL & SU & SD & EM & EE) (F1 & F2 & W & W'). cbn [fst snd] in *. subst l'.
  destruct (trial_shaped u du (mu - ed) SU F1) as [SU1 SYu]. destruct (trial_shaped d dd (mu - ed) SD F2) as [SD1 SYd].
  destruct (exchange_solver _ _ SYu SYd W W') as (fu & fd & fu' & fd' & E & E' & A1 & A2).
  pose proof (proj1 (proj2 SU)) as EU. pose proof (proj1 (proj2 SD)) as ED.
  assert (EU' : imp_U u' = U) by (destruct T2 as (_ & _ & _ & Q & _); congruence).
  set (u1 := set_gf (imp_fit_update fitter u du (mu - ed)) fu). set (d1 := set_gf (imp_fit_update fitter d dd (mu - ed)) fd).
  set (u1' := set_gf (imp_fit_update fitter u' dd (mu - ed)) fu'). set (d1' := set_gf (imp_fit_update fitter d' du (mu - ed)) fd').
  assert (T1' : twin u1 d1') by (apply twin_fit; assumption). assert (T2' : twin d1 u1') by (apply twin_fit; assumption).
  destruct (solved_grid (imp_fit_update fitter u du (mu - ed)) l zs mu fu EM) as (nu & GU & _). destruct (solved_grid (imp_fit_update fitter d dd (mu - ed)) l zs mu fd EM) as (nd & GD & _).
  assert (B1 : spin_dmft_step fitter solver2 (du, dd) (u, d) l = Ok ((u1, d1), loc_set_local l SImp)).
  { unfold spin_dmft_step. rewrite EM, EE. cbn [attr bind]. unfold spin_solve, spin_update, spin_fit. cbn [fst snd imp_update set_H imp_H imp_U imp_fit set_x]. rewrite EU.
    match goal with |- bind (bind ?b _) _ = _ => replace b with (Ok (fu, fd)) by (symmetry; exact E) end. reflexivity. }
  assert (B2 : spin_dmft_step fitter solver2 (dd, du) (u', d') l = Ok ((u1', d1'), loc_set_local l SImp)).
  { unfold spin_dmft_step. rewrite EM, EE. cbn [attr bind]. unfold spin_solve, spin_update, spin_fit. cbn [fst snd imp_update set_H imp_H imp_U imp_fit set_x]. rewrite EU'.
    rewrite (twin_trial fitter u d' du (mu - ed) T1), (twin_trial fitter d u' dd (mu - ed) T2) in E'.
    match goal with |- bind (bind ?b _) _ = _ => replace b with (Ok (fu', fd')) by (symmetry; exact E') end. reflexivity. }
  exists ((u1, d1), loc_set_local l SImp), ((u1', d1'), loc_set_local l SImp), (nu, nd). split; [|split].
  - unfold spin_step. cbn [fst snd]. rewrite B1. cbn [bind fst snd]. unfold spin_Delta_grid. cbn [fst snd]. unfold u1, d1. rewrite GU. cbn [bind]. rewrite GD. reflexivity.
  - unfold spin_step, swap. cbn [fst snd]. rewrite B2. cbn [bind fst snd]. unfold spin_Delta_grid. cbn [fst snd]. rewrite <- (twin_grid _ _ _ zs T2' OA), <- (twin_grid _ _ _ zs T1' OA). unfold u1, d1. rewrite GD. cbn [bind]. rewrite GU. reflexivity.
  - split; [exact T1'|]. split; [exact T2'|]. split; [reflexivity|]. split; [exact SU1|]. split; [exact SD1|]. split; [exact EM|exact EE].
Qed.
Theorem exchange_loop dist dist' tol max_iter mix mix' fuel a b it :
  (forall x y, dist' (swap x) (swap y) = dist x y) -> (forall hist, mix' (map (fun q : both * both => (swap (fst q), swap (snd q))) hist) = option_map swap (mix hist)) ->
  mirrored a b -> along (spin_step fitter solver2 zs) dist tol max_iter mix both_workable fuel [] (a, it) ->
  exists a' b' it' ev r, drive _ _ (spin_step fitter solver2 zs) dist tol max_iter mix fuel [] (a, it) = ((a', it'), ev, r) /\
    drive _ _ (spin_step fitter solver2 zs) dist' tol max_iter mix' fuel [] (b, it) = ((b', it'), map swap ev, r) /\ mirrored a' b'.
Proof. intros HD HM HR AL. exact (drive_sim _ _ _ _ _ _ dist dist' tol max_iter mix mix' mirrored swap both_workable exchange_step HD HM fuel [] a b it HR AL). Qed.

(** ** No field *)
Notation solver s := (impurity_solver big half eigh eigsh tridiag eight fl hf n beta (Z.of_nat s) None false).
Notation doubled := (MagSpec.doubled n U mu ed).
Notation one_workable := (MagSpec.one_workable big half eigh eigsh tridiag fl hf n U fitter mu ed).
Lemma equal_solver s H : (s <= 1)%nat -> symmetric n H -> workable big half eigh eigsh tridiag fl hf n s H U -> wk2 H H ->
  exists f fu fd, solver s H U = Ok f /\ solver2 H H U = Ok (fu, fd) /\ alike f fu /\ alike f fd.
Proof.
  intros Hs SY W W2. destruct (spins_equal big half fl hf n U Hn H2 eigh eigsh tridiag eight beta HC HW H s Hs SY W2 W) as (gu & gd & sc & e & g & sc' & e' & E & E' & V).
  exists (value_at g), (value_at gu), (value_at gd). unfold spin_solver, impurity_solver. rewrite E, E'. split; [reflexivity|]. split; [reflexivity|]. split; intros z Hz; destruct (V z Hz) as [V1 V2]; auto.
Qed.
Theorem double_step s a b delta : (s <= 1)%nat -> doubled a b -> one_workable s a delta ->
  exists a' b' new, step fitter (solver s) zs a delta = Ok (a', new) /\ spin_step fitter solver2 zs b (twice delta) = Ok (b', twice new) /\ doubled a' b'.
Proof.
  intros Hs. destruct a as [g l], b as [[u d] l']. intros (T1 & T2 & EL & SG & EM & EE) (F & W & W2). cbn [fst snd] in *. subst l'.
  destruct (trial_shaped g delta (mu - ed) SG F) as [SG1 SY]. destruct (equal_solver s _ Hs SY W W2) as (f & fu & fd & E & E' & A1 & A2).
  pose proof (proj1 (proj2 SG)) as EU. assert (EU' : imp_U u = U) by (destruct T1 as (_ & _ & _ & Q & _); congruence).
  set (g1 := set_gf (imp_fit_update fitter g delta (mu - ed)) f). set (u1 := set_gf (imp_fit_update fitter u delta (mu - ed)) fu). set (d1 := set_gf (imp_fit_update fitter d delta (mu - ed)) fd).
  assert (T1' : twin g1 u1) by (apply twin_fit; assumption). assert (T2' : twin g1 d1) by (apply twin_fit; assumption).
  destruct (solved_grid (imp_fit_update fitter g delta (mu - ed)) l zs mu f EM) as (nu & GU & _).
  exists (g1, loc_set_local l SImp), ((u1, d1), loc_set_local l SImp), nu. split; [|split].
  - unfold step, dmft_step. cbn [fst snd]. rewrite EM, EE. cbn [attr bind]. unfold imp_solve. fold (imp_fit_update fitter g delta (mu - ed)). change (imp_U (imp_fit_update fitter g delta (mu - ed))) with (imp_U g). rewrite EU.
    match goal with |- bind (bind (bind ?b _) _) _ = _ => replace b with (Ok f) by (symmetry; exact E) end. cbn [bind fst snd]. rewrite GU. reflexivity.
  - unfold spin_step, spin_dmft_step, twice. cbn [fst snd]. rewrite EM, EE. cbn [attr bind]. unfold spin_solve, spin_update, spin_fit. cbn [fst snd imp_update set_H imp_H imp_U imp_fit set_x]. rewrite EU'.
    pose proof E' as E2. rewrite (twin_trial fitter g u delta (mu - ed) T1) in E2 at 1. rewrite (twin_trial fitter g d delta (mu - ed) T2) in E2.
    match goal with |- bind (bind (bind ?b _) _) _ = _ => replace b with (Ok (fu, fd)) by (symmetry; exact E2) end. cbn [bind fst snd]. unfold spin_Delta_grid. cbn [fst snd].
    pose proof (twin_grid _ _ (loc_set_local l SImp) zs T1' OA) as Q1. pose proof (twin_grid _ _ (loc_set_local l SImp) zs T2' OA) as Q2. unfold g1 in Q1, Q2. rewrite GU in Q1, Q2.
    match goal with |- bind (bind ?b _) _ = _ => replace b with (Ok nu) by exact Q1 end. cbn [bind]. match goal with |- bind (bind ?b _) _ = _ => replace b with (Ok nu) by exact Q2 end. reflexivity.
  - split; [exact T1'|]. split; [exact T2'|]. split; [reflexivity|]. split; [exact SG1|]. split; [exact EM|exact EE].
Qed.
Theorem double_loop s dist dist' tol max_iter mix mix' fuel a b it : (s <= 1)%nat ->
  (forall x y, dist' (twice x) (twice y) = dist x y) -> (forall hist, mix' (map (fun q : list cx * list cx => (twice (fst q), twice (snd q))) hist) = option_map twice (mix hist)) ->
  doubled a b -> along (step fitter (solver s) zs) dist tol max_iter mix (one_workable s) fuel [] (a, it) ->
  exists a' b' it' ev r, drive _ _ (step fitter (solver s) zs) dist tol max_iter mix fuel [] (a, it) = ((a', it'), ev, r) /\
    drive _ _ (spin_step fitter solver2 zs) dist' tol max_iter mix' fuel [] (b, it) = ((b', it'), map twice ev, r) /\ doubled a' b'.
Proof. intros Hs HD HM HR AL. exact (drive_sim _ _ _ _ _ _ dist dist' tol max_iter mix mix' doubled twice (one_workable s) (fun a b d => double_step s a b d Hs) HD HM fuel [] a b it HR AL). Qed.
End Loop.
