From Coq Require Import Reals List Arith ZArith Bool Lia Lra Psatz.
From Verif Require Import Base RBase RLin CBase MatvecModel EspaceModel FitModel FitSpec FitProofs FitMoreProofs DmftModel DmftSpec.
Import ListNotations.
Local Open Scope R_scope.

(** ** The driver *)
Section Driver.
Variables (S D : Type) (dstep : S -> D -> res (S * D)) (dist : D -> D -> R) (tol : R) (max_iter : nat).
Hypothesis own : forall s d e, dstep s d = Err e -> e <> ConvergedExc /\ e <> FailedToConvergeExc /\ e <> OutOfFuel.
Notation call := (dmft_call S D dstep dist tol max_iter).
Notation run := (drive S D dstep dist tol max_iter).

Definition outcome (s : S) (it it' : nat) (ev : list D) (r : res unit) : Prop :=
  exists es, all_above tol es /\
  match r with
  | Ok _ => replay S D dstep dist s ev = map Some es /\ it' = (it + length ev)%nat
  | Err ConvergedExc => exists e, replay S D dstep dist s ev = map Some es ++ [Some e] /\ e < tol /\ it' = (it + length es)%nat
  | Err FailedToConvergeExc => replay S D dstep dist s ev = map Some es /\ length ev = Nat.max 1 (max_iter + 1 - it) /\ it' = (it + length ev)%nat
  | Err OutOfFuel => False
  | Err _ => replay S D dstep dist s ev = map Some es ++ [None] /\ it' = (it + length es)%nat
  end.
Lemma drive_ok mix : forall fuel hist s it s' it' ev r, (Nat.max 1 (max_iter + 1 - it) <= fuel)%nat ->
  run mix fuel hist (s, it) = ((s', it'), ev, r) -> (length ev <= Nat.max 1 (max_iter + 1 - it))%nat /\ outcome s it it' ev r.
Proof.
  induction fuel as [|fuel IH]; intros hist s it s' it' ev r HF E; [lia|]. cbn [drive] in E.
  assert (A0 : all_above tol []) by (intros e []).
  destruct (mix hist) as [d|].
  2:{ injection E as <- <- <- <-. split; [cbn [length]; lia|]. exists []. split; [exact A0|]. cbn. split; [reflexivity|lia]. }
  unfold dmft_call in E. destruct (dstep s d) as [[s1 new]|e] eqn:ST.
  - unfold Rltb in E. destruct (Rlt_dec (dist new d) tol) as [Lt|Ge].
    + injection E as <- <- <- <-. split; [cbn [length]; lia|]. exists []. split; [exact A0|]. exists (dist new d). cbn [replay map app]. rewrite ST. split; [reflexivity|]. split; [exact Lt|cbn [length]; lia].
    + assert (A1 : forall es, all_above tol es -> all_above tol (dist new d :: es)).
      { intros es Q e [<-|I]; [lra|now apply Q]. }
      destruct (Nat.ltb_spec max_iter (it + 1)) as [Q|Q].
      * injection E as <- <- <- <-. split; [cbn [length]; lia|]. exists [dist new d]. split; [now apply A1|]. cbn [replay map app]. rewrite ST. split; [reflexivity|]. split; cbn [length]; lia.
      * destruct (run mix fuel ((d, new) :: hist) (s1, (it + 1)%nat)) as [[[s2 it2] ev2] r2] eqn:E2. injection E as <- <- <- <-.
        apply IH in E2; [|lia]. destruct E2 as (L & es & AB & M). split; [cbn [length]; lia|]. exists (dist new d :: es). split; [now apply A1|].
        destruct r2 as [u|[]]; cbn [replay]; try rewrite ST; try (destruct M as (M1 & M2); rewrite M1; split; [reflexivity|cbn [length]; lia]).
        -- destruct M as (e & M1 & M2 & M3). exists e. rewrite M1. split; [reflexivity|]. split; [exact M2|cbn [length]; lia].
        -- exact M.
  - injection E as <- <- <- <-. split; [cbn [length]; lia|]. exists []. split; [exact A0|]. destruct (own _ _ _ ST) as (N1 & N2 & N3).
    destruct e; try contradiction; cbn [replay]; rewrite ST; (split; [reflexivity|cbn [length]; lia]).
Qed.
End Driver.

Theorem driver (S D : Type) (dstep : S -> D -> res (S * D)) (dist : D -> D -> R) (tol : R) (max_iter : nat)
  (mix : list (D * D) -> option D) (fuel it : nat) (s s' : S) (it' : nat) (ev : list D) (r : res unit) :
  (forall s d e, dstep s d = Err e -> e <> ConvergedExc /\ e <> FailedToConvergeExc /\ e <> OutOfFuel) ->
  (Nat.max 1 (max_iter + 1 - it) <= fuel)%nat ->
  drive S D dstep dist tol max_iter mix fuel [] (s, it) = ((s', it'), ev, r) ->
  (length ev <= Nat.max 1 (max_iter + 1 - it))%nat /\
  exists es, all_above tol es /\
  match r with
  | Ok _ => replay S D dstep dist s ev = map Some es /\ it' = (it + length ev)%nat
  | Err ConvergedExc => exists e, replay S D dstep dist s ev = map Some es ++ [Some e] /\ e < tol /\ it' = (it + length es)%nat
  | Err FailedToConvergeExc => replay S D dstep dist s ev = map Some es /\ length ev = Nat.max 1 (max_iter + 1 - it) /\ it' = (it + length ev)%nat
  | Err OutOfFuel => False
  | Err _ => replay S D dstep dist s ev = map Some es ++ [None] /\ it' = (it + length es)%nat
  end.
Proof. intros OWN HF E. exact (drive_ok S D dstep dist tol max_iter OWN mix fuel [] s it s' it' ev r HF E). Qed.

(** The result does not depend on how much fuel is given beyond the bound. *)
Theorem driver_fuel (S D : Type) (dstep : S -> D -> res (S * D)) (dist : D -> D -> R) (tol : R) (max_iter : nat)
  (mix : list (D * D) -> option D) : forall (f1 f2 it : nat) (s : S) hist,
  (Nat.max 1 (max_iter + 1 - it) <= f1)%nat -> (Nat.max 1 (max_iter + 1 - it) <= f2)%nat ->
  drive S D dstep dist tol max_iter mix f1 hist (s, it) = drive S D dstep dist tol max_iter mix f2 hist (s, it).
Proof.
  induction f1 as [|f1 IH]; intros f2 it s hist H1 H2; [lia|]. destruct f2 as [|f2]; [lia|]. cbn [drive]. destruct (mix hist) as [d|]; [|reflexivity].
  unfold dmft_call. destruct (dstep s d) as [[s1 new]|e]; [|reflexivity]. destruct (Rltb (dist new d) tol); [reflexivity|].
  destruct (Nat.ltb_spec max_iter (it + 1)); [reflexivity|]. rewrite (IH f2) by lia. reflexivity.
Qed.

(** ** Complex field *)
Lemma ok_inj {A} (a b : A) : Ok a = Ok b -> a = b.
Proof. congruence. Qed.
Lemma cx_nz_inv x : x <> rcx 0 -> cxmul (cxinv x) x = rcx 1.
Proof. intros H. apply (Finv_l cx_field). exact H. Qed.
Add Field cxfield : cx_field.
Lemma cxinv_nz x : x <> rcx 0 -> cxinv x <> rcx 0.
Proof.
  intros H E. pose proof (cx_nz_inv x H) as Q. rewrite E in Q. apply (f_equal re) in Q. unfold cxmul, rcx, re, im in Q. simpl in Q. lra.
Qed.
Lemma cxinv_inv x : x <> rcx 0 -> cxinv (cxinv x) = x.
Proof.
  intros H. pose proof (cxinv_nz x H) as N. pose proof (cx_nz_inv x H) as A. pose proof (cx_nz_inv (cxinv x) N) as B.
  transitivity (cxmul (cxinv (cxinv x)) (cxmul (cxinv x) x)); [rewrite A; ring|]. transitivity (cxmul (cxmul (cxinv (cxinv x)) (cxinv x)) x); [ring|]. rewrite B. ring.
Qed.
Lemma cxinv_0 : cxinv (rcx 0) = rcx 0.
Proof. apply cx_eq; unfold cxinv, cxn2, rcx, re, im; simpl; unfold Rdiv; ring. Qed.

(** ** Identities of the local function *)
Theorem loc_delta_weiss (g : gfimp) (l : gfloc) (z d : cx) : loc_Delta g l z = Ok d ->
  exists mu s G, loc_mu l = Some mu /\ (exists sl, loc_Sigma l = Some sl /\ eval_Sigma g sl z = Ok s) /\
  loc_Weiss g l z = Ok (cxsub (cxadd z (rcx mu)) d) /\ loc_call g l z = Ok G /\
  (G <> rcx 0 -> d = cxsub (cxsub (cxadd z (rcx mu)) s) (cxinv G)).
Proof.
  unfold loc_Delta, loc_Weiss, loc_call_inv, loc_call, loc_free_inv. intros E.
  destruct (loc_mu l) as [mu|]; [|discriminate]. cbn [attr bind] in *. destruct (loc_Sigma l) as [sl|]; [|destruct (loc_kind l); discriminate].
  cbn [attr bind] in *. destruct (eval_Sigma g sl z) as [s|e] eqn:ES; [|destruct (loc_kind l); discriminate]. cbn [bind] in *.
  destruct (loc_kind l) as [hy|h]; cbn [bind] in *; injection E as <-.
  - exists mu, s, (cxinv (cxsub (cxsub (cxadd z (rcx mu)) (hy z)) s)). split; [reflexivity|]. split; [exists sl; now split|]. split; [f_equal; ring|]. split; [reflexivity|].
    intros N. rewrite cxinv_inv; [ring|]. intros Q. apply N. rewrite Q. apply cxinv_0.
  - exists mu, s, (h (cxsub (cxadd z (rcx mu)) s)). split; [reflexivity|]. split; [exists sl; now split|]. split; [f_equal; ring|]. split; [reflexivity|].
    intros N. ring.
Qed.
(** A lattice given by its hybridisation returns it, whatever the self-energy. *)
Theorem loc_delta_hybrid (g : gfimp) (l : gfloc) (hy : cx -> cx) (z d : cx) : loc_kind l = LHybrid hy -> loc_Delta g l z = Ok d -> d = hy z.
Proof.
  intros K E. unfold loc_Delta, loc_Weiss, loc_call_inv, loc_free_inv in E. rewrite K in E.
  destruct (loc_mu l) as [mu|]; [|discriminate]. cbn [attr bind] in *. destruct (loc_Sigma l) as [sl|]; [|discriminate].
  cbn [attr bind] in *. destruct (eval_Sigma g sl z) as [s|e]; [|discriminate]. cbn [bind] in *. injection E as <-. ring.
Qed.
(** The impurity function is the interacting one. *)
Theorem imp_call_gf (g : gfimp) (gf : cx -> cx) (z : cx) : imp_gf g = Some gf -> gf z <> rcx 0 -> imp_call g z = Ok (gf z).
Proof.
  intros G N. unfold imp_call, imp_Sigma. rewrite G. cbn [bind]. f_equal. unfold imp_free_inv.
  replace (cxsub _ (cxsub _ (cxinv (gf z)))) with (cxinv (gf z)) by ring. now apply cxinv_inv.
Qed.
Theorem imp_dyson (g : gfimp) (gf : cx -> cx) (z s : cx) : imp_gf g = Some gf -> imp_Sigma g z = Ok s -> gf z <> rcx 0 -> imp_free g z <> rcx 0 ->
  gf z = cxinv (cxsub (cxinv (imp_free g z)) s).
Proof.
  intros G E N F. unfold imp_Sigma in E. rewrite G in E. injection E as <-. unfold imp_free in *.
  rewrite cxinv_inv.
  - replace (cxsub _ (cxsub _ _)) with (cxinv (gf z)) by ring. now rewrite cxinv_inv.
  - intros Q. apply F. rewrite Q. apply cxinv_0.
Qed.

(** ** Fixed points of the step *)
Section Step.
Variable fitter : list R -> list cx -> list R.
Variable solver : list R -> R -> res (cx -> cx).
Lemma upd_nth0 (H : list R) x : H <> [] -> nth 0 (upd_tot H 0 x) 0 = x.
Proof. destruct H; [congruence|reflexivity]. Qed.
Lemma put_length v : forall H i0 s, length (put H i0 s v) = length H.
Proof.
  intros H i0 s. unfold put. generalize (seq 0 (length v)). intros l. revert H. induction l as [|k l IH]; intros H; [reflexivity|]. cbn [fold_left]. rewrite IH. apply upd_tot_length.
Qed.
Lemma fit_H_length g delta : length (imp_H (imp_fit fitter g delta)) = length (imp_H g).
Proof. unfold imp_fit. cbn [imp_H set_H]. now rewrite !put_length. Qed.

Theorem step_fixed_point (g : gfimp) (l : gfloc) (delta : list cx) (g' : gfimp) (l' : gfloc) (mu ed : R) (z Gi Gl : cx) :
  imp_H g <> [] -> loc_mu l = Some mu -> loc_ed l = Some ed ->
  dmft_step fitter solver delta g l = Ok (g', l') ->
  loc_Delta g' l' z = Ok (delta1 (imp_x g') z) ->
  imp_call g' z = Ok Gi -> loc_call g' l' z = Ok Gl -> Gl <> rcx 0 ->
  Gi = cxinv (cxsub (cxinv Gl) (rcx ed)).
Proof.
  intros NE HM HE ST FX CI CL NZ. unfold dmft_step in ST. rewrite HM, HE in ST. cbn [attr bind] in ST.
  destruct (imp_solve solver _) as [g1|e] eqn:SO; [|discriminate]. cbn [bind] in ST. injection ST as <- <-.
  unfold imp_solve in SO. destruct (solver _ _) as [f|e]; [|discriminate]. cbn [bind] in SO. injection SO as <-.
  set (gg := set_gf (imp_update (imp_fit fitter g delta) (mu - ed)) f) in *.
  assert (H0 : nth 0 (imp_H gg) 0 = - (mu - ed)).
  { unfold gg. cbn [imp_H set_gf imp_update set_H]. apply upd_nth0. intros Q. apply (f_equal (@length R)) in Q. change (length (imp_H (imp_fit fitter g delta)) = 0%nat) in Q. rewrite fit_H_length in Q. destruct (imp_H g); [congruence|discriminate]. }
  assert (SG : exists s, imp_Sigma gg z = Ok s) by (unfold imp_Sigma, gg; cbn; eexists; reflexivity).
  destruct SG as [s SG].
  destruct (loc_delta_weiss _ _ _ _ FX) as (mu' & s' & G & E1 & (sl & E2 & E3) & _ & E4 & E5).
  cbn in E1, E2. rewrite HM in E1. injection E1 as <-. injection E2 as <-. cbn [eval_Sigma] in E3. rewrite SG in E3. injection E3 as <-.
  rewrite CL in E4. injection E4 as <-. specialize (E5 NZ).
  unfold imp_call in CI. rewrite SG in CI. cbn [bind] in CI. apply ok_inj in CI. subst Gi. f_equal. rewrite H0, E5.
  replace (rcx (- (mu - ed))) with (cxsub (rcx ed) (rcx mu)) by (apply cx_eq; simpl; ring). ring.
Qed.
(** With [-ed] in the hybridisation (as in nano_dmft) both functions agree. *)
Theorem step_fixed_point_nano (g : gfimp) (l : gfloc) (delta : list cx) (g' : gfimp) (l' : gfloc) (mu ed : R) (z Gi Gl : cx) :
  imp_H g <> [] -> loc_mu l = Some mu -> loc_ed l = Some ed ->
  dmft_step fitter solver delta g l = Ok (g', l') ->
  nano_Delta g' l' z = Ok (delta1 (imp_x g') z) ->
  imp_call g' z = Ok Gi -> loc_call g' l' z = Ok Gl -> Gl <> rcx 0 -> Gi = Gl.
Proof.
  intros NE HM HE ST FX CI CL NZ.
  assert (EX : exists d, loc_Delta g' l' z = Ok d /\ delta1 (imp_x g') z = cxsub d (rcx ed)).
  { unfold dmft_step in ST. rewrite HM, HE in ST. cbn [attr bind] in ST. destruct (imp_solve solver _) as [g1|e]; [|discriminate]. cbn [bind] in ST. injection ST as <- <-.
    unfold nano_Delta in FX. unfold loc_Delta. cbn [loc_mu loc_ed loc_set_local] in *. rewrite HM, HE in FX. rewrite HM. cbn [attr bind] in *.
    destruct (loc_Weiss _ _ z) as [w|e]; [|discriminate]. cbn [bind] in *. injection FX as <-. eexists. split; [reflexivity|]. ring. }
  destruct EX as (d & DE & X).
  unfold dmft_step in ST. rewrite HM, HE in ST. cbn [attr bind] in ST.
  destruct (imp_solve solver _) as [g1|e] eqn:SO; [|discriminate]. cbn [bind] in ST. injection ST as <- <-.
  unfold imp_solve in SO. destruct (solver _ _) as [f|e]; [|discriminate]. cbn [bind] in SO. injection SO as <-.
  set (gg := set_gf (imp_update (imp_fit fitter g delta) (mu - ed)) f) in *.
  assert (H0 : nth 0 (imp_H gg) 0 = - (mu - ed)).
  { unfold gg. cbn [imp_H set_gf imp_update set_H]. apply upd_nth0. intros Q. apply (f_equal (@length R)) in Q. change (length (imp_H (imp_fit fitter g delta)) = 0%nat) in Q. rewrite fit_H_length in Q. destruct (imp_H g); [congruence|discriminate]. }
  assert (SG : exists s, imp_Sigma gg z = Ok s) by (unfold imp_Sigma, gg; cbn; eexists; reflexivity).
  destruct SG as [s SG].
  destruct (loc_delta_weiss _ _ _ _ DE) as (mu' & s' & G & E1 & (sl & E2 & E3) & _ & E4 & E5).
  cbn in E1, E2. rewrite HM in E1. injection E1 as <-. injection E2 as <-. cbn [eval_Sigma] in E3. rewrite SG in E3. injection E3 as <-.
  rewrite CL in E4. injection E4 as <-. specialize (E5 NZ).
  unfold imp_call in CI. rewrite SG in CI. cbn [bind] in CI. apply ok_inj in CI. subst Gi. rewrite H0, X, E5.
  rewrite <- (cxinv_inv Gl NZ) at 2. f_equal.
  replace (rcx (- (mu - ed))) with (cxsub (rcx ed) (rcx mu)) by (apply cx_eq; simpl; ring). ring.
Qed.
(** Without [ed] nothing runs. *)
Theorem no_ed (zs : list cx) (g : gfimp) (l : gfloc) (delta : list cx) (U : R) (s : selfe) (mu : option R) :
  loc_ed l = None ->
  dmft_step fitter solver delta g l = Err AttributeError /\ step fitter solver zs (g, l) delta = Err AttributeError /\
  initialize zs g l U s mu = Err AttributeError.
Proof.
  intros HE. assert (A : dmft_step fitter solver delta g l = Err AttributeError).
  { unfold dmft_step. destruct (loc_mu l); cbn [attr bind]; rewrite ?HE; reflexivity. }
  split; [exact A|]. split; [unfold step; cbn [fst snd]; rewrite A; reflexivity|].
  unfold initialize. cbn [loc_ed loc_update loc_set_local]. rewrite HE. reflexivity.
Qed.
End Step.

(** ** The impurity Hamiltonian *)
Lemma put_spec v : forall H i0 s, (1 <= s)%nat -> (i0 + s * length v < length H + s)%nat ->
  (forall k, (k < length v)%nat -> nth (i0 + s * k) (put H i0 s v) 0 = nth k v 0) /\
  (forall j, (forall k, (k < length v)%nat -> j <> (i0 + s * k)%nat) -> nth j (put H i0 s v) 0 = nth j H 0).
Proof.
  intros H i0 s Hs HL.
  assert (G : forall q, (q <= length v)%nat -> let P := fold_left (fun H k => upd_tot H (i0 + s * k) (nth k v 0)) (seq 0 q) H in
    length P = length H /\ (forall k, (k < q)%nat -> nth (i0 + s * k) P 0 = nth k v 0) /\ (forall j, (forall k, (k < q)%nat -> j <> (i0 + s * k)%nat) -> nth j P 0 = nth j H 0)).
  { induction q as [|q IH]; intros Hq; cbn zeta; [split; [reflexivity|]; split; [intros k Hk; lia|reflexivity]|].
    destruct (IH ltac:(lia)) as (A & B & C). rewrite seq_S, fold_left_app. cbn [fold_left Nat.add]. cbn zeta in *.
    assert (HQ : (i0 + s * q < length H)%nat) by nia. split; [now rewrite upd_tot_length|]. split.
    - intros k Hk. rewrite nth_upd_tot by (rewrite A; exact HQ). destruct (Nat.eqb_spec (i0 + s * q) (i0 + s * k)) as [E|NE].
      + assert (q = k) as -> by nia. reflexivity.
      + apply B. assert (k <> q) by (intros ->; lia). lia.
    - intros j Hj. rewrite nth_upd_tot by (rewrite A; exact HQ). destruct (Nat.eqb_spec (i0 + s * q) j) as [E|NE]; [exfalso; apply (Hj q); lia|].
      apply C. intros k Hk. apply Hj. lia. }
  destruct (G (length v) ltac:(lia)) as (_ & B & C). split; [exact B|exact C].
Qed.
Section Arrow.
Variable fitter : list R -> list cx -> list R.
Variables (g : gfimp) (delta : list cx) (mu : R).
Let n := imp_n g.
Hypothesis Hn : (1 <= n)%nat.
Hypothesis HH : length (imp_H g) = (n * n)%nat.
Let x := fitter (imp_x g) delta.
Hypothesis HX : length x = (2 * (n - 1))%nat.
Let g' := imp_fit_update fitter g delta mu.
Lemma fit_entries i j : (i < n)%nat -> (j < n)%nat ->
  ent n (imp_H g') i j = if (i =? 0)%nat then (if (j =? 0)%nat then - mu else nth (n - 1 + (j - 1)) x 0)
    else if (j =? 0)%nat then nth (n - 1 + (i - 1)) x 0 else if (i =? j)%nat then nth (i - 1) x 0 else ent n (imp_H g) i j.
Proof.
  intros Hi Hj. unfold g', imp_fit_update, imp_update, imp_fit. cbn [imp_H set_H set_x imp_x imp_n]. fold n. fold x. unfold ent.
  set (ek := firstn (n - 1) x). set (vk := skipn (n - 1) x).
  assert (LE : length ek = (n - 1)%nat) by (unfold ek; rewrite firstn_length; lia).
  assert (LV : length vk = (n - 1)%nat) by (unfold vk; rewrite skipn_length; lia).
  assert (VE : forall k, (k < n - 1)%nat -> nth k ek 0 = nth k x 0) by (intros k Hk; apply nth_firstn'; lia).
  assert (VV : forall k, nth k vk 0 = nth (n - 1 + k) x 0) by (intros k; apply nth_skipn').
  set (H1 := put (imp_H g) n n vk). set (H2 := put H1 1 1 vk). set (H3 := put H2 (n + 1) (n + 1) ek).
  assert (L1 : length H1 = (n * n)%nat) by (unfold H1; now rewrite put_length).
  assert (L2 : length H2 = (n * n)%nat) by (unfold H2; now rewrite put_length).
  assert (L3 : length H3 = (n * n)%nat) by (unfold H3; now rewrite put_length).
  destruct (put_spec vk (imp_H g) n n Hn ltac:(nia)) as [A1 B1]. fold H1 in A1, B1.
  destruct (put_spec vk H1 1 1 ltac:(lia) ltac:(nia)) as [A2 B2]. fold H2 in A2, B2.
  destruct (put_spec ek H2 (n + 1) (n + 1) ltac:(lia) ltac:(nia)) as [A3 B3]. fold H3 in A3, B3.
  rewrite nth_upd_tot by nia.
  destruct (Nat.eqb_spec i 0) as [->|Ni].
  - destruct (Nat.eqb_spec j 0) as [->|Nj]; [destruct (Nat.eqb_spec 0 (0 * n + 0)); [reflexivity|lia]|].
    destruct (Nat.eqb_spec 0 (0 * n + j)); [lia|]. rewrite B3 by (intros k Hk; nia).
    replace (0 * n + j)%nat with (1 + 1 * (j - 1))%nat by lia. rewrite A2 by lia. apply VV.
  - destruct (Nat.eqb_spec 0 (i * n + j)); [nia|]. destruct (Nat.eqb_spec j 0) as [->|Nj].
    + rewrite B3.
      * rewrite B2 by (intros k Hk; nia). replace (i * n + 0)%nat with (n + n * (i - 1))%nat by nia. rewrite A1 by lia. apply VV.
      * intros k Hk E. replace (i * n + 0)%nat with (i * n)%nat in E by lia.
        assert (E2 : (i * n = (k + 1) * n + (k + 1))%nat) by nia. assert ((k + 1 < n)%nat) by lia.
        assert (Q : ((k + 1) = 0)%nat); [|lia].
        assert (M : ((i * n) mod n = ((k + 1) * n + (k + 1)) mod n)%nat) by now rewrite E2. rewrite Nat.mod_mul in M by lia.
        rewrite Nat.add_comm, Nat.mod_add, Nat.mod_small in M by lia. lia.
    + destruct (Nat.eqb_spec i j) as [<-|NE].
      * replace (i * n + i)%nat with (n + 1 + (n + 1) * (i - 1))%nat by nia. rewrite A3 by lia. apply VE. lia.
      * rewrite B3.
        -- rewrite B2 by (intros k Hk; nia). apply B1. intros k Hk E.
           assert (M : ((i * n + j) mod n = (n + n * k) mod n)%nat) by now rewrite E. replace (n + n * k)%nat with ((k + 1) * n)%nat in M by nia.
           rewrite Nat.mod_mul in M by lia. rewrite Nat.add_comm, Nat.mod_add, Nat.mod_small in M by lia. lia.
        -- intros k Hk E. assert (E2 : (i * n + j = (k + 1) * n + (k + 1))%nat) by nia.
           assert (M : ((i * n + j) mod n = ((k + 1) * n + (k + 1)) mod n)%nat) by now rewrite E2.
           rewrite Nat.add_comm, Nat.mod_add, Nat.mod_small in M by lia. rewrite Nat.add_comm, Nat.mod_add, Nat.mod_small in M by lia. subst j.
           assert ((i * n = (k + 1) * n)%nat) by lia. apply NE. nia.
Qed.
Lemma fit_arrow : arrow n (imp_H g) -> arrow n (imp_H g').
Proof.
  intros A i j Hi Hj NE. rewrite fit_entries by lia. destruct (Nat.eqb_spec i 0); [lia|]. destruct (Nat.eqb_spec j 0); [lia|]. destruct (Nat.eqb_spec i j); [lia|]. now apply A.
Qed.
Lemma fit_symmetric : arrow n (imp_H g) -> symmetric n (imp_H g').
Proof.
  intros A i j Hi Hj. rewrite !fit_entries by auto. destruct (Nat.eqb_spec i 0) as [->|Ni], (Nat.eqb_spec j 0) as [->|Nj]; try reflexivity.
  rewrite (Nat.eqb_sym j i). destruct (Nat.eqb_spec i j) as [->|NE]; [reflexivity|]. rewrite (A i j), (A j i) by lia. reflexivity.
Qed.
Lemma delta_x z : delta1 x z = csum (n - 1) (fun k => cxdiv (rcx (nth (n - 1 + k) x 0 * nth (n - 1 + k) x 0)) (cxsub z (rcx (nth k x 0)))).
Proof. rewrite (delta1_hyb (n - 1) x HX). reflexivity. Qed.
Lemma csum_S_l m (f : nat -> cx) : csum (S m) f = cxadd (f 0%nat) (csum m (fun k => f (S k))).
Proof. apply cx_eq; rewrite ?csum_re, ?csum_im; cbn [re im cxadd fst snd]; rewrite rsum_S_l; [now rewrite csum_re|now rewrite csum_im]. Qed.
Theorem arrow_resolvent z : arrow n (imp_H g) -> (forall k, (k < n - 1)%nat -> z <> rcx (nth k x 0)) ->
  (forall col, resolvent_col n (imp_H g') z col -> cxmul (col 0%nat) (imp_free_inv g' z) = rcx 1) /\
  (imp_free_inv g' z <> rcx 0 -> exists col, resolvent_col n (imp_H g') z col /\ col 0%nat = imp_free g' z).
Proof.
  intros A OFF.
  assert (FI : imp_free_inv g' z = cxsub (cxadd z (rcx mu)) (delta1 x z)).
  { unfold imp_free_inv. replace (nth 0 (imp_H g') 0) with (ent n (imp_H g') 0 0) by (unfold ent; f_equal; lia). rewrite fit_entries by lia. cbn [Nat.eqb].
    change (imp_x g') with x. rewrite rcx_opp. ring. }
  assert (NZ : forall k, (k < n - 1)%nat -> cxsub z (rcx (nth k x 0)) <> rcx 0).
  { intros k Hk Q. apply (OFF k Hk). replace z with (cxadd (cxsub z (rcx (nth k x 0))) (rcx (nth k x 0))) by ring. rewrite Q. ring. }
  set (v := fun k => nth (n - 1 + k) x 0). set (e := fun k => nth k x 0).
  assert (NS : n = S (n - 1)) by lia.
  assert (ROW0 : forall col, csum n (fun j => cxmul (rcx (ent n (imp_H g') 0 j)) (col j)) = cxadd (cxmul (rcx (- mu)) (col 0%nat)) (csum (n - 1) (fun k => cxmul (rcx (v k)) (col (S k))))).
  { intros col. rewrite NS at 1. rewrite csum_S_l. rewrite fit_entries by lia. cbn [Nat.eqb]. f_equal. apply csum_ext. intros k Hk. rewrite fit_entries by lia. cbn [Nat.eqb]. unfold v. do 3 f_equal. lia. }
  assert (ROWS : forall col k, (k < n - 1)%nat -> csum n (fun j => cxmul (rcx (ent n (imp_H g') (S k) j)) (col j)) = cxadd (cxmul (rcx (v k)) (col 0%nat)) (cxmul (rcx (e k)) (col (S k)))).
  { intros col k Hk. rewrite NS at 1. rewrite csum_S_l. rewrite fit_entries by lia. cbn [Nat.eqb]. f_equal; [unfold v; do 3 f_equal; lia|].
    rewrite (csum_single (n - 1) _ k Hk).
    - rewrite fit_entries by lia. cbn [Nat.eqb]. rewrite Nat.eqb_refl. unfold e. do 3 f_equal. lia.
    - intros j Hj NE. rewrite fit_entries by lia. cbn [Nat.eqb]. destruct (Nat.eqb_spec k j) as [->|_]; [contradiction|]. rewrite (A (S k) (S j)) by lia. ring. }
  split.
  - intros col RC.
    assert (C : forall k, (k < n - 1)%nat -> col (S k) = cxmul (cxdiv (rcx (v k)) (cxsub z (rcx (e k)))) (col 0%nat)).
    { intros k Hk. pose proof (RC (S k) ltac:(lia)) as Q. rewrite ROWS in Q by auto. cbn [Nat.eqb] in Q.
      assert (Q2 : cxmul (cxsub z (rcx (e k))) (col (S k)) = cxmul (rcx (v k)) (col 0%nat)).
      { transitivity (cxadd (cxsub (cxmul z (col (S k))) (cxadd (cxmul (rcx (v k)) (col 0%nat)) (cxmul (rcx (e k)) (col (S k))))) (cxmul (rcx (v k)) (col 0%nat))); [ring|]. rewrite Q. ring. }
      transitivity (cxmul (cxinv (cxsub z (rcx (e k)))) (cxmul (cxsub z (rcx (e k))) (col (S k)))).
      - transitivity (cxmul (cxmul (cxinv (cxsub z (rcx (e k)))) (cxsub z (rcx (e k)))) (col (S k))); [|ring]. rewrite cx_nz_inv by (now apply NZ). ring.
      - rewrite Q2. unfold cxdiv. ring. }
    pose proof (RC 0%nat ltac:(lia)) as Q. rewrite ROW0 in Q. cbn [Nat.eqb] in Q. rewrite <- Q, FI, delta_x.
    rewrite (csum_ext (n - 1) (fun k => cxmul (rcx (v k)) (col (S k))) (fun k => cxmul (col 0%nat) (cxdiv (rcx (v k * v k)) (cxsub z (rcx (e k)))))).
    2:{ intros k Hk. rewrite C by auto. rewrite rcx_mul. unfold cxdiv. ring. }
    rewrite csum_scal_l. rewrite rcx_opp. unfold v, e. ring.
  - intros N0. set (F := imp_free_inv g' z) in *.
    exists (fun i => match i with O => cxinv F | S k => cxmul (cxdiv (rcx (v k)) (cxsub z (rcx (e k)))) (cxinv F) end). split; [|reflexivity].
    intros i Hi. destruct i as [|k].
    + rewrite ROW0. cbn [Nat.eqb].
      rewrite (csum_ext (n - 1) _ (fun k => cxmul (cxinv F) (cxdiv (rcx (v k * v k)) (cxsub z (rcx (e k)))))).
      2:{ intros k Hk. rewrite rcx_mul. unfold cxdiv. ring. }
      rewrite csum_scal_l. transitivity (cxmul (cxinv F) (cxsub (cxadd z (rcx mu)) (delta1 x z))); [rewrite delta_x, rcx_opp; unfold v, e; ring|]. rewrite <- FI. now apply cx_nz_inv.
    + rewrite ROWS by lia. cbn [Nat.eqb]. assert (Q : cxmul (cxinv (cxsub z (rcx (e k)))) (cxsub z (rcx (e k))) = rcx 1) by (apply cx_nz_inv, NZ; lia).
      unfold cxdiv. transitivity (cxsub (cxmul (cxmul (cxmul (cxinv (cxsub z (rcx (e k)))) (cxsub z (rcx (e k)))) (rcx (v k))) (cxinv F)) (cxmul (rcx (v k)) (cxinv F))); [ring|]. rewrite Q. ring.
Qed.
End Arrow.

(** ** Histories of an impurity *)
Lemma update_ent n H mu i j : (1 <= n)%nat -> length H = (n * n)%nat -> (i < n)%nat -> (j < n)%nat ->
  ent n (upd_tot H 0 (- mu)) i j = if (i =? 0)%nat && (j =? 0)%nat then - mu else ent n H i j.
Proof.
  intros Hn L Hi Hj. unfold ent. rewrite nth_upd_tot by nia. destruct (Nat.eqb_spec 0 (i * n + j)) as [E|E].
  - assert (i = 0%nat) by nia. assert (j = 0%nat) by nia. subst. reflexivity.
  - destruct (Nat.eqb_spec i 0) as [->|]; [destruct (Nat.eqb_spec j 0) as [->|]; [lia|reflexivity]|reflexivity].
Qed.
Section History.
Variable fitter : list R -> list cx -> list R.
Variable solver : list R -> R -> res (cx -> cx).
Hypothesis FL : forall p d, length (fitter p d) = length p.
Definition wf (n : nat) (g : gfimp) : Prop :=
  imp_n g = n /\ length (imp_H g) = (n * n)%nat /\ length (imp_x g) = (2 * (n - 1))%nat /\ arrow n (imp_H g).
Lemma unopt_Some x : unopt (map Some x) = x.
Proof. induction x; cbn; congruence. Qed.
Lemma unopt_length p : length (unopt p) = length p.
Proof. induction p as [|[a|] p IH]; cbn; congruence. Qed.
Lemma reset_length x x' : reset_x x = Ok x' -> length x' = length x.
Proof.
  unfold reset_x. destruct (get_initial_bath _ _ _) as [p|e] eqn:E; [|discriminate]. cbn [bind]. intros Q. injection Q as <-. rewrite unopt_length.
  unfold get_initial_bath in E. rewrite map_length in E.
  destruct (Nat.eq_dec (length x / 2) 0) as [Z|NZ].
  - rewrite Z in E. unfold init_levels, ekset in E. cbn in E. discriminate.
  - assert (HL : (length x / 2 <= length x)%nat) by (apply Nat.div_le_upper_bound; lia).
    destruct (init_levels_ok (length x / 2) 2 (map Some x) ltac:(lia) ltac:(rewrite map_length; exact HL)) as (y & E' & L & _). rewrite E' in E. injection E as <-. rewrite !map_length in *. lia.
Qed.
Lemma ent_zero n i j : ent n (repeat 0 (n * n)) i j = 0.
Proof. unfold ent. apply nth_repeat. Qed.
Lemma wf_init n U mem g : (1 <= n)%nat -> length mem = (2 * (n - 1))%nat -> imp_init n U mem = Ok g -> wf n g.
Proof.
  unfold imp_init. intros Hn L. destruct (reset_x mem) as [x|e] eqn:R; [|discriminate]. cbn [bind]. intros E. injection E as <-. apply reset_length in R.
  split; [reflexivity|]. split; [apply repeat_length|]. split; [cbn; lia|]. intros i j _ _ _. apply ent_zero.
Qed.
Lemma wf_do n g op g' : (1 <= n)%nat -> wf n g -> imp_do fitter solver g op = Ok g' -> wf n g'.
Proof.
  intros Hn (N & LH & LX & AR) E. destruct op as [delta|mu| |]; cbn [imp_do] in E.
  - injection E as <-. split; [exact N|]. split; [now rewrite fit_H_length|]. split; [cbn; rewrite FL; exact LX|]. subst n.
    pose proof (fit_entries fitter g delta 0 Hn LH ltac:(rewrite FL; exact LX)) as FE. intros i j Hi Hj NE.
    specialize (FE i j ltac:(lia) ltac:(lia)). unfold imp_fit_update, imp_update in FE. cbn [imp_H set_H] in FE.
    rewrite update_ent in FE by (try lia; rewrite fit_H_length; exact LH).
    destruct (Nat.eqb_spec i 0); [lia|]. destruct (Nat.eqb_spec j 0); [lia|]. destruct (Nat.eqb_spec i j); [lia|]. cbn [andb] in FE. rewrite FE. now apply AR.
  - injection E as <-. split; [exact N|]. cbn [imp_H imp_x imp_update set_H]. split; [now rewrite upd_tot_length|]. split; [exact LX|].
    intros i j Hi Hj NE. rewrite update_ent by (auto; lia). destruct (Nat.eqb_spec i 0); [lia|]. cbn [andb]. now apply AR.
  - unfold imp_reset_bath in E. destruct (reset_x (imp_x g)) as [x|e] eqn:R; [|discriminate]. cbn [bind] in E. injection E as <-. apply reset_length in R.
    split; [exact N|]. split; [exact LH|]. split; [cbn; lia|exact AR].
  - unfold imp_solve in E. destruct (solver _ _) as [f|e]; [|discriminate]. cbn [bind] in E. injection E as <-. repeat split; auto.
Qed.
Lemma wf_run n ops : (1 <= n)%nat -> forall g g', wf n g -> foldM (imp_do fitter solver) ops g = Ok g' -> wf n g'.
Proof.
  intros Hn. induction ops as [|op ops IH]; intros g g' W E; cbn [foldM] in E; [injection E as <-; exact W|].
  destruct (imp_do fitter solver g op) as [g1|e] eqn:D; [|discriminate]. cbn [bind] in E. eapply IH; [|exact E]. eapply wf_do; eauto.
Qed.
Theorem impurity_hamiltonian (n : nat) (U : R) (mem : list R) (g0 g : gfimp) (ops : list imp_op) (delta : list cx) (mu : R) :
  (2 <= n)%nat -> length mem = (2 * (n - 1))%nat -> imp_init n U mem = Ok g0 -> foldM (imp_do fitter solver) ops g0 = Ok g ->
  let g' := imp_fit_update fitter g delta mu in let H := imp_H g' in let x := imp_x g' in
  length H = (n * n)%nat /\ symmetric n H /\ arrow n H /\ ent n H 0 0 = - mu /\
  (forall k, (k < n - 1)%nat -> ent n H 0 (S k) = nth (n - 1 + k) x 0 /\ ent n H (S k) 0 = nth (n - 1 + k) x 0 /\ ent n H (S k) (S k) = nth k x 0) /\
  forall z, (forall k, (k < n - 1)%nat -> z <> rcx (nth k x 0)) ->
    imp_free_inv g' z = cxsub (cxadd z (rcx mu)) (hyb (n - 1) (fun k => nth k x 0) (fun k => nth (n - 1 + k) x 0) z) /\
    (forall col, resolvent_col n H z col -> cxmul (col 0%nat) (imp_free_inv g' z) = rcx 1) /\
    (imp_free_inv g' z <> rcx 0 -> exists col, resolvent_col n H z col /\ col 0%nat = imp_free g' z).
Proof.
  intros Hn LM I RUN. assert (W : wf n g) by (eapply wf_run; [lia| |exact RUN]; eapply wf_init; eauto; lia).
  destruct W as (N & LH & LX & AR). subst n. assert (H1 : (1 <= imp_n g)%nat) by lia. assert (LF : length (fitter (imp_x g) delta) = (2 * (imp_n g - 1))%nat) by (now rewrite FL).
  pose proof (fit_entries fitter g delta mu H1 LH LF) as FE. cbn zeta.
  split; [unfold imp_fit_update, imp_update; cbn [imp_H set_H]; rewrite upd_tot_length, fit_H_length; exact LH|].
  split; [now apply fit_symmetric|]. split; [now apply fit_arrow|].
  split; [rewrite FE by lia; reflexivity|].
  change (imp_x (imp_fit_update fitter g delta mu)) with (fitter (imp_x g) delta).
  split.
  - intros k Hk. rewrite !FE by lia. cbn [Nat.eqb Nat.sub]. rewrite Nat.eqb_refl, Nat.sub_0_r. repeat split.
  - intros z OFF. split; [|now apply arrow_resolvent].
    unfold imp_free_inv. replace (nth 0 (imp_H (imp_fit_update fitter g delta mu)) 0) with (ent (imp_n g) (imp_H (imp_fit_update fitter g delta mu)) 0 0) by (unfold ent; f_equal; lia).
    rewrite FE by lia. cbn [Nat.eqb]. change (imp_x (imp_fit_update fitter g delta mu)) with (fitter (imp_x g) delta). rewrite (delta1_hyb _ _ LF). rewrite rcx_opp. unfold hyb. ring.
Qed.
(** A single impurity site has no bath to initialise. *)
Theorem impurity_alone (U : R) : imp_init 1 U [] = Err IndexError.
Proof. reflexivity. Qed.

End History.

(** ** Magnetic set-up *)
Theorem magnetic (fitter : list R -> list cx -> list R) (delta : list cx) (u d : gfimp) (mu ed sign field : R) (n : nat) : (1 <= n)%nat -> imp_n u = n -> length (imp_H u) = (n * n)%nat ->
  let ud := magnetic_setup fitter delta (u, d) mu ed sign field in
  imp_x (fst ud) = imp_x (snd ud) /\ imp_x (fst ud) = fitter (imp_x u) delta /\
  (forall i j, (i < n)%nat -> (j < n)%nat -> (i, j) <> (0, 0)%nat -> ent n (imp_H (fst ud)) i j = ent n (imp_H (snd ud)) i j) /\
  ent n (imp_H (fst ud)) 0 0 = - (mu + sign * field - ed) /\ ent n (imp_H (snd ud)) 0 0 = - (mu - sign * field - ed).
Proof.
  intros Hn N LH. cbn zeta. unfold magnetic_setup, spin_symmetrize. cbn [fst snd imp_x imp_update set_H set_x imp_H].
  assert (L : length (imp_H (imp_fit fitter u delta)) = (n * n)%nat) by (now rewrite fit_H_length).
  split; [reflexivity|]. split; [reflexivity|]. split; [|split].
  - intros i j Hi Hj NE. rewrite !update_ent by auto. destruct (Nat.eqb_spec i 0) as [->|]; [destruct (Nat.eqb_spec j 0) as [->|]; [congruence|]|]; reflexivity.
  - rewrite update_ent by (auto; lia). reflexivity.
  - rewrite update_ent by (auto; lia). reflexivity.
Qed.

(** Restarting from the impurity's own self-energy: it is evaluated on the reset
    bath. *)
Theorem restart (zs : list cx) (g : gfimp) (l : gfloc) (U mu ed : R) (g' : gfimp) (l' : gfloc) (d : list cx) (z s s' : cx) :
  imp_H g <> [] -> loc_ed l = Some ed ->
  initialize zs g l U SImp (Some mu) = Ok (g', l', d) ->
  imp_Sigma g z = Ok s -> imp_Sigma g' z = Ok s' ->
  s' = cxadd s (cxadd (rcx (mu - ed - imp_mu g)) (cxsub (delta1 (imp_x g) z) (delta1 (imp_x g') z))).
Proof.
  intros NE HE I S1 S2. unfold initialize in I. cbn [loc_ed loc_update loc_set_local] in I. rewrite HE in I. cbn [attr bind] in I.
  unfold imp_reset_bath in I. destruct (reset_x _) as [x|e]; [|discriminate]. cbn [bind] in I.
  match type of I with bind ?r _ = _ => destruct r as [dd|e]; [|discriminate] end. cbn [bind] in I. injection I as <- <- <-.
  unfold imp_Sigma in S1, S2. cbn [imp_gf set_x imp_update set_H] in S2. destruct (imp_gf g) as [gf|]; [|discriminate].
  apply ok_inj in S1. apply ok_inj in S2. subst s s'. unfold imp_free_inv, imp_mu. cbn [imp_H set_x imp_update set_H imp_x]. rewrite upd_nth0 by auto.
  rewrite !rcx_sub, !rcx_opp, !rcx_sub. ring.
Qed.

(** ** The safeguard *)
Theorem safeguard_no_effect (h : heap) (r : nat) : (r < length h)%nat -> nth r (safeguard h r) [] = nth r h [].
Proof.
  intros Hr. unfold safeguard, fancy, set_imag. rewrite nth_upd_tot by (rewrite app_length; cbn; lia). destruct (Nat.eqb_spec (length h) r); [lia|]. apply app_nth1. exact Hr.
Qed.

(** ** The Bethe lattice *)
Section Bethe.
Variable csqrt : cx -> cx.
Hypothesis SQ : forall w, cxmul (csqrt w) (csqrt w) = w.
Hypothesis PR : forall w, 0 <= re (csqrt w).
Lemma ht_quad z : cxmul (ht csqrt z) (cxsub (re z, if Rltb 0 (im z) then im z else ht_eps) (cxmul (rcx (1 / 4)) (ht csqrt z))) = rcx 1.
Proof.
  unfold ht. set (y := (re z, if Rltb 0 (im z) then im z else ht_eps) : cx).
  assert (P : 0 < im y). { unfold y, im. cbn [snd]. unfold Rltb. destruct (Rlt_dec 0 (snd z)); [exact r|unfold ht_eps; apply Rdiv_lt_0_compat; [lra|apply pow_lt; lra]]. }
  unfold _ht, rsign, Rltb. destruct (Rlt_dec 0 (im y)); [|contradiction]. pose proof (SQ (cxsub (rcx 1) (cxmul y y))) as Q. set (w := csqrt (cxsub (rcx 1) (cxmul y y))) in *.
  assert (I2 : cxmul ci ci = cxopp (rcx 1)) by (apply cx_eq; unfold ci, cxmul, cxopp, rcx, re, im; simpl; ring).
  assert (F2 : rcx 2 = cxadd (rcx 1) (rcx 1)) by (apply cx_eq; simpl; ring).
  assert (F4 : cxmul (rcx (1 / 4)) (cxmul (rcx 2) (rcx 2)) = rcx 1) by (apply cx_eq; unfold cxmul, rcx, re, im; simpl; field).
  set (q := rcx (1 / 4)) in *.
  transitivity (cxsub (cxmul (cxmul (rcx 2) y) (cxsub y (cxmul ci w))) (cxmul (cxmul q (cxmul (rcx 2) (rcx 2))) (cxsub (cxadd (cxmul y y) (cxmul (cxmul ci ci) (cxmul w w))) (cxmul (rcx 2) (cxmul ci (cxmul y w)))))).
  { rewrite F2. ring. }
  rewrite F4, I2, Q, F2. ring.
Qed.
Theorem bethe_semicircle z : 0 < im z -> semicircular (ht csqrt) z.
Proof.
  intros P. pose proof (ht_quad z) as Q. unfold Rltb in Q. destruct (Rlt_dec 0 (im z)); [|contradiction]. replace (re z, im z) with z in Q by (destruct z; reflexivity).
  unfold semicircular. set (h := ht csqrt z) in *. set (y := cxsub z (cxmul (rcx (1 / 4)) h)) in *.
  assert (N : y <> rcx 0). { intros E. rewrite E in Q. apply (f_equal re) in Q. unfold cxmul, rcx, re, im in Q. simpl in Q. lra. }
  transitivity (cxmul (cxmul h y) (cxinv y)); [|rewrite Q; ring]. transitivity (cxmul h (cxmul (cxinv y) y)); [rewrite cx_nz_inv by auto; ring|ring].
Qed.
(** It is the causal branch. *)
Theorem bethe_causal z : im (ht csqrt z) < 0.
Proof.
  unfold ht. set (y := (re z, if Rltb 0 (im z) then im z else ht_eps) : cx).
  assert (P : 0 < im y). { unfold y, im. cbn [snd]. unfold Rltb. destruct (Rlt_dec 0 (snd z)); [exact r|unfold ht_eps; apply Rdiv_lt_0_compat; [lra|apply pow_lt; lra]]. }
  unfold _ht, rsign, Rltb. destruct (Rlt_dec 0 (im y)); [|contradiction].
  pose proof (SQ (cxsub (rcx 1) (cxmul y y))) as Q. pose proof (PR (cxsub (rcx 1) (cxmul y y))) as W. set (w := csqrt (cxsub (rcx 1) (cxmul y y))) in *.
  pose proof (f_equal re Q) as Q1. pose proof (f_equal im Q) as Q2. destruct w as [p q]. destruct y as [a b].
  unfold cxmul, cxsub, cxadd, cxopp, rcx, ci, re, im in *. cbn [fst snd] in *.
  assert (b < p); [|lra].
  destruct (Rlt_dec b p) as [L|L]; [exact L|exfalso]. assert (p <= b) by lra.
  assert (q * q = p * p - 1 + a * a - b * b) by lra. assert (p * q = - (a * b)) by lra.
  assert (q * q <= a * a - 1) by nra. assert ((p * q) * (p * q) = (a * b) * (a * b)) by (rewrite H1; ring).
  assert ((p * q) * (p * q) <= (b * b) * (q * q)) by (replace ((p * q) * (p * q)) with ((p * p) * (q * q)) by ring; apply Rmult_le_compat_r; nra).
  assert ((b * b) * (q * q) <= (b * b) * (a * a - 1)) by (apply Rmult_le_compat_l; nra). nra.
Qed.
(** On the real axis and below it is the value just above the axis. *)
Theorem bethe_lower z : im z <= 0 -> ht csqrt z = ht csqrt (re z, ht_eps).
Proof.
  intros P. unfold ht. cbn [re im fst snd]. unfold Rltb. destruct (Rlt_dec 0 (im z)); [lra|]. destruct (Rlt_dec 0 ht_eps); reflexivity.
Qed.
(** Hybridisation of a Bethe lattice: a quarter of the local function. *)
Theorem bethe_delta (g : gfimp) (l : gfloc) (z d G s : cx) (m : R) (sl : selfe) : loc_kind l = LHilbert (ht csqrt) -> loc_mu l = Some m -> loc_Sigma l = Some sl ->
  eval_Sigma g sl z = Ok s -> 0 < im (cxsub (cxadd z (rcx m)) s) ->
  loc_Delta g l z = Ok d -> loc_call g l z = Ok G -> d = cxmul (rcx (1 / 4)) G.
Proof.
  intros K M S1 S2 P D C. unfold loc_Delta, loc_Weiss, loc_call_inv, loc_call in *. rewrite K, M, S1 in *. cbn [attr bind] in *. rewrite S2 in *. cbn [bind] in *.
  apply ok_inj in C. apply ok_inj in D. subst d. pose proof (bethe_semicircle _ P) as Q. unfold semicircular in Q. rewrite C in *.
  rewrite Q at 1. rewrite cxinv_inv; [ring|]. intros E. rewrite E, cxinv_0 in Q. rewrite Q in E. 
  assert (Z : cxsub (cxadd z (rcx m)) s = rcx 0). { rewrite <- E. ring. } rewrite Z in P. unfold rcx, im in P. simpl in P. lra.
Qed.
End Bethe.

(** A square root as required above exists. *)
Definition csqrt_std (w : cx) : cx :=
  let m := sqrt (cxn2 w) in (sqrt ((m + re w) / 2), if Rltb (im w) 0 then - sqrt ((m - re w) / 2) else sqrt ((m - re w) / 2)).
Lemma csqrt_std_ok w : cxmul (csqrt_std w) (csqrt_std w) = w /\ 0 <= re (csqrt_std w).
Proof.
  split; [|apply sqrt_pos]. destruct w as [a b]. unfold csqrt_std, cxn2, re, im. cbn [fst snd]. set (m := sqrt (a * a + b * b)).
  assert (M2 : m * m = a * a + b * b) by (apply sqrt_sqrt; nra). assert (M0 : 0 <= m) by apply sqrt_pos.
  assert (A1 : 0 <= (m + a) / 2) by (destruct (Rle_dec 0 (m + a)); [lra|nra]). assert (A2 : 0 <= (m - a) / 2) by (destruct (Rle_dec 0 (m - a)); [lra|nra]).
  pose proof (sqrt_sqrt _ A1) as S1. pose proof (sqrt_sqrt _ A2) as S2.
  assert (PQ : 2 * (sqrt ((m + a) / 2) * sqrt ((m - a) / 2)) = Rabs b).
  { rewrite <- sqrt_mult by assumption. replace ((m + a) / 2 * ((m - a) / 2)) with (Rsqr (b / 2)) by (unfold Rsqr; nra). rewrite sqrt_Rsqr_abs.
    unfold Rdiv. rewrite Rabs_mult, (Rabs_right (/ 2)) by lra. lra. }
  set (p := sqrt ((m + a) / 2)) in *. set (q := sqrt ((m - a) / 2)) in *. unfold Rltb. destruct (Rlt_dec b 0) as [L|L]; apply cx_eq; unfold cxmul, re, im; cbn [fst snd].
  - lra.
  - rewrite Rabs_left in PQ by lra. lra.
  - lra.
  - rewrite Rabs_right in PQ by lra. lra.
Qed.
(** ** Free local functions *)
Theorem loc_free_call (g : gfimp) (l : gfloc) (z f : cx) : loc_Sigma l = Some (SFun (fun _ => rcx 0)) -> loc_free_inv l z = Ok f -> f <> rcx 0 ->
  loc_call_inv g l z = Ok f /\ loc_call g l z = Ok (cxinv f).
Proof.
  intros ES EF NZ. assert (Z0 : forall x, cxsub x (rcx 0) = x) by (intros [a b]; apply cx_eq; cbn; ring).
  unfold loc_call_inv, loc_call. unfold loc_free_inv in *. destruct (loc_mu l) as [mu|]; [|discriminate]. cbn [attr bind] in *. rewrite ES. destruct (loc_kind l) as [hy|h]; cbn [attr bind eval_Sigma] in *; injection EF as <-.
  - rewrite Z0. auto.
  - rewrite Z0. split; [reflexivity|]. f_equal. symmetry. apply cxinv_inv. intros E. apply NZ. rewrite E. apply cxinv_0.
Qed.
