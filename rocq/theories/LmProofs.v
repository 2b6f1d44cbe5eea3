(** Linear mixing stays inside convex sets, when the weights allow it. *)
From Coq Require Import String Reals List Arith Bool Lia Lra Psatz.
From Verif Require Import Base RBase CBase DmftModel LmModel LmSpec.
Import ListNotations.
Local Open Scope R_scope.

Lemma mixed_length t w old new m : length w = m -> length old = m -> length new = m -> length (mixed t w old new) = m.
Proof. intros. unfold mixed, distance. rewrite map_length, combine_length, map_length, !combine_length. lia. Qed.
Lemma mixed_nth t w old new m k : length w = m -> length old = m -> length new = m -> (k < m)%nat ->
  nth k (mixed t w old new) (rcx 0) = ((1 - t * nth k w 0) * re (nth k old (rcx 0)) + t * nth k w 0 * re (nth k new (rcx 0)), (1 - t * nth k w 0) * im (nth k old (rcx 0)) + t * nth k w 0 * im (nth k new (rcx 0))).
Proof.
  intros LW LO LN Hk. unfold mixed. set (f := fun p : cx * cx => cxadd (fst p) (cxmul (rcx t) (snd p))).
  assert (LD : length (distance w old new) = m) by (unfold distance; rewrite map_length, !combine_length; lia).
  rewrite (nth_indep _ _ (f (rcx 0, rcx 0))) by (rewrite map_length, combine_length; lia). rewrite (map_nth f), combine_nth by lia.
  assert (ED : nth k (distance w old new) (rcx 0) = cxmul (rcx (nth k w 0)) (cxsub (nth k new (rcx 0)) (nth k old (rcx 0)))).
  { unfold distance. set (g := fun p : R * (cx * cx) => cxmul (rcx (fst p)) (cxsub (snd (snd p)) (fst (snd p)))).
    rewrite (nth_indep _ _ (g (0, (rcx 0, rcx 0)))) by (rewrite map_length, !combine_length; lia). rewrite (map_nth g), combine_nth by (rewrite combine_length; lia). rewrite combine_nth by lia. reflexivity. }
  unfold f. cbn [fst snd]. rewrite ED. apply cx_eq; cbn; ring.
Qed.
Lemma mixed_inside t w old new m C : length w = m -> (forall k, (k < m)%nat -> 0 <= t * nth k w 0 <= 1) -> (forall k, (k < m)%nat -> convex (C k)) -> inside m C old -> inside m C new -> inside m C (mixed t w old new).
Proof.
  intros LW HT HC [LO HO] [LN HN]. split; [now apply mixed_length|]. intros k Hk. rewrite (mixed_nth t w old new m k) by assumption. apply HC; auto.
Qed.

Section Run.
Context {S : Type}.
Variables (dstep : S -> list cx -> res (S * list cx)) (dist : list cx -> list cx -> R) (tol : R) (max_iter m : nat).
Variables (alpha : R) (w : list R) (delta0 : list cx) (mix : list (list cx * list cx) -> option (list cx)) (C : nat -> cx -> Prop).
Hypothesis LW : length w = m.
Hypothesis HA : forall k, (k < m)%nat -> 0 <= alpha * nth k w 0 <= 1.
Hypothesis HC : forall k, (k < m)%nat -> convex (C k).
Hypothesis H0 : inside m C delta0.
Hypothesis HM : linear_rule alpha w delta0 mix.
Hypothesis HF : forall s d s' d', inside m C d -> dstep s d = Ok (s', d') -> inside m C d'.

Lemma drive_inside fuel : forall hist st st' ev r, (forall p, In p hist -> inside m C (fst p) /\ inside m C (snd p)) ->
  drive S (list cx) dstep dist tol max_iter mix fuel hist st = (st', ev, r) -> Forall (inside m C) ev.
Proof.
  induction fuel as [|fuel IH]; intros hist st st' ev r HH E; cbn [drive] in E.
  - destruct (mix hist); injection E as _ <- _; constructor.
  - destruct (mix hist) as [d|] eqn:EM; [|injection E as _ <- _; constructor].
    assert (HD : inside m C d).
    { destruct (HM hist d EM) as [[_ ->]|(old & new & s & I & Hs & ->)]; [exact H0|]. destruct (HH _ I) as [HO HN]. cbn [fst snd] in *. apply mixed_inside; auto.
      intros k Hk. specialize (HA k Hk). replace (s * alpha * nth k w 0) with (s * (alpha * nth k w 0)) by ring. split; [apply Rmult_le_pos; lra|]. nra. }
    destruct (dmft_call S (list cx) dstep dist tol max_iter st d) as [st1 [new|e]] eqn:EC.
    + destruct (drive S (list cx) dstep dist tol max_iter mix fuel ((d, new) :: hist) st1) as [[st2 ev2] r2] eqn:ED. injection E as _ <- _. constructor; [exact HD|]. apply (IH _ _ _ _ _) in ED; [exact ED|].
      intros p [<-|I]; [|now apply HH]. cbn [fst snd]. split; [exact HD|]. unfold dmft_call in EC. destruct st as [s it]. destruct (dstep s d) as [[s' n']|] eqn:EF; [|discriminate].
      destruct (Rltb (dist n' d) tol); [discriminate|]. destruct (max_iter <? it + 1)%nat; [discriminate|]. injection EC as _ <-. exact (HF _ _ _ _ HD EF).
    + injection E as _ <- _. constructor; [exact HD|constructor].
Qed.
End Run.

Lemma solve_inside {S} (dstep : S -> list cx -> res (S * list cx)) dist tol max_iter fuel m alpha w delta0 broyden mix C st st' ev r : length w = m ->
  (forall k, (k < m)%nat -> 0 <= alpha * nth k w 0 <= 1) -> (forall k, (k < m)%nat -> convex (C k)) -> inside m C delta0 -> linear_rule alpha w delta0 mix ->
  (forall s d s' d', inside m C d -> dstep s d = Ok (s', d') -> inside m C d') -> dmft_solve dstep dist tol max_iter fuel broyden mix "linear" st = (st', ev, r) -> Forall (inside m C) ev.
Proof. intros LW HA HC H0 HM HF E. apply (drive_inside dstep dist tol max_iter m alpha w delta0 mix C LW HA HC H0 HM HF fuel [] st st' ev r); [intros p []|exact E]. Qed.

Lemma half_plane : convex (fun z => im z <= 0).
Proof. intros x y t Hx Hy Ht. cbn. nra. Qed.
Lemma ball c rad : convex (fun z => (re z - re c) * (re z - re c) + (im z - im c) * (im z - im c) <= rad).
Proof.
  intros x y t Hx Hy Ht. cbn [re im fst snd] in *. set (a := re x - re c) in *. set (b := im x - im c) in *. set (p := re y - re c) in *. set (q := im y - im c) in *.
  replace ((1 - t) * re x + t * re y - re c) with ((1 - t) * a + t * p) by (unfold a, p; ring). replace ((1 - t) * im x + t * im y - im c) with ((1 - t) * b + t * q) by (unfold b, q; ring).
  assert (E : ((1 - t) * a + t * p) * ((1 - t) * a + t * p) + ((1 - t) * b + t * q) * ((1 - t) * b + t * q) = (1 - t) * (a * a + b * b) + t * (p * p + q * q) - t * (1 - t) * ((a - p) * (a - p) + (b - q) * (b - q))) by ring.
  rewrite E. assert (0 <= t * (1 - t) * ((a - p) * (a - p) + (b - q) * (b - q))) by (apply Rmult_le_pos; [apply Rmult_le_pos; lra|apply Rplus_le_le_0_compat; apply Rle_0_sqr]).
  pose proof (Rmult_le_compat_l (1 - t) _ _ ltac:(lra) Hx). pose proof (Rmult_le_compat_l t _ _ ltac:(lra) Hy). lra.
Qed.

Lemma wn_pos beta k : 0 < beta -> 0 < wn beta k.
Proof. intros H. unfold wn. pose proof PI_RGT_0. pose proof (pos_INR k). apply Rdiv_lt_0_compat; [apply Rmult_lt_0_compat; lra|lra]. Qed.
Lemma weights_nth nmats beta alpha k : (k < nmats)%nat -> nth k (weights nmats beta alpha) 0 = Rpower (wn beta k) (- alpha).
Proof.
  intros H. unfold weights. rewrite (nth_indep _ _ (Rpower (wn beta 0) (- alpha))) by (now rewrite map_length, seq_length). rewrite (map_nth (fun k => Rpower (wn beta k) (- alpha))), seq_nth by auto. reflexivity.
Qed.
Lemma weights_length nmats beta alpha : length (weights nmats beta alpha) = nmats.
Proof. unfold weights. now rewrite map_length, seq_length. Qed.
Lemma weights_one nmats beta k : 0 < beta -> (k < nmats)%nat -> nth k (weights nmats beta 0) 0 = 1.
Proof. intros Hb H. rewrite weights_nth by auto. rewrite Ropp_0. apply Rpower_O. now apply wn_pos. Qed.
(** Weights not above 1: every frequency at least 1, that is beta at most pi. *)
Lemma weights_le nmats beta alpha k : 0 < beta <= PI -> 0 <= alpha -> (k < nmats)%nat -> 0 < nth k (weights nmats beta alpha) 0 <= 1.
Proof.
  intros Hb Ha H. rewrite weights_nth by auto. split; [apply exp_pos|]. assert (W : 1 <= wn beta k).
  { unfold wn. pose proof (pos_INR k). pose proof PI_RGT_0. apply (Rmult_le_reg_r beta); [lra|]. unfold Rdiv. rewrite Rmult_assoc, Rinv_l by lra. nra. }
  unfold Rpower. rewrite <- exp_0. assert (L : 0 <= ln (wn beta k)) by (rewrite <- ln_1; destruct W as [W | <-]; [left; apply ln_increasing; lra|right; reflexivity]).
  assert (X : - alpha * ln (wn beta k) <= 0) by nra. destruct X as [X|X]; [left; now apply exp_increasing|right; now rewrite X].
Qed.
Lemma solve_causal {S} (dstep : S -> list cx -> res (S * list cx)) dist tol max_iter fuel nmats beta a alpha delta0 broyden mix st st' ev r : 0 < beta -> 0 <= alpha <= 1 -> (a = 0 \/ (beta <= PI /\ 0 <= a)) ->
  causal nmats delta0 -> linear_rule alpha (weights nmats beta a) delta0 mix ->
  (forall s d s' d', causal nmats d -> dstep s d = Ok (s', d') -> causal nmats d') -> dmft_solve dstep dist tol max_iter fuel broyden mix "linear" st = (st', ev, r) -> Forall (causal nmats) ev.
Proof.
  intros Hb Ha HW H0 HM HF E. refine (solve_inside dstep dist tol max_iter fuel nmats alpha (weights nmats beta a) delta0 broyden mix (fun _ z => im z <= 0) st st' ev r (weights_length _ _ _) _ (fun _ _ => half_plane) H0 HM HF E).
  intros k Hk. assert (W : 0 < nth k (weights nmats beta a) 0 <= 1).
  { destruct HW as [->|[HP HA]]; [rewrite weights_one by auto; lra|]. apply weights_le; auto. }
  split; [apply Rmult_le_pos; lra|]. nra.
Qed.
Lemma solve_other {S} (dstep : S -> list cx -> res (S * list cx)) dist tol max_iter fuel broyden mix name st : name <> "linear"%string -> name <> "broyden"%string ->
  dmft_solve dstep dist tol max_iter fuel broyden mix name st = (st, [], Ok tt).
Proof. intros A B. unfold dmft_solve. rewrite (proj2 (String.eqb_neq _ _) A), (proj2 (String.eqb_neq _ _) B). reflexivity. Qed.
Lemma fixed_point w old new m : length w = m -> length old = m -> length new = m -> (forall k, (k < m)%nat -> 0 < nth k w 0) ->
  ((forall k, (k < m)%nat -> nth k (distance w old new) (rcx 0) = rcx 0) <-> new = old).
Proof.
  intros LW LO LN HW.
  assert (ED : forall k, (k < m)%nat -> nth k (distance w old new) (rcx 0) = (nth k w 0 * (re (nth k new (rcx 0)) - re (nth k old (rcx 0))), nth k w 0 * (im (nth k new (rcx 0)) - im (nth k old (rcx 0))))).
  { intros k Hk. unfold distance. set (g := fun p : R * (cx * cx) => cxmul (rcx (fst p)) (cxsub (snd (snd p)) (fst (snd p)))).
    rewrite (nth_indep _ _ (g (0, (rcx 0, rcx 0)))) by (rewrite map_length, !combine_length; lia). rewrite (map_nth g), combine_nth by (rewrite combine_length; lia). rewrite combine_nth by lia. unfold g. apply cx_eq; cbn; ring. }
  split.
  - intros H. apply (nth_ext _ _ (rcx 0) (rcx 0)); [congruence|]. intros k Hk. rewrite LN in Hk. specialize (H k Hk). rewrite (ED k Hk) in H. injection H as H1 H2. specialize (HW k Hk). apply cx_eq; nra.
  - intros -> k Hk. rewrite (ED k Hk). apply cx_eq; cbn; ring.
Qed.
