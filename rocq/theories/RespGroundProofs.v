(** Occupation of the ground state found by siam_solve (dedlib.py), and the level of the impurity. *)
From Coq Require Import String Reals List Arith NArith ZArith Bool Lia Lra Psatz Ring.
From Verif Require Import Base RBase RLin CBase OperatorsModel OperatorsSpec LookupSpec SectorModel SectorSpec SectorProofs FockSpec FockProofs LocalModel LocalSpec HoppingModel
  CsrSpec NonLocalModel NonLocalSpec MatvecModel MatvecSpec MbModel MbSpec EspaceModel EspaceSpec EspaceMoreProofs ProjModel ProjSpec ProjProofs CfModel GfModel GfSpec
  ExactSpec EighProofs ExactProofs ExactMoreProofs DedModel DedSpec DedProofs DedMoreProofs DedTrialProofs DedFitProofs RespSpec RespProofs RespMainProofs.
Import ListNotations.
Local Open Scope R_scope.

Lemma gs_in tol es e key s : gs_sector tol es (Some e) = Ok (key, s) -> In (key, s) es /\ Rabs (nth 0 (s_vals RRing s) 0 - e) < tol.
Proof.
  induction es as [|[k x] l IH]; cbn [gs_sector]; [discriminate|]. destruct (s_vals RRing x) as [|v vs] eqn:SV; [discriminate|]. destruct (Rltb (Rabs (v - e)) tol) eqn:L; intros E.
  - injection E as <- <-. split; [now left|]. rewrite SV. now apply Rltb_spec.
  - destruct (IH E). split; [now right|auto].
Qed.

Section Bound.
Variables (n : nat) (M M' : N -> N -> N -> N -> R) (D : N -> N -> R) (F F' : family) (e' : R).
Hypothesis SF : solves n M F. Hypothesis SF' : solves n M' F'.
Hypothesis HD : forall p q a b, (p <= n)%nat -> (q <= n)%nat -> (a < dimn n p q)%nat -> (b < dimn n p q)%nat ->
  M' (pos_u n p q b) (pos_d n p q b) (pos_u n p q a) (pos_d n p q a) = M (pos_u n p q b) (pos_d n p q b) (pos_u n p q a) (pos_d n p q a) + if (a =? b)%nat then D (pos_u n p q a) (pos_d n p q a) else 0.
Hypothesis LB : forall p q k, (p <= n)%nat -> (q <= n)%nat -> (k < dimn n p q)%nat -> e' <= energy (F' p q) k.
Lemma trial_bound p q k : (p <= n)%nat -> (q <= n)%nat -> (k < dimn n p q)%nat -> e' <= energy (F p q) k + dval n D F p q k.
Proof.
  intros Hp Hq Hk. rewrite <- (quad_shift n M M' D F SF HD p q k Hp Hq Hk). destruct (SF p q Hp Hq) as (_ & ON & _). destruct (SF' p q Hp Hq) as (_ & ON' & EV').
  rewrite (quad_spectral _ _ _ _ (energy (F' p q)) ON' EV' k). match goal with |- e' <= ?x + (?y - ?x) => replace (x + (y - x)) with y by ring end.
  rewrite <- (Rmult_1_r e'), <- (ov_row _ _ _ ON ON' k Hk), <- rsum_scal_l. apply rsum_le. intros j Hj. apply Rmult_le_compat_r; [apply Rle_0_sqr|now apply LB].
Qed.
End Bound.

Section Built.
Variables (big : R -> bool) (half : R) (n : nat) (h : hmat RRing) (fl : hflags) (V : inter RRing) (hf : bool) (mu : R) (z : option (nat -> R)).
Variable U : nat -> nat -> R.
Variable eigh : dense RRing -> res (list R * list (list R)).
Variable eigsh : nat -> Z -> (list R -> res (list R)) -> res (list R * list (list R)).
Hypothesis MO : model_ok half n h fl V U. Hypothesis HC : eigh_contract eigh.
Variables (es : espace RRing) (e : R).
Hypothesis HB : build_espace RRing Rleb big half eigh eigsh n h fl V hf mu z None "sz" = Ok (es, Some e).

Lemma built_low F : lists_family n es F -> solves n (many_body big half n h V hf mu z U) F -> forall p q k, (p <= n)%nat -> (q <= n)%nat -> (k < dimn n p q)%nat -> e <= energy (F p q) k.
Proof.
  intros LF SF p q k Hp Hq Hk. destruct MO as ((Hn & Hn' & Hh) & HU & HJ & (HSx & HSp) & HSy & Hset).
  destruct (exact_egs big half n h fl V hf mu z U eigh eigsh Hn Hn' Hh HU HJ HSx HSp HSy Hset HC es (Some e) HB) as (e0 & E & _ & LB). injection E as <-.
  apply (LB p q (F p q) k); [apply (proj1 (proj2 LF)); exists p, q; auto|]. destruct (SF p q Hp Hq) as (NV & _). exact (eq_ind_r (fun m => (k < m)%nat) Hk NV).
Qed.
(** The ground state found, its energy and its occupations. *)
Lemma built_gs F tol key s (a : nat -> R) : lists_family n es F -> solves n (many_body big half n h V hf mu z U) F -> gs_sector tol es (Some e) = Ok (key, s) ->
  exists p q, (p <= n)%nat /\ (q <= n)%nat /\ (0 < dimn n p q)%nat /\ Rabs (energy (F p q) 0 - e) < tol /\
  exists N, (forall i, gs_occupation s i = Ok (N i)) /\ rsum n (fun i => a i * N i) = dval n (shift_of n a a) F p q 0.
Proof.
  intros LF SF G. destruct (gs_in _ _ _ _ _ G) as [I T]. apply (proj1 (proj2 LF)) in I. destruct I as (p & q & Hp & Hq & -> & ->). exists p, q. split; [exact Hp|]. split; [exact Hq|].
  assert (DP : (0 < dimn n p q)%nat) by exact (dim_pos n p q Hp Hq). split; [exact DP|]. split; [exact T|].
  destruct (proj2 (proj2 LF) p q Hp Hq) as (_ & _ & Hn' & P4 & P5 & P6 & cs & SV & LC & LX). rewrite states_at in P5, P6 by auto. injection P5 as P5. injection P6 as P6.
  destruct (SF p q Hp Hq) as (NV & _). destruct cs as [|v cs]; [exfalso; unfold nvals in NV; cbn [length] in LC; rewrite <- LC in NV; lia|].
  exists (fun i => site_occupation v (cand n p) (cand n q) i). split.
  - intros i. unfold gs_occupation. rewrite SV, P4, <- P5, <- P6. apply ded_occupation_spec. rewrite <- P5, <- P6 in LX. etransitivity; [exact (LX v (or_introl eq_refl))|apply Nat.mul_comm].
  - assert (VE : vec RRing (F p q) 0 = v) by (unfold vec; rewrite SV; reflexivity). unfold dval, shift_of. rewrite VE.
    rewrite (rsum_ext (dimn n p q) _ (fun t => rsum n (fun i => (a i * num RRing (pos_u n p q t) i + a i * num RRing (pos_d n p q t) i) * (nth t v 0 * nth t v 0)))) by (intros; now rewrite <- rsum_scal_r).
    rewrite rsum_swap. apply rsum_ext. intros i Hi. unfold site_occupation. fold (dimn n p q). rewrite <- rsum_scal_l. apply rsum_ext. intros t Ht.
    fold (pos_u n p q t). change (nth (t mod length (cand n p)) (cand n p) 0%N) with (pos_u n p q t). change (nth (t / length (cand n p)) (cand n q) 0%N) with (pos_d n p q t). unfold num, occ.
    destruct (N.testbit (pos_u n p q t) (N.of_nat i)), (N.testbit (pos_d n p q t) (N.of_nat i)); cbn [c0 c1 RRing]; change (@nth (car RRing) t v 0) with (@nth R t v 0); match goal with |- ?l = ?r => change (@eq R l r) end; ring.
Qed.
End Built.

Section Pair.
Variables (big : R -> bool) (half : R) (n : nat) (V : inter RRing) (U : nat -> nat -> R) (hf : bool) (z : option (nat -> R)).
Notation bld eigh eigsh h fl mu := (build_espace RRing Rleb big half eigh eigsh n h fl V hf mu z None "sz").
Lemma pair_upper eigh eigsh eigh' eigsh' h fl mu h' fl' mu' es e es' e' tol key s (a : nat -> R) :
  model_ok half n h fl V U -> eigh_contract eigh -> bld eigh eigsh h fl mu = Ok (es, Some e) ->
  model_ok half n h' fl' V U -> eigh_contract eigh' -> bld eigh' eigsh' h' fl' mu' = Ok (es', Some e') -> same_hopping n h h' ->
  (forall sp i, (i < n)%nat -> level h' mu' sp i - level h mu sp i = a i) -> gs_sector tol es (Some e) = Ok (key, s) ->
  exists N, (forall i, gs_occupation s i = Ok (N i)) /\ e' - e <= rsum n (fun i => a i * N i) + tol.
Proof.
  intros MO HC HB MO' HC' HB' HT HA G.
  destruct (built big half n h fl V hf mu z U eigh eigsh MO HC es e HB 0) as (F & LF & _ & SF & _). destruct (built big half n h' fl' V hf mu' z U eigh' eigsh' MO' HC' es' e' HB' 0) as (F' & LF' & _ & SF' & _).
  destruct (built_gs big half n h V hf mu z U es e F tol key s a LF SF G) as (p & q & Hp & Hq & DP & T & N & HN & W).
  exists N. split; [exact HN|]. rewrite W.
  assert (HD : forall p q a0 b, (p <= n)%nat -> (q <= n)%nat -> (a0 < dimn n p q)%nat -> (b < dimn n p q)%nat ->
    many_body big half n h' V hf mu' z U (pos_u n p q b) (pos_d n p q b) (pos_u n p q a0) (pos_d n p q a0) = many_body big half n h V hf mu z U (pos_u n p q b) (pos_d n p q b) (pos_u n p q a0) (pos_d n p q a0) + if (a0 =? b)%nat then shift_of n a a (pos_u n p q a0) (pos_d n p q a0) else 0).
  { intros p0 q0 a0 b Hp0 Hq0 Ha Hb. rewrite (many_body_shift big half n h h' V hf mu mu' z U p0 q0 a0 b HT Hp0 Hq0 Ha Hb). f_equal. destruct (a0 =? b)%nat; [|reflexivity]. unfold shift_of. apply rsum_ext. intros i Hi. now rewrite !HA. }
  pose proof (trial_bound n _ _ _ F F' e' SF SF' HD (built_low big half n h' fl' V hf mu' z U eigh' eigsh' MO' HC' es' e' HB' F' LF' SF') p q 0 Hp Hq DP) as B.
  apply Rabs_def2 in T. lra.
Qed.
Theorem pair_ground eigh eigsh eigh' eigsh' h fl mu h' fl' mu' es e es' e' tol key s key' s' (a : nat -> R) :
  model_ok half n h fl V U -> eigh_contract eigh -> bld eigh eigsh h fl mu = Ok (es, Some e) ->
  model_ok half n h' fl' V U -> eigh_contract eigh' -> bld eigh' eigsh' h' fl' mu' = Ok (es', Some e') -> same_hopping n h h' ->
  (forall sp i, (i < n)%nat -> level h' mu' sp i - level h mu sp i = a i) -> gs_sector tol es (Some e) = Ok (key, s) -> gs_sector tol es' (Some e') = Ok (key', s') ->
  exists N N', (forall i, gs_occupation s i = Ok (N i)) /\ (forall i, gs_occupation s' i = Ok (N' i)) /\
    rsum n (fun i => a i * N' i) - tol <= e' - e /\ e' - e <= rsum n (fun i => a i * N i) + tol.
Proof.
  intros MO HC HB MO' HC' HB' HT HA G G'.
  destruct (pair_upper _ _ _ _ _ _ _ _ _ _ _ _ _ _ tol key s a MO HC HB MO' HC' HB' HT HA G) as (N & HN & A).
  destruct (pair_upper _ _ _ _ _ _ _ _ _ _ _ _ _ _ tol key' s' (fun i => - a i) MO' HC' HB' MO HC HB (same_hopping_sym _ _ _ HT) ltac:(intros sp i Hi; cbv beta; pose proof (HA sp i Hi); lra) G') as (N' & HN' & A').
  exists N, N'. split; [exact HN|]. split; [exact HN'|]. split; [|exact A].
  rewrite (rsum_ext n _ (fun i => -1 * (a i * N' i))) in A' by (intros; ring). rewrite rsum_scal_l in A'. lra.
Qed.
End Pair.

(** ** Two trials of siam_solve that differ in the double-counting shift *)
Section Trial.
Variables (big : R -> bool) (half : R).
Variable eigh : dense RRing -> res (list R * list (list R)).
Variable eigsh : nat -> Z -> (list R -> res (list R)) -> res (list R * list (list R)).
Variables (fsolve : (R -> R) -> R -> R) (kB : R) (wild : N -> nat -> N).
Variables (n : nat) (U beta : R) (zs : list cx).
Hypothesis Hn : (1 < n)%nat. Hypothesis Hn' : (n <= 32)%nat. Hypothesis Hh : half + half = 1. Hypothesis HC : eigh_contract eigh.
Notation trial s0 := (siam_trial big half eigh eigsh fsolve kB wild n U s0 beta zs).
Lemma trial_parts poles s0 i H V : build_siam n (fun _ _ => 0) (fun _ _ => 0) 0 (gfimp_fit fsolve poles) = Ok (H, V) -> trial s0 poles = Ok (Some i) ->
  (do e0 <- ded_espace big half eigh eigsh n H V; do gs0 <- gs_sector (/ 10000000) (fst e0) (snd e0); gs_occupation (snd gs0) 0) = Ok (i_occ0 i) /\
  exists es e k s, ded_espace big half eigh eigsh n (fun i j => match i, j with O, O => H 0%nat 0%nat - s0 | _, _ => H i j end) (fun i j => match i, j with O, O => U | _, _ => V i j end) = Ok (es, Some e) /\
    gs_sector (/ 10000000) es (Some e) = Ok (k, s) /\ gs_occupation s 0 = Ok (i_occ1 i).
Proof.
  intros ES. unfold siam_trial. cbv zeta. rewrite ES. cbn [bind fst snd].
  destruct (ded_espace _ _ _ _ _ H V) as [[es0 egs0]|]; [|discriminate]. cbn [bind fst snd].
  destruct (gs_sector _ es0 egs0) as [[k0 g0]|]; [|discriminate]. cbn [bind fst snd]. destruct (gs_occupation g0 0) as [o|]; [|discriminate]. cbn [bind].
  destruct (ded_espace _ _ _ _ _ _ _) as [[es1 egs1]|]; [|discriminate]. cbn [bind fst snd].
  destruct (gs_sector _ es1 egs1) as [[k1 s1]|] eqn:G1; [|discriminate]. cbn [bind fst snd]. destruct (list_eq_dec Nat.eq_dec k1 k0); [|discriminate].
  destruct egs1 as [e1|]; [|discriminate]. destruct (build_gf_exact _ _ _ _ _ _) as [gf|]; [|discriminate]. cbn [bind].
  destruct (mapM _ zs) as [ds|]; [|discriminate]. cbn [bind]. destruct (gs_occupation s1 0) as [o1|] eqn:O1; [|discriminate]. cbn [bind].
  destruct (build_non_interacting_espace _ _ _ _) as [[b eb]|]; [|discriminate]. cbn [bind snd]. destruct eb; [|discriminate]. intros Q. injection Q as <-. cbn [i_occ0 i_occ1].
  split; [reflexivity|]. exists es1, e1, k1, s1. auto.
Qed.
Theorem trial_filling poles s0 s1 i0 i1 : length poles = n -> DedSpec.increasing n (pole poles) -> finds_roots fsolve n (pole poles) ->
  trial s0 poles = Ok (Some i0) -> trial s1 poles = Ok (Some i1) -> i_occ0 i0 = i_occ0 i1 /\ - (2 / 10000000) <= (s1 - s0) * (i_occ1 i1 - i_occ1 i0).
Proof.
  intros L I FR T0 T1. assert (H0 : (0 < length poles)%nat) by lia. pose proof I as I'. pose proof FR as FR'. rewrite <- L in I', FR'. destruct (siam_ok fsolve poles H0 I' FR' 0) as (H & V & ES & HH & HV). rewrite L in ES, HH.
  destruct (trial_parts poles s0 i0 H V ES T0) as (A0 & es & e & k & s & E & G & O). destruct (trial_parts poles s1 i1 H V ES T1) as (A1 & es' & e' & k' & s' & E' & G' & O').
  rewrite A0 in A1. split; [now injection A1|].
  set (h x := H2 RRing (fun i j => match i, j with O, O => H 0%nat 0%nat - x | _, _ => H i j end)). set (V' := fun i j => match i, j with O, O => U | _, _ => V i j end) in *.
  assert (MO : forall x, model_ok half n (h x) (mkflags true true true) (VArray RRing V') V').
  { intros x. split; [auto|]. split; [reflexivity|]. split; [auto|]. split; [split; exact Logic.I|]. split; [|reflexivity].
    intros sp i j Hi Hj. cbn [h hspin]. destruct i as [|i], j as [|j]; auto; rewrite !HH by auto; apply star_sym. }
  assert (SH : same_hopping n (h s0) (h s1)) by (intros sp i j Hi Hj N; cbn [h hspin]; destruct i, j; [congruence|reflexivity..]).
  destruct (pair_ground big half n (VArray RRing V') V' false None eigh eigsh eigh eigsh (h s0) (mkflags true true true) 0 (h s1) (mkflags true true true) 0 es e es' e' (/ 10000000) k s k' s' (fun i => if (i =? 0)%nat then s0 - s1 else 0)
    (MO s0) HC E (MO s1) HC E' SH) as (N & N' & HN & HN' & B1 & B2); [|exact G|exact G'|].
  { intros sp i Hi. unfold level. cbn [h hspin]. destruct i as [|i]; cbn [Nat.eqb]; ring. }
  rewrite HN in O. injection O as <-. rewrite HN' in O'. injection O' as <-.
  assert (W : forall X : nat -> R, rsum n (fun i => (if (i =? 0)%nat then s0 - s1 else 0) * X i) = (s0 - s1) * X 0%nat).
  { intros X. rewrite (rsum_single n _ 0%nat ltac:(lia)); [reflexivity|]. intros j Hj Nj. destruct (Nat.eqb_spec j 0); [congruence|ring]. }
  rewrite W in B1, B2. lra.
Qed.
End Trial.
