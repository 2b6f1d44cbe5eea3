(** C137: the occupation of the ground state that siam_solve finds, and the levels. *)
From Coq Require Import String Reals List Arith NArith ZArith Bool Lia Lra.
From Verif Require Import Base RBase RLin CBase LocalModel MatvecModel MbModel MbSpec EspaceModel GfModel ExactSpec EighProofs ExactProps ExactMoreProofs DedModel DedSpec DedProps ImpProps RespSpec RespGroundProofs.
Import ListNotations.
Local Open Scope R_scope.

(** Two models with the same hopping and interaction whose levels differ by [a i] for
    both spins: the change of the ground-state energy lies between the shifts times the
    occupations (dedlib.py get_occupation) of either ground state, up to the tolerance
    with which the ground state is looked up. *)
Theorem C137_ground big half n V U hf z eigh eigsh eigh' eigsh' h fl mu h' fl' mu' es e es' e' tol key s key' s' a :
  model_ok half n h fl V U -> eigh_contract eigh -> build_espace RRing Rleb big half eigh eigsh n h fl V hf mu z None "sz" = Ok (es, Some e) ->
  model_ok half n h' fl' V U -> eigh_contract eigh' -> build_espace RRing Rleb big half eigh' eigsh' n h' fl' V hf mu' z None "sz" = Ok (es', Some e') -> same_hopping n h h' ->
  (forall sp i, (i < n)%nat -> level h' mu' sp i - level h mu sp i = a i) -> gs_sector tol es (Some e) = Ok (key, s) -> gs_sector tol es' (Some e') = Ok (key', s') ->
  exists N N', (forall i, gs_occupation s i = Ok (N i)) /\ (forall i, gs_occupation s' i = Ok (N' i)) /\
    rsum n (fun i => a i * N' i) - tol <= e' - e /\ e' - e <= rsum n (fun i => a i * N i) + tol.
Proof. exact (pair_ground big half n V U hf z eigh eigsh eigh' eigsh' h fl mu h' fl' mu' es e es' e' tol key s key' s' a). Qed.
Print Assumptions C137_ground.

(** Two accepted trials of siam_solve with the same poles and shifts sigma0: the
    non-interacting occupation is the same, and a larger shift does not empty the
    impurity, up to the tolerance 1e-7 of the lookup. *)
Theorem C137_trial big half eigh eigsh fsolve kB wild n U beta zs poles s0 s1 i0 i1 : (1 < n)%nat -> (n <= 32)%nat -> half + half = 1 -> eigh_contract eigh ->
  length poles = n -> increasing n (fun i => nth i poles 0) -> finds_roots fsolve n (fun i => nth i poles 0) ->
  siam_trial big half eigh eigsh fsolve kB wild n U s0 beta zs poles = Ok (Some i0) -> siam_trial big half eigh eigsh fsolve kB wild n U s1 beta zs poles = Ok (Some i1) ->
  i_occ0 i0 = i_occ0 i1 /\ - (2 / 10000000) <= (s1 - s0) * (i_occ1 i1 - i_occ1 i0).
Proof. exact (fun H1 H32 Hh HC => trial_filling big half eigh eigsh fsolve kB wild n U beta zs H1 H32 Hh HC poles s0 s1 i0 i1). Qed.
Print Assumptions C137_trial.

(** The dimer of C85: lowering both levels by 4 does not empty its ground state. *)
Example C137_ex : exists es e key s es' e' key' s' N N',
  build_espace RRing Rleb (fun _ => true) (/ 2) real_eigh (fun _ _ _ => Err ValueError) 2 dim_h dim_fl (VArray RRing dim_U) false 3 None None "sz" = Ok (es, Some e) /\
  build_espace RRing Rleb (fun _ => true) (/ 2) real_eigh (fun _ _ _ => Err ValueError) 2 dim_h dim_fl (VArray RRing dim_U) false (-1) None None "sz" = Ok (es', Some e') /\
  gs_sector (/ 10000000) es (Some e) = Ok (key, s) /\ gs_sector (/ 10000000) es' (Some e') = Ok (key', s') /\
  (forall i, gs_occupation s i = Ok (N i)) /\ (forall i, gs_occupation s' i = Ok (N' i)) /\ N 0%nat + N 1%nat - 1 / 10000000 <= N' 0%nat + N' 1%nat.
Proof.
  assert (G : forall mu, exists es e key s, build_espace RRing Rleb (fun _ => true) (/ 2) real_eigh (fun _ _ _ => Err ValueError) 2 dim_h dim_fl (VArray RRing dim_U) false mu None None "sz" = Ok (es, Some e) /\ gs_sector (/ 10000000) es (Some e) = Ok (key, s)).
  { intros mu. destruct (C85_ground (fun _ => true) (/ 2) 2 dim_h dim_fl (VArray RRing dim_U) false mu None dim_U real_eigh (fun _ _ _ => Err ValueError) dim_ok C85_contract) as (es & e & E & _).
    pose proof dim_ok as ((Hn & Hn' & Hh) & HU & HJ & (HSx & HSp) & HSy & Hset).
    destruct (gs_total (fun _ => true) (/ 2) 2 dim_h dim_fl (VArray RRing dim_U) false mu None dim_U Hn Hn' Hh HU HJ HSx HSp HSy Hset real_eigh (fun _ _ _ => Err ValueError) C85_contract es (Some e) E (/ 10000000) ltac:(lra)) as (key & s & e0 & _ & GS & _).
    exists es, e, key, s. auto. }
  destruct (G 3) as (es & e & key & s & E & GS). destruct (G (-1)) as (es' & e' & key' & s' & E' & GS').
  destruct (C137_ground _ _ _ _ _ _ _ _ _ _ _ _ _ _ _ _ _ _ _ _ _ _ key s key' s' (fun _ => -4) dim_ok C85_contract E dim_ok C85_contract E' ltac:(intros sp i j _ _ _; reflexivity) ltac:(intros; unfold level; lra) GS GS') as (N & N' & HN & HN' & A & B).
  exists es, e, key, s, es', e', key', s', N, N'. do 6 (split; [assumption|]). rewrite !rsum_S, !(rsum_0 0) in A, B by (intros; lia). lra.
Qed.
(** The sample of C124 is accepted with both shifts 1 and 1.02. *)
Example C137_ex_trial : exists i0 i1, sample 2 1 = Ok (Some i0) /\ sample 2 (51 / 50) = Ok (Some i1) /\ i_occ0 i0 = i_occ0 i1 /\ i_occ1 i0 - 1 / 100000 <= i_occ1 i1.
Proof.
  destruct (sample_accepted 1 ltac:(lra)) as (i0 & E0 & _). destruct (sample_accepted (51 / 50) ltac:(lra)) as (i1 & E1 & _).
  destruct (C137_trial (fun _ => true) (/ 2) real_eigh (fun _ _ _ => Err ValueError) midpoint 1 (fun s _ => s) 2 2 10 [(0, 1)] [-1; 1] 1 (51 / 50) i0 i1 ltac:(lia) ltac:(lia) ltac:(lra) C85_contract eq_refl (proj1 C80_ex_hyp) (proj2 C80_ex_hyp) E0 E1) as [A B].
  exists i0, i1. split; [exact E0|]. split; [exact E1|]. split; [exact A|]. lra.
Qed.
