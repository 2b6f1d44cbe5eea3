(** Proofs about dedlib.py: the fit on lists, and one free trial. *)
From Coq Require Import String Reals List Arith NArith ZArith Bool Lia Lra Psatz Ring FunctionalExtensionality.
From Verif Require CfMoreProofs.
From Verif Require Import Base RBase RLin CBase OperatorsModel OperatorsSpec SectorModel FockSpec LocalModel MatvecModel MbModel MbSpec EspaceModel EspaceSpec
  ProjModel ProjSpec CfModel GfModel GfSpec GfMoreProofs GmModel GmSpec GmProofs GmFreeProofs GmEomProofs GmEspaceProofs DedModel DedSpec DedFitProofs DedRootProofs.
Import ListNotations.
Local Open Scope R_scope.
Add Ring cxr : cx_ring. Add Field cxf : cx_field.

Notation pole poles := (fun i => nth i poles 0).
Lemma gf0_real_sum poles x : gf0_real poles x = pole_sum (length poles) (pole poles) x / INR (length poles).
Proof. unfold gf0_real, pole_sum, Rdiv. ring. Qed.
Lemma gf0_call_mean poles z : (0 < length poles)%nat -> gf0_call poles z = mean_gf (length poles) (pole poles) z.
Proof.
  intros H. unfold gf0_call, mean_gf. assert (N : 0 < INR (length poles)) by (now apply lt_0_INR).
  replace (rcx (1 / INR (length poles))) with (cxinv (rcx (INR (length poles)))); [unfold cxdiv; ring|].
  apply cx_eq; unfold cxinv, rcx, re, im, cxn2; cbn -[INR]; [field; lra|unfold Rdiv; rewrite Ropp_0; ring].
Qed.

Section Fit.
Variables (fsolve : (R -> R) -> R -> R) (poles : list R).
Notation n := (length poles).
Notation p := (pole poles).
Hypothesis Hn : (0 < n)%nat. Hypothesis inc : increasing n p. Hypothesis HS : finds_roots fsolve n p.
Notation g := (gfimp_fit fsolve poles).
Definition ek (k : nat) : R := fsolve (gf0_real poles) ((p k + p (S k)) / 2).
Lemma ek_roots : gap_roots n p ek.
Proof. exact (HS (gf0_real poles) (gf0_real_sum poles)). Qed.
Lemma g_ek_eq : g_ek g = map ek (seq 0 (n - 1)).
Proof. unfold gfimp_fit, ek. cbn [g_ek]. apply map_ext. intros i. now rewrite Rplus_comm. Qed.
Lemma g_lengths : length (g_ek g) = (n - 1)%nat /\ length (g_vk2 g) = (n - 1)%nat.
Proof. unfold gfimp_fit. cbn [g_ek g_vk2]. now rewrite !map_length, seq_length. Qed.
Lemma ek_nth k : (k < n - 1)%nat -> nth k (g_ek g) 0 = ek k.
Proof. intros H. rewrite g_ek_eq. rewrite (nth_indep _ 0 (ek 0)) by (now rewrite map_length, seq_length). now rewrite map_nth, seq_nth. Qed.
Lemma off' k i : (k < n - 1)%nat -> (i < S (n - 1))%nat -> ek k <> p i.
Proof. intros Hk Hi. apply (roots_off n p inc ek ek_roots); lia. Qed.
Lemma root' k : (k < n - 1)%nat -> pole_sum (S (n - 1)) p (ek k) = 0.
Proof. intros Hk. replace (S (n - 1)) with n by lia. apply ek_roots. lia. Qed.
Lemma dist' k l : (k < n - 1)%nat -> (l < n - 1)%nat -> k <> l -> ek k <> ek l.
Proof. intros Hk Hl. apply (roots_dist n p inc ek ek_roots); lia. Qed.
Notation V2 := (v2 (n - 1) p ek).
Lemma vk2_nth k : (k < n - 1)%nat -> nth k (g_vk2 g) 0 = V2 k.
Proof.
  intros H. unfold gfimp_fit. cbn [g_vk2]. fold (gfimp_fit fsolve poles). pose proof g_ek_eq as E. unfold gfimp_fit in E. cbn [g_ek] in E. rewrite E.
  rewrite map_map. rewrite (nth_indep _ 0 (- 1 / gf0_derivative poles (ek 0))) by (now rewrite map_length, seq_length).
  rewrite (map_nth (fun x => - 1 / gf0_derivative poles (ek x))), seq_nth by auto. cbn [Nat.add].
  unfold v2, gf0_derivative. replace (S (n - 1)) with n by lia.
  assert (P : 0 < S2 (n - 1) p ek k) by (apply (S2_pos (n - 1) p ek off' k H)).
  replace (rsum n (fun i => - 1 / ((ek k - p i) * (ek k - p i)))) with (- S2 (n - 1) p ek k).
  - assert (N : 0 < INR n) by (now apply lt_0_INR). field. split; lra.
  - unfold S2. replace (S (n - 1)) with n by lia. rewrite <- (Rmult_1_l (rsum _ _)), <- Ropp_mult_distr_l_reverse, <- rsum_scal_l. apply rsum_ext. intros i Hi. unfold w.
    field. pose proof (off' k i H ltac:(lia)). lra.
Qed.
Lemma e0_mean : g_e0 g = mean (n - 1) p.
Proof. unfold gfimp_fit, mean. cbn [g_e0]. now replace (S (n - 1)) with n by lia. Qed.

Theorem fit_spec : length (g_ek g) = (n - 1)%nat /\ length (g_vk2 g) = (n - 1)%nat /\ g_e0 g = rsum n p / INR n /\
  gap_roots n p (fun k => nth k (g_ek g) 0) /\ (forall v, In v (g_vk2 g) -> 0 < v) /\
  forall z, im z <> 0 -> gfimp_call g z = mean_gf n p z /\ gf0_call poles z = mean_gf n p z.
Proof.
  destruct g_lengths as [L1 L2]. split; [exact L1|]. split; [exact L2|]. split; [reflexivity|]. split.
  - intros k Hk. rewrite ek_nth by lia. now apply ek_roots.
  - split.
    + intros v Hv. apply (In_nth _ _ 0) in Hv. destruct Hv as (k & Hk & <-). rewrite L2 in Hk. rewrite vk2_nth by auto. apply (v2_pos (n - 1) p ek off' k Hk).
    + intros z Hz. split; [|now apply gf0_call_mean]. pose proof (star_gf_mean (n - 1) p ek off' root' dist' z Hz) as E. replace (S (n - 1)) with n in E by lia. rewrite <- E.
      unfold gfimp_call, star_gf, gfimp_delta. rewrite e0_mean, L1. do 2 f_equal. apply csum_ext. intros k Hk. rewrite ek_nth, vk2_nth by auto. reflexivity.
Qed.

Notation st := (star (mean (n - 1) p) ek (fun k => sqrt (V2 k))).
Lemma siam_ok U : exists H V, build_siam n (fun _ _ => 0) (fun _ _ => 0) U g = Ok (H, V) /\
  (forall i j, (i < n)%nat -> (j < n)%nat -> H i j = st i j) /\ forall i j, V i j = if (i =? 0)%nat && (j =? 0)%nat then U else 0.
Proof.
  destruct g_lengths as [L1 L2]. unfold build_siam. rewrite map_length, L1, L2, Nat.eqb_refl. cbn [andb negb]. eexists _, _. split; [reflexivity|]. split.
  - intros i j Hi Hj. assert (SQ : forall k, (k < n - 1)%nat -> nth k (map sqrt (g_vk2 g)) 0 = sqrt (V2 k)).
    { intros k Hk. rewrite (nth_indep _ 0 (sqrt 0)) by (rewrite map_length; lia). rewrite map_nth, vk2_nth by auto. reflexivity. }
    destruct i as [|a], j as [|b]; cbn [star].
    + exact e0_mean.
    + now rewrite SQ by lia.
    + now rewrite SQ by lia.
    + destruct (Nat.eqb_spec a b) as [->|]; [now rewrite ek_nth by lia|reflexivity].
  - intros [|i] [|j]; reflexivity.
Qed.
(** The spectrum of the star is the set of poles, each with weight 1/n on the impurity. *)
Theorem siam_spec U : exists H V, build_siam n (fun _ _ => 0) (fun _ _ => 0) U g = Ok (H, V) /\
  (forall i j, (i < n)%nat -> (j < n)%nat -> H i j = H j i) /\ (forall i j, V i j = if (i =? 0)%nat && (j =? 0)%nat then U else 0) /\
  exists u : nat -> nat -> R, orthonormal n n (fun i a => u a i) /\ (forall i, (i < n)%nat -> u 0%nat i * u 0%nat i = 1 / INR n) /\
    forall i a, (i < n)%nat -> (a < n)%nat -> rsum n (fun b => H a b * u b i) = p i * u a i.
Proof.
  destruct (siam_ok U) as (H & V & E & HH & HV). exists H, V. split; [exact E|]. split; [intros i j Hi Hj; rewrite !HH by auto; apply star_sym|]. split; [exact HV|].
  exists (u (n - 1) p ek). assert (SN : S (n - 1) = n) by lia. split; [|split].
  - intros i j Hi Hj. rewrite <- SN at 1. apply (u_cols (n - 1) p ek off' root' dist'); lia.
  - intros i Hi. cbn [u]. rewrite sq_n. rewrite SN. unfold Rdiv. ring.
  - intros i a Hi Ha. pose proof (star_eigen (n - 1) p ek off' root' dist' i a ltac:(lia) ltac:(lia)) as Q. rewrite SN in Q. rewrite <- Q. apply rsum_ext. intros b Hb. now rewrite HH.
Qed.
(** First column of the resolvent. *)
Lemma resolvent_00 (G : nat -> nat -> cx) H z : im z <> 0 -> (forall i j, (i < n)%nat -> (j < n)%nat -> H i j = st i j) -> inverse_mat n G (shifted_mat z H) ->
  G 0%nat 0%nat = mean_gf n p z.
Proof.
  intros Hz HH HI. assert (SN : S (n - 1) = n) by lia. pose proof (xs_0 (n - 1) p ek z) as X0. rewrite SN in X0. rewrite <- X0. set (X := xs (n - 1) p ek z).
  assert (EQ : forall a, (a < n)%nat -> csum n (fun b => cxmul (shifted_mat z H a b) (X b)) = delta a 0).
  { intros a Ha. pose proof (xs_eq (n - 1) p ek off' root' dist' z a Hz ltac:(lia)) as Q. rewrite SN in Q. fold X in Q.
    transitivity (rcx (if (a =? 0)%nat then 1 else 0)); [|unfold delta; destruct (a =? 0)%nat; reflexivity]. rewrite <- Q.
    rewrite (csum_ext n _ (fun b => cxsub (cxmul (cxmul z (delta a b)) (X b)) (cxmul (rcx (st a b)) (X b)))).
    - rewrite csum_sub. f_equal. rewrite (csum_single n _ a Ha).
      + unfold delta. rewrite Nat.eqb_refl. ring.
      + intros b Hb N. unfold delta. destruct (Nat.eqb_spec a b); [congruence|ring].
    - intros b Hb. unfold shifted_mat. rewrite HH by auto. ring. }
  transitivity (csum n (fun a => cxmul (G 0%nat a) (delta a 0))).
  - rewrite (csum_single n _ 0%nat Hn); [unfold delta; cbn [Nat.eqb]; ring|]. intros b Hb N. unfold delta. destruct (Nat.eqb_spec b 0); [congruence|ring].
  - rewrite (csum_ext n _ (fun a => csum n (fun b => cxmul (cxmul (G 0%nat a) (shifted_mat z H a b)) (X b)))).
    2: { intros a Ha. rewrite <- EQ by auto. rewrite <- csum_scal_l. apply csum_ext. intros. ring. }
    rewrite csum_swap. rewrite (csum_ext n _ (fun b => cxmul (delta 0 b) (X b))).
    + rewrite (csum_single n _ 0%nat Hn); [unfold delta; cbn [Nat.eqb]; ring|]. intros b Hb N. unfold delta. destruct (Nat.eqb_spec 0 b); [congruence|ring].
    + intros b Hb. destruct (HI 0%nat b Hn Hb) as [Q _]. rewrite <- Q.
      rewrite (csum_ext n _ (fun i => cxmul (X b) (cxmul (G 0%nat i) (shifted_mat z H i b)))) by (intros; ring). rewrite csum_scal_l. ring.
Qed.
End Fit.
