(** C115, C116: the development version of the distributional solver (dedlib_dev.py). *)
From Coq Require Import String Reals List Arith NArith ZArith Bool Lia Lra Psatz.
From Verif Require Import Base RBase RLin CBase OperatorsModel OperatorsSpec LookupSpec SectorModel SectorSpec LocalModel MatvecModel MbModel EspaceModel ProjModel CfModel GfModel DedModel DedSpec DedTrialProofs DedMoamProofs EighProofs ExactSpec ExactFinalProofs ExactProps DevModel DevSpec DevProofs DevRunProofs.
Import ListNotations.
Local Open Scope R_scope.

(** C115: get_occupation never returns, hence neither does ded_solve, whatever the missing
    body of get_evecs_occupation would compute. *)
Theorem C115_occupation_refuted body es egs beta : exists e, dev_occupation body es egs beta = Err e.
Proof. exact (dev_occupation_never body es egs beta). Qed.
Print Assumptions C115_occupation_refuted.
Theorem C115_solve_refuted big half eigh eigsh fsolve kB wild body n U sigma0 beta zs dos nsamples sigma N draws :
  exists e, dev_solve big half eigh eigsh fsolve kB wild (dev_occupation body) n U sigma0 beta zs dos nsamples sigma N draws = Err e.
Proof. exact (solve_never big half eigh eigsh fsolve kB wild n U sigma0 beta zs body dos nsamples sigma N draws). Qed.
Print Assumptions C115_solve_refuted.
(** With up to six sites (no sector above 512 states) and a working eigensolver and root
    finder, it is a TypeError for every sample. *)
Theorem C115_type_error big half eigh eigsh fsolve kB wild body n U sigma0 beta zs dos nsamples sigma N d draws z0 rs poles : (1 < n)%nat -> (n <= 6)%nat -> half + half = 1 -> eigh_contract eigh ->
  (0 < N)%nat -> hd_error zs = Some z0 -> sampler_init dos (re z0) (re (last zs z0)) n nsamples = Ok rs -> sampler_call rs d = Ok poles ->
  length poles = n -> increasing n (fun i => nth i poles 0) -> finds_roots fsolve n (fun i => nth i poles 0) ->
  dev_solve big half eigh eigsh fsolve kB wild (dev_occupation body) n U sigma0 beta zs dos nsamples sigma N (d :: draws) = Err TypeError.
Proof. exact (fun a b c d' => solve_raises big half eigh eigsh fsolve kB wild n U sigma0 beta zs a b c d' body dos nsamples sigma N d draws z0 rs poles). Qed.
Print Assumptions C115_type_error.
Theorem C115_trial_refuted big half eigh eigsh fsolve kB wild body n U sigma0 beta zs poles : (1 < n)%nat -> (n <= 6)%nat -> half + half = 1 -> eigh_contract eigh ->
  length poles = n -> increasing n (fun i => nth i poles 0) -> finds_roots fsolve n (fun i => nth i poles 0) ->
  dev_trial big half eigh eigsh fsolve kB wild (dev_occupation body) n U sigma0 beta zs poles = Err TypeError.
Proof. exact (fun a b c d => trial_raises big half eigh eigsh fsolve kB wild n U sigma0 beta zs a b c d body poles). Qed.
Print Assumptions C115_trial_refuted.
(** Poles -1 and 1 (the same input on which siam_solve of dedlib.py succeeds, C88). *)
Example C115_ex_type : dev_trial (fun _ => true) (/ 2) real_eigh (fun _ _ _ => Err ValueError) (fun _ x0 => x0) 1 (fun s _ => s) (dev_occupation (fun _ => Ok 1)) 2 2 1 10 [(0, 1)] [-1; 1] = Err TypeError.
Proof.
  apply C115_trial_refuted; [lia|lia|lra|exact real_eigh_contract|reflexivity| |].
  - intros i Hi. destruct i; [cbn; lra|lia].
  - intros f _ k Hk. destruct k; [|lia]. unfold pole_sum, rsum, nsum. cbn. split; [lra|]. match goal with |- ?x = ?y => change (@eq R x y) end. field.
Qed.

(** If the occupations could be computed, the result would be a mean over all passes,
    accepted or not, with the weight exp(-beta |E(N1) - E(N0)|): 1 for the accepted ones and
    positive for the others; an array that is passed in is added. *)
Theorem C115_weighted big half eigh eigsh fsolve kB wild occ n U sigma0 beta zs dos nsamples sigma N draws r : 0 <= beta -> (match sigma with Some s => length s = length zs | None => True end) ->
  dev_solve big half eigh eigsh fsolve kB wild occ n U sigma0 beta zs dos nsamples sigma N draws = Ok r ->
  exists z0 rs m outs, hd_error zs = Some z0 /\ sampler_init dos (re z0) (re (last zs z0)) n nsamples = Ok rs /\ (0 < N)%nat /\ (m <= length draws)%nat /\
  mapM (fun d => do poles <- sampler_call rs d; dev_trial big half eigh eigsh fsolve kB wild occ n U sigma0 beta zs poles) (firstn m draws) = Ok outs /\ length (filter t_found outs) = N /\ ends_with t_found outs /\
  (forall t, In t outs -> 0 < t_weight t <= 1 /\ (t_found t = true -> t_weight t = 1)) /\
  let k := length outs in let w := fun t => t_weight (nth t outs (mktrial false 0 (mkinc [] 0 0 0))) in let inc := fun t => t_inc (nth t outs (mktrial false 0 (mkinc [] 0 0 0))) in
  length (i_sigma r) = length zs /\
  (forall j, (j < length zs)%nat -> nth j (i_sigma r) (rcx 0) = weighted_cmean k w (match sigma with Some s => nth j s (rcx 0) | None => rcx 0 end) (fun t => nth j (i_sigma (inc t)) (rcx 0))) /\
  i_occ0 r = weighted_mean k w 0 (fun t => i_occ0 (inc t)) /\ i_occ1 r = weighted_mean k w 0 (fun t => i_occ1 (inc t)) /\
  i_entropy r = weighted_mean k w 0 (fun t => i_entropy (inc t)) / kB.
Proof. exact (solve_weighted big half eigh eigsh fsolve kB wild n U sigma0 beta zs occ dos nsamples sigma N draws r). Qed.
Print Assumptions C115_weighted.
(** The weights: one trial at a time. *)
Theorem C115_weight big half eigh eigsh fsolve kB wild occ n U sigma0 beta zs poles t : dev_trial big half eigh eigsh fsolve kB wild occ n U sigma0 beta zs poles = Ok t ->
  length (i_sigma (t_inc t)) = length zs /\ 0 < t_weight t /\ (0 <= beta -> t_weight t <= 1) /\ (t_found t = true -> t_weight t = 1).
Proof. exact (trial_weight big half eigh eigsh fsolve kB wild n U sigma0 beta zs occ poles t). Qed.
Print Assumptions C115_weight.
(** The loop for any trials. *)
Theorem C115_rounds {D} (trial : D -> res trial_t) kB sigma N draws r : (forall d t, In d draws -> trial d = Ok t -> length (i_sigma (t_inc t)) = length sigma) ->
  dev_rounds trial kB sigma N draws = Ok r ->
  (0 < N)%nat /\ exists m outs, (m <= length draws)%nat /\ mapM trial (firstn m draws) = Ok outs /\ length (filter t_found outs) = N /\ ends_with t_found outs /\
  let k := length outs in let w := fun t => t_weight (nth t outs (mktrial false 0 (mkinc [] 0 0 0))) in let inc := fun t => t_inc (nth t outs (mktrial false 0 (mkinc [] 0 0 0))) in
  length (i_sigma r) = length sigma /\
  (forall j, (j < length sigma)%nat -> nth j (i_sigma r) (rcx 0) = weighted_cmean k w (nth j sigma (rcx 0)) (fun t => nth j (i_sigma (inc t)) (rcx 0))) /\
  i_occ0 r = weighted_mean k w 0 (fun t => i_occ0 (inc t)) /\ i_occ1 r = weighted_mean k w 0 (fun t => i_occ1 (inc t)) /\
  i_entropy r = weighted_mean k w 0 (fun t => i_entropy (inc t)) / kB.
Proof. exact (rounds_spec trial kB sigma N draws r). Qed.
Print Assumptions C115_rounds.
(** A rejected sample with weight 1/2 changes the result: 1/3 instead of 0. *)
Theorem C115_condition_refuted : exists r, dev_rounds (fun b : bool => Ok (mktrial b (if b then 1 else 1 / 2) (mkinc [rcx (if b then 0 else 1)] 0 0 0))) 1 [rcx 0] 1 [false; true] = Ok r /\ i_sigma r = [rcx (1 / 3)].
Proof.
  eexists. split; [reflexivity|]. cbn. unfold rcx, cxdiv, cxinv, cxadd, cxmul, cxn2. cbn. do 2 f_equal; field.
Qed.
Print Assumptions C115_condition_refuted.

(** C116: several impurities: per impurity the mean over the samples accepted for it, 0 if
    there are none; the array passed in does not matter. *)
Theorem C116_mean {D P A} (pre : D -> res P) (post : A -> P -> res (list (option increment))) given U N draws sigma r nz :
  (forall v x r, post v x = Ok r -> length r = length sigma /\ forall i, In (Some i) r -> length (i_sigma i) = nz) ->
  (forall s, In s sigma -> length s = nz) -> multi_solve pre post given U N draws sigma = Ok r ->
  exists m outs, (m <= length draws)%nat /\ mapM (moam_trial pre post given U) (firstn m draws) = Ok outs /\
  length (filter (existsb (fun o => match o with Some _ => true | None => false end)) outs) = N /\ length r = length sigma /\
  forall i, (i < length sigma)%nat -> let incs := accepted (map (fun o => nth i o None) outs) in let ri := nth i r (mkinc [] 0 0 0) in
    length (i_sigma ri) = nz /\ (forall j, (j < nz)%nat -> nth j (i_sigma ri) (rcx 0) = cmean (map (fun x => nth j (i_sigma x) (rcx 0)) incs)) /\
    i_occ0 ri = rmean (map i_occ0 incs) /\ i_occ1 ri = rmean (map i_occ1 incs).
Proof. exact (multi_mean pre post given U N draws sigma r nz). Qed.
Print Assumptions C116_mean.
Theorem C116_scalar_refuted {D P A} (pre : D -> res P) (post : A -> P -> res (list (option increment))) given N d draws sigma x :
  (0 < N)%nat -> pre d = Ok x -> multi_solve pre post given UScalar N (d :: draws) sigma = Err UnboundLocalError.
Proof. exact (multi_scalar pre post given N d draws sigma x). Qed.
Print Assumptions C116_scalar_refuted.
Theorem C116_needs {D P A} (pre : D -> res P) (post : A -> P -> res (list (option increment))) given U N draws sigma r :
  (0 < N)%nat -> multi_solve pre post given U N draws sigma = Ok r -> given = true /\ exists a, U = UArray a \/ U = UDict a.
Proof. exact (multi_needs pre post given U N draws sigma r). Qed.
Print Assumptions C116_needs.
(** Two rounds; the second impurity meets its condition once, with the value 1 (moam_solve of
    dedlib.py returns 1/2, C84), the third never. *)
Definition ex_post3 (_ : unit) (x : bool) : res (list (option increment)) :=
  Ok [Some (mkinc [rcx 1] 1 1 0); if x then Some (mkinc [rcx 1] 1 1 0) else None; None].
Example C116_ex : exists a b c, multi_solve (fun d => Ok d) ex_post3 true (UArray tt) 2 [true; false] [[rcx 5]; [rcx 5]; [rcx 5]] = Ok [a; b; c] /\
  i_sigma a = [rcx 1] /\ i_sigma b = [rcx 1] /\ i_occ1 b = 1 /\ i_sigma c = [rcx 0].
Proof.
  eexists. eexists. eexists. split; [reflexivity|]. cbn. unfold rcx, cxdiv, cxinv, cxadd, cxmul, cxn2. cbn.
  repeat split; try (f_equal; f_equal; field); try field.
Qed.

(** C117: a limit on the number of states per sector. *)
Theorem C117_lowest big half n h fl V hf mu z U eigh eigsh m es egs : model_ok half n h fl V U -> eigh_contract eigh -> (forall p q, (p <= n)%nat -> (q <= n)%nat -> (binom n p * binom n q <= 512)%nat) ->
  (0 < m)%nat -> build_espace RRing Rleb big half eigh eigsh n h fl V hf mu z None "sz" = Ok (es, egs) ->
  exists req, get_espace_dim n (Some (Z.of_nat m)) "sz" = Ok req /\
  build_espace RRing Rleb big half eigh eigsh n h fl V hf mu z (Some req) "sz" =
    Ok (map (fun e => (fst e, mksct RRing (s_states RRing (snd e)) (firstn m (s_vals RRing (snd e))) (match s_vecs RRing (snd e) with Cols _ c => Cols RRing (firstn m c) | v => v end))) es, egs).
Proof. exact (fun MO HC SM Hm => cut_espace big half n h fl V hf mu z U eigh eigsh MO HC SM m Hm es egs). Qed.
Print Assumptions C117_lowest.
(** The search for the ground sector is not affected. *)
Theorem C117_ground_sector m tol es egs : (0 < m)%nat ->
  gs_sector tol (map (fun e => (fst e, mksct RRing (s_states RRing (snd e)) (firstn m (s_vals RRing (snd e))) (match s_vecs RRing (snd e) with Cols _ c => Cols RRing (firstn m c) | v => v end))) es) egs =
  match gs_sector tol es egs with Ok (k, s) => Ok (k, mksct RRing (s_states RRing s) (firstn m (s_vals RRing s)) (match s_vecs RRing s with Cols _ c => Cols RRing (firstn m c) | v => v end)) | Err e => Err e end.
Proof. exact (fun Hm => gs_cut m Hm tol es egs). Qed.
Print Assumptions C117_ground_sector.
Theorem C117_dims n : (n <= 6)%nat -> forall p q, (p <= n)%nat -> (q <= n)%nat -> (binom n p * binom n q <= 512)%nat.
Proof. exact (small_dims n). Qed.
Print Assumptions C117_dims.
(** The two sites of C85, at most three states per sector: the sector with one electron of
    each spin has four, and keeps three. *)
Example C117_ex : exists es e, get_espace_dim 2 (Some 3%Z) "sz" = Ok [1; 2; 1; 2; 3; 2; 1; 2; 1]%Z /\
  build_espace RRing Rleb (fun _ => true) (/ 2) real_eigh (fun _ _ _ => Err ValueError) 2 dim_h dim_fl (VArray RRing dim_U) false (-1) None (Some [1; 2; 1; 2; 3; 2; 1; 2; 1]%Z) "sz" = Ok (es, Some e) /\ e <= -3 /\
  exists s, In ([1; 1]%nat, s) es /\ length (s_vals RRing s) = 3%nat.
Proof.
  destruct C85_ex as (es & e & E & L). destruct (C117_lowest _ _ _ _ _ _ _ _ _ _ _ _ 3 es (Some e) dim_ok real_eigh_contract (C117_dims 2 ltac:(lia)) ltac:(lia) E) as (req & ER & EC).
  assert (Q : get_espace_dim 2 (Some (Z.of_nat 3)) "sz" = Ok [1; 2; 1; 2; 3; 2; 1; 2; 1]%Z) by (vm_compute; reflexivity). rewrite Q in ER. injection ER as <-.
  eexists. exists e. split; [exact Q|]. split; [exact EC|]. split; [exact L|].
  destruct (C85_sectors _ _ _ _ _ _ _ _ _ _ _ _ es (Some e) dim_ok real_eigh_contract E) as (_ & KEY & SEC).
  assert (I : In [1; 1]%nat (map fst es)) by (apply KEY; exists 1%nat, 1%nat; auto). apply in_map_iff in I. destruct I as ([k s] & K & I). cbn [fst] in K. subst k.
  eexists. split; [apply (in_map (fun e => (fst e, mksct RRing _ _ _)) es _ I)|]. cbn [snd s_vals].
  destruct (SEC _ _ _ I) as (up & dw & cols & S1 & S2 & UP & DW & NU & ND & LV & _).
  assert (LL : length (s_vals RRing s) = 4%nat).
  { assert (LEN : forall l, (forall u, In u l <-> (u < 2 ^ N.of_nat 2)%N /\ popcount u = 1%nat) -> NoDup l -> length l = 2%nat).
    { intros l H N1. change 2%nat with (length [1; 2]%N). apply Nat.le_antisymm; apply NoDup_incl_length; auto.
      - intros u Hu. apply H in Hu. destruct Hu as [Hu P]. assert (u = 0 \/ u = 1 \/ u = 2 \/ u = 3)%N as [->|[->|[->| ->]]] by (cbn in Hu; lia); try discriminate P; cbn; auto.
      - repeat constructor; cbn; intuition discriminate.
      - intros u [<-|[<-|[]]]; apply H; split; reflexivity. }
    rewrite (LEN up UP NU), (LEN dw DW ND) in LV. exact LV. }
  rewrite firstn_length. clear - LL. match goal with |- Nat.min 3 ?x = _ => replace x with 4%nat by (symmetry; exact LL) end. reflexivity.
Qed.
