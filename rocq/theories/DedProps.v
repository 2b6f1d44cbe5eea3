(** C79-C84: distributional exact diagonalisation (dedlib.py). *)
From Coq Require Import String Reals List Arith NArith ZArith Bool Lia Lra Sorted Permutation.
From Verif Require Import Base RBase RLin CBase SectorModel LocalModel MatvecModel EspaceModel EspaceSpec ProjModel GfModel GfSpec GmSpec
  DedModel DedSpec DedFitProofs DedRootProofs DedProofs DedTrialProofs DedMoreProofs DedMoamProofs.
Import ListNotations.
Local Open Scope R_scope.

(** C79: poles are drawn by inverting the cumulative distribution. *)
Theorem C79_sampler p lo hi n nsamples : lo <= hi -> 0 <= nsamples -> (forall l, length (p l) = length l) -> (forall l x, In x (p l) -> 0 <= x) -> (forall l, l <> [] -> 0 < total (p l)) ->
  exists rs grid, sampler_init p lo hi n nsamples = Ok rs /\ rs_eners rs = grid /\ (forall x, In x grid -> lo <= x <= hi) /\
  (forall r i, 0 < r <= 1 -> (searchsorted (rs_cdf rs) r = i <-> (i < length grid)%nat /\
     rsum i (fun j => nth j (p grid) 0) < r * rsum (length grid) (fun j => nth j (p grid) 0) <= rsum (S i) (fun j => nth j (p grid) 0))) /\
  forall rands, (n <= length rands)%nat -> (forall r, In r rands -> 0 <= r <= 1) ->
    exists poles, sampler_call rs rands = Ok poles /\ length poles = n /\ StronglySorted Rle poles /\ (forall x, In x poles -> lo <= x <= hi) /\
      Permutation poles (map (fun r => nth (searchsorted (rs_cdf rs) r) grid 0) (firstn n rands)).
Proof. exact (sampler_spec p lo hi n nsamples). Qed.
Print Assumptions C79_sampler.
(** Two energies with equal weights. *)
Example C79_ex : exists rs, sampler_init (map (fun _ => 1)) 0 1 2 1 = Ok rs /\ sampler_call rs [3/4; 1/4] = Ok [0; 1].
Proof.
  assert (E : pyint ((1 - 0) * 1 + 1) = 2%Z).
  { unfold pyint, Rleb. destruct (Rle_dec 0 ((1 - 0) * 1 + 1)); [|lra]. replace ((1 - 0) * 1 + 1) with (IZR 2) by lra. unfold Int_part. rewrite <- (tech_up (IZR 2) 3); [reflexivity| |]; lra. }
  unfold sampler_init. rewrite E. unfold linspace. change (Z.to_nat 2) with 2%nat. eexists. split; [reflexivity|]. unfold sampler_call. cbn -[Rltb].
  unfold total. cbn -[Rltb]. unfold Rltb. repeat (match goal with |- context [Rlt_dec ?a ?b] => destruct (Rlt_dec a b); try lra end).
  cbn -[Rleb]. unfold Rleb. match goal with |- context [Rle_dec ?a ?b] => destruct (Rle_dec a b); try lra end. f_equal. f_equal; [lra|]. f_equal. lra.
Qed.

(** C80: between two neighbouring poles the averaged Green's function has exactly one
    zero; with these zeros the fitted impurity model reproduces the Green's function,
    and the Hamiltonian of build_siam has the poles as eigenvalues, each with the
    weight 1/n on the impurity. *)
Theorem C80_zeros n p k : increasing n p -> (S k < n)%nat ->
  exists x, p k < x < p (S k) /\ pole_sum n p x = 0 /\ forall y, p k < y < p (S k) -> pole_sum n p y = 0 -> y = x.
Proof. exact (fun inc Hk => gap_root n p inc k Hk). Qed.
Print Assumptions C80_zeros.
Theorem C80_fit fsolve poles : let n := length poles in let p := fun i => nth i poles 0 in let g := gfimp_fit fsolve poles in
  (0 < n)%nat -> increasing n p -> finds_roots fsolve n p ->
  length (g_ek g) = (n - 1)%nat /\ length (g_vk2 g) = (n - 1)%nat /\ g_e0 g = rsum n p / INR n /\
  gap_roots n p (fun k => nth k (g_ek g) 0) /\ (forall v, In v (g_vk2 g) -> 0 < v) /\
  forall z, im z <> 0 -> gfimp_call g z = mean_gf n p z /\ gf0_call poles z = mean_gf n p z.
Proof. exact (fit_spec fsolve poles). Qed.
Print Assumptions C80_fit.
Theorem C80_siam fsolve poles U : let n := length poles in let p := fun i => nth i poles 0 in let g := gfimp_fit fsolve poles in
  (0 < n)%nat -> increasing n p -> finds_roots fsolve n p ->
  exists H V, build_siam n (fun _ _ => 0) (fun _ _ => 0) U g = Ok (H, V) /\
  (forall i j, (i < n)%nat -> (j < n)%nat -> H i j = H j i) /\ (forall i j, V i j = if (i =? 0)%nat && (j =? 0)%nat then U else 0) /\
  exists u : nat -> nat -> R, orthonormal n n (fun i a => u a i) /\ (forall i, (i < n)%nat -> u 0%nat i * u 0%nat i = 1 / INR n) /\
    forall i a, (i < n)%nat -> (a < n)%nat -> rsum n (fun b => H a b * u b i) = p i * u a i.
Proof. exact (fun Hn inc HS => siam_spec fsolve poles Hn inc HS U). Qed.
Print Assumptions C80_siam.
(** Poles at -1 and 1: one level at 0 with the coupling 1. *)
Definition midpoint : (R -> R) -> R -> R := fun _ x0 => x0.
Lemma C80_ex_hyp : increasing 2 (fun i => nth i [-1; 1] 0) /\ finds_roots midpoint 2 (fun i => nth i [-1; 1] 0).
Proof.
  split.
  - intros i Hi. destruct i; [cbn; lra|lia].
  - intros f _ k Hk. destruct k; [|lia]. unfold midpoint, pole_sum, rsum, nsum. cbn. split; [lra|]. match goal with |- ?x = ?y => change (@eq R x y) end. field.
Qed.
Example C80_ex : gfimp_fit midpoint [-1; 1] = mkgfimp [0] [1] 0.
Proof.
  unfold gfimp_fit, gf0_derivative, midpoint. cbn [length Nat.sub seq map nth].
  assert (E : (1 + -1) / 2 = 0) by lra. rewrite E. f_equal; [f_equal|]; unfold rsum, nsum; cbn; match goal with |- ?x = ?y => change (@eq R x y) end; field; lra.
Qed.

(** C81: siam_solve returns averages over exactly N accepted trials (and counts the
    self-energy passed in); without interaction and with sigma0 = 0 every trial is
    accepted and the self-energy is 0. *)
Theorem C81_average big half eigh eigsh fsolve kB wild n U sigma0 beta zs dos nsamples sigma N draws r :
  (match sigma with Some s => length s = length zs | None => True end) ->
  siam_solve big half eigh eigsh fsolve kB wild n U sigma0 beta zs dos nsamples sigma N draws = Ok r ->
  exists z0 rs m outs, hd_error zs = Some z0 /\ sampler_init dos (re z0) (re (last zs z0)) n nsamples = Ok rs /\ (0 < N)%nat /\
    (m <= length draws)%nat /\
    mapM (fun d => do poles <- sampler_call rs d; siam_trial big half eigh eigsh fsolve kB wild n U sigma0 beta zs poles) (firstn m draws) = Ok outs /\
    length (accepted outs) = N /\ ends_accepted outs /\ length (i_sigma r) = length zs /\
    (forall j, (j < length zs)%nat -> nth j (i_sigma r) (rcx 0) =
       cxdiv (cxadd (match sigma with Some s => nth j s (rcx 0) | None => rcx 0 end) (csum N (fun t => nth j (nth t (map i_sigma (accepted outs)) []) (rcx 0)))) (rcx (INR N))) /\
    i_occ0 r = rsum N (fun t => nth t (map i_occ0 (accepted outs)) 0) / INR N /\ i_occ1 r = rsum N (fun t => nth t (map i_occ1 (accepted outs)) 0) / INR N /\
    i_entropy r = rsum N (fun t => nth t (map i_entropy (accepted outs)) 0) / (INR N * kB).
Proof. exact (solve_spec big half eigh eigsh fsolve kB wild n U sigma0 beta zs dos nsamples sigma N draws r). Qed.
Print Assumptions C81_average.
Theorem C81_free big half eigh eigsh fsolve kB wild n beta zs dos nsamples N draws r :
  (1 < n)%nat -> (n <= 32)%nat -> half + half = 1 -> eigh_sound RRing eigh -> eigsh_sound RRing eigsh -> eigh_complete eigh -> (forall z, In z zs -> im z <> 0) ->
  (forall rs d poles, In d draws -> sampler_init dos (re (hd (rcx 0) zs)) (re (last zs (rcx 0))) n nsamples = Ok rs -> sampler_call rs d = Ok poles ->
     length poles = n /\ increasing n (fun i => nth i poles 0) /\ finds_roots fsolve n (fun i => nth i poles 0) /\ forall v, In v (g_vk2 (gfimp_fit fsolve poles)) -> big (- sqrt v) = true) ->
  siam_solve big half eigh eigsh fsolve kB wild n 0 0 beta zs dos nsamples None N draws = Ok r ->
  i_sigma r = map (fun _ => rcx 0) zs /\ i_occ1 r = i_occ0 r.
Proof. exact (fun a b c d e f g => solve_free big half eigh eigsh fsolve kB wild n beta zs a b c d e f g dos nsamples N draws r). Qed.
Print Assumptions C81_free.
Theorem C81_free_trial big half eigh eigsh fsolve kB wild n beta zs poles r :
  (1 < n)%nat -> (n <= 32)%nat -> half + half = 1 -> eigh_sound RRing eigh -> eigsh_sound RRing eigsh -> eigh_complete eigh -> (forall z, In z zs -> im z <> 0) ->
  length poles = n -> increasing n (fun i => nth i poles 0) -> finds_roots fsolve n (fun i => nth i poles 0) ->
  (forall v, In v (g_vk2 (gfimp_fit fsolve poles)) -> big (- sqrt v) = true) ->
  siam_trial big half eigh eigsh fsolve kB wild n 0 0 beta zs poles = Ok r ->
  exists i, r = Some i /\ i_sigma i = map (fun _ => rcx 0) zs /\ i_occ1 i = i_occ0 i.
Proof. exact (fun a b c d e f g => free_trial big half eigh eigsh fsolve kB wild n beta zs a b c d e f g poles r). Qed.
Print Assumptions C81_free_trial.

(** C82: get_occupation is the expectation value of n_up + n_dw on one site; over all
    sites it adds up to the number of electrons. *)
Theorem C82_occupation v up dw pos : (length v = length dw * length up)%nat -> ded_occupation v up dw pos = Ok (site_occupation v up dw pos).
Proof. exact (ded_occupation_spec v up dw pos). Qed.
Print Assumptions C82_occupation.
Theorem C82_length v up dw pos : (length v <> length dw * length up)%nat -> ded_occupation v up dw pos = Err ValueError.
Proof. exact (ded_occupation_bad v up dw pos). Qed.
Print Assumptions C82_length.
Theorem C82_total n p q up dw v : (p <= n)%nat -> (q <= n)%nat -> (n <= 32)%nat -> generate_states n p = Ok up -> generate_states n q = Ok dw ->
  rsum n (fun pos => site_occupation v up dw pos) = INR (p + q) * rsum (length up * length dw) (fun a => nth a v 0 * nth a v 0).
Proof. exact (occupation_total n p q up dw v). Qed.
Print Assumptions C82_total.
Theorem C82_range v up dw pos : 0 <= site_occupation v up dw pos <= 2 * rsum (length up * length dw) (fun a => nth a v 0 * nth a v 0).
Proof. exact (occupation_range v up dw pos). Qed.
Print Assumptions C82_range.
(** The occupation siam_solve adds up is that of the first eigenvector of the sector,
    with the up states along the rows. *)
Theorem C82_ground sc v c up dw pos : s_vecs RRing sc = Cols RRing (v :: c) -> s_states RRing sc = StSz up dw -> (length v = length dw * length up)%nat ->
  gs_occupation sc pos = Ok (site_occupation v up dw pos).
Proof. intros HV HS HL. unfold gs_occupation. rewrite HV, HS. exact (ded_occupation_spec v up dw pos HL). Qed.
Print Assumptions C82_ground.
(** Two sites, one electron of either spin; the down electron is on site 1. *)
Example C82_ex : generate_states 2 1 = Ok [1%N; 2%N] /\ ded_occupation [3/5; 0; 0; 4/5] [1%N; 2%N] [1%N; 2%N] 1 = Ok (2 * (4/5 * (4/5))).
Proof. split; [reflexivity|]. rewrite ded_occupation_spec by reflexivity. f_equal. unfold site_occupation, rsum, nsum. cbn. match goal with |- ?x = ?y => change (@eq R x y) end. lra. Qed.

(** C83: the entropy of a spectrum is the Gibbs entropy, whatever the reference
    energy, and lies between 0 and kB ln M; get_entropy subtracts that of the bath. *)
Theorem C83_entropy kB beta egs spectrum : 0 < kB -> 0 < beta -> (0 < length (concat spectrum))%nat ->
  let '(E, Z) := entropy_params spectrum egs beta in
  calc_entropy kB Z E (1 / (kB * beta)) = kB * shannon (length (concat spectrum)) (gibbs beta (length (concat spectrum)) (fun i => nth i (concat spectrum) 0)).
Proof. exact (fun a b c => entropy_spec kB beta egs a b spectrum c). Qed.
Print Assumptions C83_entropy.
Theorem C83_bounds beta spectrum : 0 < beta -> (0 < length (concat spectrum))%nat ->
  0 <= shannon (length (concat spectrum)) (gibbs beta (length (concat spectrum)) (fun i => nth i (concat spectrum) 0)) <= ln (INR (length (concat spectrum))).
Proof. exact (fun _ c => shannon_bounds beta spectrum c). Qed.
Print Assumptions C83_bounds.
Theorem C83_entropy_def kB spectrum bath egs egs_bath beta : ded_entropy kB spectrum bath egs egs_bath beta =
  (let '(E, Z) := entropy_params spectrum egs beta in calc_entropy kB Z E (1 / (kB * beta))) - (let '(E, Z) := entropy_params bath egs_bath beta in calc_entropy kB Z E (1 / (kB * beta))).
Proof. unfold ded_entropy. now destruct (entropy_params spectrum egs beta), (entropy_params bath egs_bath beta). Qed.
Print Assumptions C83_entropy_def.
(** Two degenerate levels in different sectors: kB ln 2. *)
Example C83_ex : let '(E, Z) := entropy_params [[3]; [3]] 3 1 in calc_entropy 1 Z E 1 = ln 2.
Proof. unfold entropy_params, calc_entropy, total. cbn. rewrite Rminus_diag_eq, Rmult_0_r, exp_0 by reflexivity. replace (0 + (0 + 1) + (0 + 1)) with 2 by lra. lra. Qed.

(** C84: build_moam writes one star per impurity; moam_solve refuses a scalar U (its
    default) and a missing sigma0, and divides by N although an impurity may have
    been accepted fewer times. *)
Theorem C84_blocks nimp nb n gs : length gs = nimp -> (nimp + nimp * nb <= n)%nat -> (forall g, In g gs -> length (g_vk2 g) = nb /\ length (g_ek g) = nb) ->
  exists H, build_moam n (fun _ _ => 0) gs = Ok H /\
  forall i j a b, (i < nimp)%nat -> (j < nimp)%nat -> (a <= nb)%nat -> (b <= nb)%nat -> H (moam_site nimp nb i a) (moam_site nimp nb j b) =
    if (i =? j)%nat then let g := nth i gs (mkgfimp [] [] 0) in star (g_e0 g) (fun k => nth k (g_ek g) 0) (fun k => sqrt (nth k (g_vk2 g) 0)) a b else 0.
Proof. exact (moam_blocks nimp nb n gs). Qed.
Print Assumptions C84_blocks.
Theorem C84_sites nimp nb i j a b : (i < nimp)%nat -> (j < nimp)%nat -> (a <= nb)%nat -> (b <= nb)%nat -> moam_site nimp nb i a = moam_site nimp nb j b -> i = j /\ a = b.
Proof. exact (site_inj nimp nb i j a b). Qed.
Print Assumptions C84_sites.
Theorem C84_scalar_refuted {D P A} (pre : D -> res P) (post : A -> P -> res (list (option increment))) given N d draws sigma x :
  (0 < N)%nat -> pre d = Ok x -> moam_solve pre post given UScalar N (d :: draws) sigma = Err UnboundLocalError.
Proof. exact (moam_scalar pre post given N d draws sigma x). Qed.
Print Assumptions C84_scalar_refuted.
Theorem C84_needs {D P A} (pre : D -> res P) (post : A -> P -> res (list (option increment))) given U N draws sigma r :
  (0 < N)%nat -> moam_solve pre post given U N draws sigma = Ok r -> given = true /\ exists a, U = UArray a \/ U = UDict a.
Proof. exact (moam_needs pre post given U N draws sigma r). Qed.
Print Assumptions C84_needs.
Theorem C84_sums {D P A} (pre : D -> res P) (post : A -> P -> res (list (option increment))) given U N draws sigma r nz :
  (forall v x r, post v x = Ok r -> length r = length sigma /\ forall i, In (Some i) r -> length (i_sigma i) = nz) ->
  (forall s, In s sigma -> length s = nz) -> moam_solve pre post given U N draws sigma = Ok r ->
  exists m outs, (m <= length draws)%nat /\ mapM (moam_trial pre post given U) (firstn m draws) = Ok outs /\
  length (filter (existsb (fun o => match o with Some _ => true | None => false end)) outs) = N /\ length r = length sigma /\
  forall i, (i < length sigma)%nat -> let incs := accepted (map (fun o => nth i o None) outs) in (length incs <= N)%nat /\
    forall j, (j < nz)%nat -> nth j (i_sigma (nth i r (mkinc [] 0 0 0))) (rcx 0) =
      cxdiv (cxadd (nth j (nth i sigma []) (rcx 0)) (csum (length incs) (fun t => nth j (nth t (map i_sigma incs) []) (rcx 0)))) (rcx (INR N)).
Proof. exact (moam_spec pre post given U N draws sigma r nz). Qed.
Print Assumptions C84_sums.
(** Two rounds; the first impurity always meets its condition, the second only once,
    with the self-energy 1: the result is not the average 1 but 1/2. *)
Definition ex_post (_ : unit) (x : bool) : res (list (option increment)) :=
  Ok [Some (mkinc [rcx 1] 1 1 0); if x then Some (mkinc [rcx 1] 1 1 0) else None].
Theorem C84_average_refuted : exists a b, moam_solve (fun d => Ok d) ex_post true (UArray tt) 2 [true; false] [[rcx 0]; [rcx 0]] = Ok [a; b] /\
  i_sigma a = [rcx 1] /\ i_sigma b = [rcx (1/2)] /\ i_occ0 b = 1/2 /\ i_occ1 b = 1/2.
Proof.
  eexists. eexists. split; [reflexivity|]. cbn. unfold rcx, cxdiv, cxinv, cxadd, cxmul, cxn2. cbn.
  repeat split; try (f_equal; f_equal; field); try field.
Qed.
Print Assumptions C84_average_refuted.
Example C84_ex_blocks : match build_moam 4 (fun _ _ => 0) [mkgfimp [5] [4] 1; mkgfimp [6] [9] 2] with
  | Ok H => map (fun i => map (H i) (seq 0 4)) (seq 0 4) = [[1; 0; - sqrt 4; 0]; [0; 2; 0; - sqrt 9]; [- sqrt 4; 0; 5; 0]; [0; - sqrt 9; 0; 6]]
  | _ => False end.
Proof. reflexivity. Qed.
