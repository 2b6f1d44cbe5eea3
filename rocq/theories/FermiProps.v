(** * C89-C92: integrals of Green's functions up to the chemical potential. *)
From Coq Require Import Reals List Arith ZArith Bool Lia Lra.
From Verif Require Import Base RBase RLin CBase FermiModel FermiSpec LambertProofs FermiMoreProofs FermiFinalProofs MatsumProofs.
Import ListNotations.
Local Open Scope R_scope.

(** C89: zero_fermi returns nzp increasing positive poles with negative residues, and
    the rational function they define is the 2*nzp-th convergent of Lambert's
    continued fraction of tanh. *)
Theorem C89_poles geigh nzp : geigh_contract geigh -> (0 < nzp)%nat ->
  exists zp Rp, zero_fermi geigh nzp = Ok (zp, Rp) /\ length zp = nzp /\ length Rp = nzp /\
    (forall k, (k < nzp)%nat -> 0 < nth k zp 0 /\ nth k Rp 0 < 0) /\
    (forall j k, (j < k)%nat -> (k < nzp)%nat -> nth j zp 0 < nth k zp 0) /\
    forall x, rsum nzp (fun k => - 4 * nth k Rp 0 / (x * x + nth k zp 0 * nth k zp 0)) * x = tanh_cf (2 * nzp) (x / 2).
Proof. exact (poles_shape geigh nzp). Qed.
Print Assumptions C89_poles.

(** The convergents approximate tanh from the side of 0, with an explicit error. *)
Theorem C89_tanh m t :
  (0 <= t -> 0 <= tanh_cf (2 * m) t <= tanh t) /\ (t <= 0 -> tanh t <= tanh_cf (2 * m) t <= 0) /\
  Rabs (tanh t - tanh_cf m t) <= Rabs t * odd_product m t.
Proof. exact (eq_ind _ (fun b => _ /\ _ /\ Rabs (tanh t - tanh_cf m t) <= Rabs t * b) (tanh_cf_spec m t) _ (cf_bound_odd m t)). Qed.
Print Assumptions C89_tanh.

(** C90: for a Green's function with real poles the result is exact in closed form,
    whatever radius R the caller passes. *)
Theorem C90_closed geigh kB gf mu T nzp Rarg m w e : geigh_contract geigh -> (0 < nzp)%nat -> kB * T <> 0 -> pole_function m w e gf ->
  integrate_gf geigh kB gf mu T nzp Rarg =
    Ok (rsum m (fun i => w i * ((radius * radius / (radius * radius + e i * e i) - tanh_cf (2 * nzp) ((e i - mu) / (2 * (kB * T)))) / 2))).
Proof. exact (fun G N T0 P => integrate_exact m w e gf P geigh nzp kB mu T Rarg G N T0). Qed.
Print Assumptions C90_closed.

(** Distance from the number of electrons in the poles, with the Fermi function. *)
Theorem C90_accuracy geigh kB gf mu T nzp Rarg m w e : geigh_contract geigh -> (0 < nzp)%nat -> kB * T <> 0 -> pole_function m w e gf ->
  exists x, integrate_gf geigh kB gf mu T nzp Rarg = Ok x /\
    Rabs (x - rsum m (fun i => w i * fermi ((e i - mu) / (kB * T)))) <=
      rsum m (fun i => Rabs (w i) * ((e i * e i / (radius * radius + e i * e i)
        + Rabs ((e i - mu) / (2 * (kB * T))) * odd_product (2 * nzp) ((e i - mu) / (2 * (kB * T)))) / 2)).
Proof. exact (integrate_accuracy geigh kB gf mu T nzp Rarg m w e). Qed.
Print Assumptions C90_accuracy.

(** More poles remove the error of the Fermi function; the error of the finite radius stays. *)
Theorem C90_limit geigh kB gf mu T m w e : geigh_contract geigh -> kB * T <> 0 -> pole_function m w e gf ->
  forall eps, 0 < eps -> exists n0, forall nzp Rarg, (n0 <= nzp)%nat ->
    exists x, integrate_gf geigh kB gf mu T nzp Rarg = Ok x /\
      Rabs (x - rsum m (fun i => w i * fermi ((e i - mu) / (kB * T)))) <= rsum m (fun i => Rabs (w i) * (e i * e i / (radius * radius + e i * e i) / 2)) + eps.
Proof. exact (integrate_limit geigh kB gf mu T m w e). Qed.
Print Assumptions C90_limit.

(** Up to that radius term one level is never further from half filling than the
    Fermi function says: too few poles always smear the occupation. *)
Theorem C90_biased geigh kB gf mu T nzp Rarg e : geigh_contract geigh -> (0 < nzp)%nat -> 0 < kB * T -> pole_function 1 (fun _ => 1) (fun _ => e) gf ->
  exists x, integrate_gf geigh kB gf mu T nzp Rarg = Ok x /\ let y := x + e * e / (radius * radius + e * e) / 2 in
    (mu <= e -> fermi ((e - mu) / (kB * T)) <= y <= 1 / 2) /\ (e <= mu -> 1 / 2 <= y <= fermi ((e - mu) / (kB * T))).
Proof. exact (integrate_biased geigh kB gf mu T nzp Rarg e). Qed.
Print Assumptions C90_biased.

(** C91: an array of chemical potentials is treated element by element if it has one
    element or if nzp = 1 ... *)
Theorem C91_single geigh kB gf mus T nzp Rarg : length mus = 1%nat \/ nzp = 1%nat -> mus <> [] ->
  integrate_gf_array geigh kB gf mus T nzp Rarg = mapM (fun mu => integrate_gf geigh kB gf mu T nzp Rarg) mus.
Proof. exact (array_single geigh kB gf mus T nzp Rarg). Qed.
Print Assumptions C91_single.

(** ... and not otherwise: np.resize deals the poles out along the chemical potentials, so
    that equal chemical potentials get different occupations. *)
Theorem C91_array_refuted geigh kB gf mu T nzp Rarg e : geigh_contract geigh -> (2 <= nzp)%nat -> kB * T <> 0 -> e <> mu ->
  pole_function 1 (fun _ => 1) (fun _ => e) gf ->
  exists xs, integrate_gf_array geigh kB gf (repeat mu nzp) T nzp Rarg = Ok xs /\ length xs = nzp /\ nth 0 xs 0 <> nth 1 xs 0.
Proof. exact (array_wrong geigh kB gf mu T nzp Rarg e). Qed.
Print Assumptions C91_array_refuted.

(** C92: matsum_gf is the truncated Matsubara sum corrected by the tail of one level,
    and puts the chemical potential of the object back. *)
Theorem C92_sum call g mu_old mu nmats beta : 0 < beta -> (forall z, call mu z = Ok (map g z)) ->
  let w := matsubara beta in let lev := - re (g (0, w nmats)) * (w nmats * w nmats) in
  matsum_gf call mu_old mu (S nmats) beta =
    (Ok (2 / beta * rsum (S nmats) (fun i => re (g (0, w i)) + lev / (lev * lev + w i * w i)) + fermi (beta * lev)), mu_old).
Proof. exact (matsum_closed call g mu_old mu nmats beta). Qed.
Print Assumptions C92_sum.

(** One level at x: error at most |beta x|^3/(2 nmats - 1)^2. *)
Theorem C92_level call g mu_old mu nmats beta x : 0 < beta -> (forall z, call mu z = Ok (map g z)) ->
  (forall y, y <> 0 -> g (0, y) = cxdiv (rcx 1) (cxsub (0, y) (rcx x))) ->
  exists n, matsum_gf call mu_old mu (S nmats) beta = (Ok n, mu_old) /\ Rabs (n - fermi (beta * x)) <= Rabs (beta * x) ^ 3 / (2 * INR nmats + 1) ^ 2.
Proof. exact (fun B C G => ex_intro _ _ (conj (matsum_closed call g mu_old mu nmats beta B C) (matsum_level g x beta nmats B G))). Qed.
Print Assumptions C92_level.

(** Particles and holes: opposite real parts on the Matsubara axis give occupations that add up to one. *)
Theorem C92_holes call g call' g' mu_old mu nmats beta : 0 < beta -> (forall z, call mu z = Ok (map g z)) -> (forall z, call' mu z = Ok (map g' z)) ->
  (forall i, re (g' (0, matsubara beta i)) = - re (g (0, matsubara beta i))) ->
  exists n n', matsum_gf call mu_old mu (S nmats) beta = (Ok n, mu_old) /\ matsum_gf call' mu_old mu (S nmats) beta = (Ok n', mu_old) /\ n + n' = 1.
Proof. exact (fun B C C' H => ex_intro _ _ (ex_intro _ _ (conj (matsum_closed call g mu_old mu nmats beta B C) (conj (matsum_closed call' g' mu_old mu nmats beta B C') (matsum_ph g g' beta nmats H))))). Qed.
Print Assumptions C92_holes.

(** The occupation is not proportional to the spectral weight: w/z gives 1/2 for every w. *)
Theorem C92_weight_refuted call w mu_old mu nmats beta : 0 < beta -> (forall z, call mu z = Ok (map (fun z => cxdiv (rcx w) z) z)) ->
  matsum_gf call mu_old mu (S nmats) beta = (Ok (1 / 2), mu_old).
Proof. exact (matsum_weight call w mu_old mu nmats beta). Qed.
Print Assumptions C92_weight_refuted.

(** An exception leaves the object with the new chemical potential. *)
Theorem C92_restore_refuted call mu_old mu nmats beta x : (forall z, call mu z = Err x) -> matsum_gf call mu_old mu nmats beta = (Err x, mu).
Proof. exact (matsum_raises call mu_old mu nmats beta x). Qed.
Print Assumptions C92_restore_refuted.
Theorem C92_empty_refuted call g mu_old mu beta : (forall z, call mu z = Ok (map g z)) -> matsum_gf call mu_old mu 0 beta = (Err IndexError, mu).
Proof. exact (matsum_none call g mu_old mu beta). Qed.
Print Assumptions C92_empty_refuted.

(** ** Examples *)
(** There is a solver with the contract; one pole at sqrt 12 with residue -3/2. *)
Example C89_ex : exists z, zero_fermi real_geigh 1 = Ok ([z], [- (3 / 2)]) /\ 0 < z /\ z * z = 12.
Proof.
  destruct (C89_poles real_geigh 1 real_geigh_contract ltac:(lia)) as (zp & Rp & E & LZ & LR & S & _ & F). destruct zp as [|z [|]]; try discriminate. destruct Rp as [|r [|]]; try discriminate.
  destruct (S 0%nat ltac:(lia)) as [Z0 _]. cbn [nth] in *. exists z.
  assert (K : forall x, - 4 * r * (12 + x * x) * x = 6 * x * (x * x + z * z)).
  { intros x. specialize (F x). rewrite rsum_S in F. change (rsum 0 _) with 0 in F. unfold tanh_cf in F. cbn [lambert Nat.mul Nat.add INR] in F.
    assert (0 < x * x + z * z) by (pose proof (sqpp x z ltac:(lra)); lra). pose proof (Rle_0_sqr x) as X0. unfold Rsqr in X0.
    assert (L : x / 2 * (1 / (2 * 0 + 1 + x / 2 * (x / 2) * (1 / (2 * 1 + 1 + x / 2 * (x / 2) * 0)))) = 6 * x / (12 + x * x)) by (field; lra). rewrite L in F.
    replace ((0 + - 4 * r / (x * x + z * z)) * x) with (- 4 * r * x / (x * x + z * z)) in F by (field; lra).
    transitivity (- 4 * r * x / (x * x + z * z) * (x * x + z * z) * (12 + x * x)); [field; lra|]. rewrite F. field. lra. }
  pose proof (K 1). pose proof (K 2). assert (r = - (3 / 2)) by lra. subst r. split; [exact E|]. split; [exact Z0|]. lra.
Qed.
(** A level two temperatures below the chemical potential, one pole: 7/8 instead of 0.88. *)
Example C90_ex Rarg : integrate_gf real_geigh 1 (fun z => cxdiv (rcx 1) (cxsub z (rcx 0))) 2 1 1 Rarg = Ok (7 / 8).
Proof.
  rewrite (C90_closed real_geigh 1 _ 2 1 1 Rarg 1 (fun _ => 1) (fun _ => 0)).
  - f_equal. rewrite rsum_S. change (rsum 0 _) with 0. unfold tanh_cf, radius. cbn [lambert Nat.mul Nat.add INR]. field.
  - apply real_geigh_contract.
  - lia.
  - lra.
  - intros z _. symmetry. unfold csum. apply cx_eq; [rewrite csum_re|rewrite csum_im]; rewrite rsum_S; change (rsum 0 _) with 0; ring.
Qed.
Example C91_ex : exists a b, integrate_gf_array real_geigh 1 (fun z => cxdiv (rcx 1) (cxsub z (rcx 0))) [2; 2] 1 2 0 = Ok [a; b] /\ a <> b.
Proof.
  destruct (C91_array_refuted real_geigh 1 (fun z => cxdiv (rcx 1) (cxsub z (rcx 0))) 2 1 2 0 0) as (xs & E & L & N).
  - apply real_geigh_contract.
  - lia.
  - lra.
  - lra.
  - intros z _. symmetry. apply cx_eq; [rewrite csum_re|rewrite csum_im]; rewrite rsum_S; change (rsum 0 _) with 0; ring.
  - destruct xs as [|a [|b [|]]]; try discriminate. exists a, b. split; [exact E|exact N].
Qed.
(** An object whose value depends on its chemical potential. *)
Example C92_ex : exists n, matsum_gf (fun m z => Ok (map (fun z => cxdiv (rcx 1) (cxsub z (rcx (3 - m)))) z)) 7 2 (S 0) 1 = (Ok n, 7) /\ Rabs (n - fermi 1) <= 1.
Proof.
  destruct (C92_level (fun m z => Ok (map (fun z => cxdiv (rcx 1) (cxsub z (rcx (3 - m)))) z)) (fun z => cxdiv (rcx 1) (cxsub z (rcx 1))) 7 2 0 1 1) as (n & E & B); [lra| |reflexivity|].
  - intros z. do 2 f_equal. now replace (3 - 2) with 1 by ring.
  - exists n. split; [exact E|]. rewrite Rmult_1_r in B. rewrite Rabs_R1 in B. cbn [INR] in B. eapply Rle_trans; [exact B|]. lra.
Qed.
