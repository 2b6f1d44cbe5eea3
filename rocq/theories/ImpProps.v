(** C124, C125: the content of one sample of the distributional solver, and its mirror image. *)
From Coq Require Import String Reals List Arith NArith ZArith Bool Lia Lra Psatz.
From Verif Require Import Base RBase RLin CBase OperatorsModel LocalModel MatvecModel MbModel EspaceModel ProjModel CfModel GfModel ExactSpec EighProofs ExactProps DedModel DedSpec DedProofs DedProps DevModel ImpSpec ImpProofs ImpMirrorProofs ImpExProofs.
Import ListNotations.
Local Open Scope R_scope.
Notation build := (build_espace RRing Rleb).
Notation array := (mkflags true true true).

(** C124: a sample diagonalises the impurity model of its poles twice: with level equal to
    the mean of the poles and no interaction, and with the level lowered by sigma0 and
    interaction U on the impurity alone.  It is rejected exactly when the two ground states
    lie in different sectors; otherwise the increments are the difference of the inverse
    Green's functions, the two ground state occupations and the entropy of the interacting
    model against the bath alone. *)
Theorem C124_trial big half eigh eigsh fsolve kB wild n U sigma0 beta zs poles r : length poles = n -> (0 < n)%nat ->
  siam_trial big half eigh eigsh fsolve kB wild n U sigma0 beta zs poles = Ok r ->
  let p i := nth i poles 0 in let g := gfimp_fit fsolve poles in let level k := nth k (g_ek g) 0 in let coupling k := sqrt (nth k (g_vk2 g) 0) in let mean := rsum n p / INR n in
  exists H0 V0 H1 V1 es0 e0 es1 e1 q0 s0 q1 s1 occ0,
  is_siam n mean level coupling 0 H0 V0 /\ is_siam n (mean - sigma0) level coupling U H1 V1 /\
  build big half eigh eigsh n (H2 RRing H0) array (VArray RRing V0) false 0 None None "sz" = Ok (es0, Some e0) /\
  build big half eigh eigsh n (H2 RRing H1) array (VArray RRing V1) false 0 None None "sz" = Ok (es1, Some e1) /\
  ground_sector es0 e0 q0 s0 /\ ground_sector es1 e1 q1 s1 /\ gs_occupation s0 0 = Ok occ0 /\
  (q1 <> q0 -> r = None) /\
  (q1 = q0 -> exists i gf b eb, r = Some i /\ build_gf_exact n es1 beta e1 0 0%Z = Ok gf /\ length (i_sigma i) = length zs /\
     (forall j, (j < length zs)%nat -> self_energy_at n p gf (nth j zs (rcx 0)) (nth j (i_sigma i) (rcx 0))) /\
     i_occ0 i = occ0 /\ gs_occupation s1 0 = Ok (i_occ1 i) /\ build_non_interacting_espace RRing Rleb wild (g_ek g) = Ok (b, Some eb) /\
     i_entropy i = ded_entropy kB (map (fun e => s_vals RRing (snd e)) es1) (map (fun e => s_vals RRing (snd e)) b) e1 eb beta).
Proof. exact (fun L Hn => siam_content big half eigh eigsh fsolve kB wild n U sigma0 beta zs poles L Hn r). Qed.
(** The development version computes every sample, on the truncated sectors, with the weight
    exp(- beta |m1 - m0|) of the lowest interacting energies in the two ground sectors. *)
Theorem C124_dev big half eigh eigsh fsolve kB wild n U sigma0 beta zs poles occupation t : length poles = n -> (0 < n)%nat ->
  dev_trial big half eigh eigsh fsolve kB wild occupation n U sigma0 beta zs poles = Ok t ->
  let p i := nth i poles 0 in let g := gfimp_fit fsolve poles in let level k := nth k (g_ek g) 0 in let coupling k := sqrt (nth k (g_vk2 g) 0) in let mean := rsum n p / INR n in
  exists H0 V0 H1 V1 dims es0 e0 es1 e1 q0 s0 q1 s1 m0 m1 gf b eb,
  is_siam n mean level coupling 0 H0 V0 /\ is_siam n (mean - sigma0) level coupling U H1 V1 /\ get_espace_dim n (Some 3%Z) "sz" = Ok dims /\
  build big half eigh eigsh n (H2 RRing H0) array (VArray RRing V0) false 0 None (Some dims) "sz" = Ok (es0, Some e0) /\
  build big half eigh eigsh n (H2 RRing H1) array (VArray RRing V1) false 0 None (Some dims) "sz" = Ok (es1, Some e1) /\
  ground_sector es0 e0 q0 s0 /\ ground_sector es1 e1 q1 s1 /\ (t_found t = true <-> q1 = q0) /\
  lowest es1 q1 m1 /\ lowest es1 q0 m0 /\ t_weight t = exp (- beta * Rabs (m1 - m0)) /\
  build_gf_exact n es1 beta e1 0 0%Z = Ok gf /\ length (i_sigma (t_inc t)) = length zs /\
  (forall j, (j < length zs)%nat -> self_energy_at n p gf (nth j zs (rcx 0)) (nth j (i_sigma (t_inc t)) (rcx 0))) /\
  occupation es0 e0 beta = Ok (i_occ0 (t_inc t)) /\ occupation es1 e1 beta = Ok (i_occ1 (t_inc t)) /\
  build_non_interacting_espace RRing Rleb wild (g_ek g) = Ok (b, Some eb) /\
  i_entropy (t_inc t) = ded_entropy kB (map (fun e => s_vals RRing (snd e)) es1) (map (fun e => s_vals RRing (snd e)) b) e1 eb beta.
Proof. exact (fun L Hn => dev_content big half eigh eigsh fsolve kB wild n U sigma0 beta zs poles L Hn occupation t). Qed.
Print Assumptions C124_trial.
Print Assumptions C124_dev.

(** Poles -1 and 1 with U = 2 and sigma0 = 1: both ground states have one electron of each
    spin, so the sample is accepted. *)
Notation sample U sigma0 := (siam_trial (fun _ => true) (/ 2) real_eigh (fun _ _ _ => Err ValueError) midpoint 1 (fun s _ => s) 2 U sigma0 10 [(0, 1)] [-1; 1]).
Lemma sample_accepted x : 1 <= x <= 51 / 50 -> exists i, sample 2 x = Ok (Some i) /\ length (i_sigma i) = 1%nat.
Proof.
  intros Hx.
  destruct (C88_trial (fun _ => true) (/ 2) real_eigh (fun _ _ _ => Err ValueError) midpoint 1 (fun s _ => s) 2 2 x 10 [(0, 1)] [-1; 1] ltac:(lia) ltac:(lia) ltac:(lra) C85_contract eq_refl (proj1 C80_ex_hyp) (proj2 C80_ex_hyp)) as [r E].
  destruct (C124_trial _ _ _ _ _ _ _ 2 2 x 10 _ [-1; 1] r eq_refl ltac:(lia) E) as (H0 & V0 & H1 & V1 & es0 & e0 & es1 & e1 & q0 & s0 & q1 & s1 & o & S0 & S1 & B0 & B1 & G0 & G1 & _ & _ & ACC).
  assert (FIT : gfimp_fit midpoint [-1; 1] = mkgfimp [0] [1] 0) by exact C80_ex. rewrite FIT in S0, S1. cbn [g_ek g_vk2] in S0, S1.
  assert (M : rsum 2 (fun i => nth i [-1; 1] 0) / INR 2 = 0) by (unfold rsum, nsum; cbn; match goal with |- ?x = ?y => change (@eq R x y) end; field). rewrite M in S0, S1.
  assert (FL : forall e u h v, is_siam 2 e (fun k => nth k [0] 0) (fun k => sqrt (nth k [1] 0)) u h v -> is_siam 2 e (fun _ => 0) (fun _ => 1) u h v).
  { intros e u h v S a b Ha Hb. destruct (S a b Ha Hb) as [Sh Sv]. split; [|exact Sv]. rewrite Sh. destruct a as [|[|]], b as [|[|]]; try lia; cbn; rewrite ?sqrt_1; reflexivity. }
  apply FL in S0, S1.
  assert (Q0 : q0 = [1; 1]%nat) by (apply (dimer_sector 0 0 H0 V0 S0 ltac:(lra) ltac:(lra) es0 e0 q0 s0 B0 G0)).
  assert (Q1 : q1 = [1; 1]%nat) by (apply (dimer_sector (0 - x) 2 H1 V1 S1 ltac:(lra) ltac:(lra) es1 e1 q1 s1 B1 G1)).
  destruct (ACC ltac:(congruence)) as (i & gf & b & eb & -> & _ & LS & _). exists i. split; [exact E|exact LS].
Qed.
Example C124_ex : exists i, sample 2 1 = Ok (Some i) /\ length (i_sigma i) = 1%nat.
Proof. apply sample_accepted. lra. Qed.

(** C125: the mirrored poles give the mirrored bath, and with chemical shifts adding up to U the
    mirrored self-energy. *)
Theorem C125_fit fsolve fsolve' poles : (0 < length poles)%nat -> increasing (length poles) (fun i => nth i poles 0) ->
  finds_roots fsolve (length poles) (fun i => nth i poles 0) -> finds_roots fsolve' (length poles) (fun i => nth i (mirrored poles) 0) ->
  let g := gfimp_fit fsolve poles in let g' := gfimp_fit fsolve' (mirrored poles) in let m := (length poles - 1)%nat in
  g_e0 g' = - g_e0 g /\ forall k, (k < m)%nat -> nth k (g_ek g') 0 = - nth (m - 1 - k) (g_ek g) 0 /\ nth k (g_vk2 g') 0 = nth (m - 1 - k) (g_vk2 g) 0.
Proof. exact (fit_mirror fsolve fsolve' poles). Qed.
Theorem C125_green big n half half' eigh eigh' eigsh eigsh' e0 e v U H V e0' e' v' H' V' es eg es' eg' beta gf gf' :
  eigh_contract eigh -> eigh_contract eigh' -> (1 < n)%nat -> (n <= 32)%nat -> half + half = 1 -> half' + half' = 1 ->
  is_siam n e0 e v U H V -> is_siam n e0' e' v' U H' V' ->
  e0' + U / 2 = - (e0 + U / 2) -> (forall k, (S k < n)%nat -> e' (back (n - 1) k) = - e k /\ v' (back (n - 1) k) = v k) ->
  build big half eigh eigsh n (H2 RRing H) array (VArray RRing V) false 0 None None "sz" = Ok (es, Some eg) ->
  build big half' eigh' eigsh' n (H2 RRing H') array (VArray RRing V') false 0 None None "sz" = Ok (es', Some eg') ->
  build_gf_exact n es beta eg 0 0%Z = Ok gf -> build_gf_exact n es' beta eg' 0 0%Z = Ok gf' ->
  forall z G G', gf_call gf (rcx (re z)) (im z) = Ok G ->
    (forall z', z' = cxopp z -> gf_call gf' (rcx (re z')) (im z') = Ok G' -> G' = cxopp G) /\
    (forall z', z' = cxopp (cxconj z) -> gf_call gf' (rcx (re z')) (im z') = Ok G' -> G' = cxopp (cxconj G)).
Proof. exact (fun HC HC' H1 H32 Hh Hh' => siam_green big n half half' eigh eigh' eigsh eigsh' HC HC' H1 H32 Hh Hh' e0 e v U H V e0' e' v' H' V' es eg es' eg' beta gf gf'). Qed.
Theorem C125_trial big n half half' eigh eigh' eigsh eigsh' fsolve fsolve' kB kB' wild wild' U sigma0 sigma0' beta zs zs' poles i i' :
  eigh_contract eigh -> eigh_contract eigh' -> (1 < n)%nat -> (n <= 32)%nat -> half + half = 1 -> half' + half' = 1 ->
  length poles = n -> increasing n (fun i => nth i poles 0) -> finds_roots fsolve n (fun i => nth i poles 0) -> finds_roots fsolve' n (fun i => nth i (mirrored poles) 0) ->
  sigma0 + sigma0' = U ->
  siam_trial big half eigh eigsh fsolve kB wild n U sigma0 beta zs poles = Ok (Some i) ->
  siam_trial big half' eigh' eigsh' fsolve' kB' wild' n U sigma0' beta zs' (mirrored poles) = Ok (Some i') ->
  forall j j', (j < length zs)%nat -> (j' < length zs')%nat ->
    (nth j' zs' (rcx 0) = cxopp (nth j zs (rcx 0)) -> nth j' (i_sigma i') (rcx 0) = cxopp (nth j (i_sigma i) (rcx 0))) /\
    (nth j' zs' (rcx 0) = cxopp (cxconj (nth j zs (rcx 0))) -> nth j' (i_sigma i') (rcx 0) = cxopp (cxconj (nth j (i_sigma i) (rcx 0)))).
Proof. exact (fun HC HC' H1 H32 Hh Hh' L INC FR FR' HU => trial_mirror big n half half' eigh eigh' eigsh eigsh' HC HC' H1 H32 Hh Hh' fsolve fsolve' kB kB' wild wild' U sigma0 sigma0' beta zs zs' poles L INC FR FR' HU i i'). Qed.
(** Poles symmetric about 0 and sigma0 = U/2: on the imaginary axis the self-energy is imaginary. *)
Theorem C125_axis big n half eigh eigsh fsolve kB wild U beta zs poles i :
  eigh_contract eigh -> (1 < n)%nat -> (n <= 32)%nat -> half + half = 1 ->
  length poles = n -> increasing n (fun i => nth i poles 0) -> finds_roots fsolve n (fun i => nth i poles 0) -> mirrored poles = poles ->
  siam_trial big half eigh eigsh fsolve kB wild n U (U / 2) beta zs poles = Ok (Some i) ->
  forall j, (j < length zs)%nat -> re (nth j zs (rcx 0)) = 0 -> re (nth j (i_sigma i) (rcx 0)) = 0.
Proof. exact (fun HC H1 H32 Hh L INC FR SY => trial_axis big n half eigh eigsh HC H1 H32 Hh fsolve kB wild U beta zs poles L INC FR SY i). Qed.
Print Assumptions C125_fit.
Print Assumptions C125_green.
Print Assumptions C125_trial.
Print Assumptions C125_axis.

(** The sample above: its self-energy at the imaginary unit is imaginary. *)
Example C125_ex : exists i, sample 2 (2 / 2) = Ok (Some i) /\ re (nth 0 (i_sigma i) (rcx 0)) = 0.
Proof.
  destruct (sample_accepted (2 / 2) ltac:(lra)) as (i & E & _). exists i. split; [exact E|].
  refine (C125_axis (fun _ => true) 2 (/ 2) real_eigh (fun _ _ _ => Err ValueError) midpoint 1 (fun s _ => s) 2 10 [(0, 1)] [-1; 1] i C85_contract ltac:(lia) ltac:(lia) ltac:(lra) eq_refl (proj1 C80_ex_hyp) (proj2 C80_ex_hyp) _ E 0%nat ltac:(cbn; lia) eq_refl).
  unfold mirrored. cbn [map rev app]. repeat f_equal; lra.
Qed.
