(** Property C135: the entropy of a spectrum falls with falling temperature between the
    logarithms of all levels and of the ground levels; the bath's part is a sum over modes. *)
From Coq Require Import String Reals List Arith NArith ZArith Bool Lia Lra Psatz.
From Verif Require Import Base RBase RLin CBase LocalModel MatvecModel MbModel EspaceModel ExactSpec EighProofs ExactProps DedModel DedSpec DedProps DevModel ImpSpec ImpProofs ImpProps EntSpec EntProofs EntBathProofs EntMainProofs.
Import ListNotations.
Local Open Scope R_scope.

(** C135: [spectrum_entropy kB spectrum egs beta] is [calc_entropy] on the result of
    [entropy_params] at T = 1 / (kB beta).  Cooling lowers entropy and mean energy. *)
Theorem C135_monotone kB spectrum egs b c : 0 < kB -> (0 < length (concat spectrum))%nat -> 0 < b -> b <= c ->
  spectrum_entropy kB spectrum egs c <= spectrum_entropy kB spectrum egs b /\
  fst (entropy_params spectrum egs c) <= fst (entropy_params spectrum egs b) /\
  fst (entropy_params spectrum egs b) = level_energy b (concat spectrum) - egs.
Proof. exact (fun Hk HM Hb H => match monotone kB spectrum Hk HM egs b c Hb H with conj A B => conj A (conj B (energy_level spectrum HM egs b)) end). Qed.
(** Hot: within beta times the width of the spectrum of the logarithm of the number of levels. *)
Theorem C135_hot kB spectrum egs beta lo hi : 0 < kB -> (0 < length (concat spectrum))%nat -> 0 < beta -> (forall x, In x (concat spectrum) -> lo <= x <= hi) ->
  kB * (ln (INR (length (concat spectrum))) - beta * (hi - lo)) <= spectrum_entropy kB spectrum egs beta <= kB * ln (INR (length (concat spectrum))).
Proof. exact (fun Hk HM => hot kB spectrum Hk HM egs beta lo hi). Qed.
(** Cold: exponentially close to the logarithm of the number of ground levels. *)
Theorem C135_cold kB spectrum egs beta lo gap : 0 < kB -> 0 < beta -> 0 <= gap -> In lo (concat spectrum) -> (forall x, In x (concat spectrum) -> x <> lo -> lo + gap <= x) ->
  let g := INR (count_occ Req_EM_T (concat spectrum) lo) in let N := INR (length (concat spectrum)) in
  kB * ln g <= spectrum_entropy kB spectrum egs beta <= kB * (ln g + 2 * (N - g) / g * exp (- beta * gap / 2)).
Proof. exact (fun Hk Hb Hg I => cold kB spectrum Hk (ltac:(destruct (concat spectrum); [destruct I|cbn; lia])) egs beta lo gap Hb Hg I). Qed.
(** The bath of at most eight levels: every spin of every level is filled independently. *)
Theorem C135_bath kB wild ek b eb egs beta : 0 < kB -> 0 < beta -> (length ek <= 8)%nat -> build_non_interacting_espace RRing Rleb wild ek = Ok (b, eb) ->
  let spectrum := map (fun e => s_vals RRing (snd e)) b in
  length (concat spectrum) = (4 ^ length ek)%nat /\
  spectrum_entropy kB spectrum egs beta = kB * (2 * rsum (length ek) (fun k => mode_entropy (fermi beta (nth k ek 0)))).
Proof.
  exact (fun Hk Hb Hm HB => conj (bath_count wild ek Hm b eb HB)
    (eq_trans (entropy_level kB (values b) Hk (bath_nonempty wild ek Hm b eb HB) egs beta Hb) (f_equal (Rmult kB) (bath_entropy wild ek Hm b eb HB beta)))).
Qed.
(** An accepted sample of at most nine sites: the interacting entropy minus that of the bath,
    within beta times a width of ln 4, the entropy of an impurity with four states. *)
Theorem C135_sample big half eigh eigsh fsolve kB wild n U sigma0 beta zs poles i : eigh_contract eigh -> half + half = 1 -> (1 < n)%nat -> (n <= 9)%nat -> length poles = n -> 0 < kB -> 0 < beta ->
  siam_trial big half eigh eigsh fsolve kB wild n U sigma0 beta zs poles = Ok (Some i) ->
  let g := gfimp_fit fsolve poles in
  exists H1 V1 es1 e1, is_siam n (rsum n (fun i => nth i poles 0) / INR n - sigma0) (fun k => nth k (g_ek g) 0) (fun k => sqrt (nth k (g_vk2 g) 0)) U H1 V1 /\
  build_espace RRing Rleb big half eigh eigsh n (H2 RRing H1) (mkflags true true true) (VArray RRing V1) false 0 None None "sz" = Ok (es1, Some e1) /\
  let l := concat (map (fun e => s_vals RRing (snd e)) es1) in length l = (4 ^ n)%nat /\
  i_entropy i = kB * level_entropy beta l - kB * (2 * rsum (n - 1) (fun k => mode_entropy (fermi beta (nth k (g_ek g) 0)))) /\
  (forall lo hi, (forall x, In x l -> lo <= x <= hi) -> kB * (ln 4 - beta * (hi - lo)) <= i_entropy i <= kB * (ln 4 + beta * (2 * rsum (n - 1) (fun k => Rabs (nth k (g_ek g) 0))))) /\
  - kB * (INR (n - 1) * ln 4) <= i_entropy i <= kB * (INR n * ln 4).
Proof. exact (sample_entropy big half eigh eigsh fsolve kB wild n U sigma0 beta zs poles i). Qed.
Print Assumptions C135_monotone.
Print Assumptions C135_hot.
Print Assumptions C135_cold.
Print Assumptions C135_bath.
Print Assumptions C135_sample.

(** Levels 0, 0 and 1 in two sectors: between ln 2 and ln 2 + exp(-beta/2). *)
Example C135_ex_cold beta : 0 < beta -> ln 2 <= spectrum_entropy 1 [[0]; [0; 1]] 0 beta <= ln 2 + exp (- beta / 2).
Proof.
  intros Hb. pose proof (C135_cold 1 [[0]; [0; 1]] 0 beta 0 1 ltac:(lra) Hb ltac:(lra) (or_introl eq_refl)) as Q.
  assert (C : count_occ Req_EM_T (concat [[0]; [0; 1]]) 0 = 2%nat) by (cbn; destruct (Req_EM_T 0 0), (Req_EM_T 1 0); try lra; reflexivity). cbv zeta in Q. rewrite C in Q.
  assert (L : length (concat [[0]; [0; 1]]) = 3%nat) by reflexivity. rewrite L in Q. replace (INR 3) with 3 in Q by (cbn; ring). replace (INR 2) with 2 in Q by reflexivity.
  replace (2 * (3 - 2) / 2) with 1 in Q by field. rewrite Rmult_1_r, !Rmult_1_l in Q. apply Q.
  intros x [<-|[<-|[<-|[]]]] N; lra.
Qed.
(** A bath of one level at the Fermi energy: kB ln 4 at every temperature. *)
Lemma mode_zero beta : mode_entropy (fermi beta 0) = ln 2.
Proof.
  unfold mode_entropy, fermi. rewrite Rmult_0_r, exp_0. replace (1 + 1) with 2 by ring. replace (1 - / 2) with (/ 2) by lra. rewrite ln_Rinv by lra. lra.
Qed.
Example C135_ex_bath : exists b eb, build_non_interacting_espace RRing Rleb (fun s _ => s) [0] = Ok (b, eb) /\
  forall beta, 0 < beta -> spectrum_entropy 1 (map (fun e => s_vals RRing (snd e)) b) 0 beta = 2 * ln 2.
Proof.
  destruct (EspaceMoreProofs.free_spectrum RRing Rleb Rleb_total Rleb_trans (fun s _ => s) [0] ltac:(cbn; lia)) as (b & eb & E & _). exists b, eb. split; [exact E|]. intros beta Hb.
  destruct (C135_bath 1 (fun s _ => s) [0] b eb 0 beta ltac:(lra) Hb ltac:(cbn; lia) E) as [_ Q]. rewrite Q. cbn [length]. rewrite rsum_S, (rsum_0 0) by (intros; lia). cbn [nth]. change (c0 RRing) with 0. rewrite mode_zero. ring.
Qed.
(** The sample of C124: its interacting entropy minus 2 ln 2, and at most 2 ln 4. *)
Example C135_ex : exists i l, sample 2 1 = Ok (Some i) /\ length l = 16%nat /\ i_entropy i = level_entropy 10 l - 2 * ln 2 /\ i_entropy i <= 2 * ln 4.
Proof.
  destruct C124_ex as (i & E & _).
  destruct (C135_sample (fun _ => true) (/ 2) real_eigh (fun _ _ _ => Err ValueError) midpoint 1 (fun s _ => s) 2 2 1 10 [(0, 1)] [-1; 1] i C85_contract ltac:(lra) ltac:(lia) ltac:(lia) eq_refl ltac:(lra) ltac:(lra) E) as (H1 & V1 & es1 & e1 & _ & _ & L & CL & _ & _ & UP).
  assert (FIT : gfimp_fit midpoint [-1; 1] = mkgfimp [0] [1] 0) by exact C80_ex. rewrite FIT in CL. cbn [g_ek] in CL.
  exists i, (concat (map (fun e => s_vals RRing (snd e)) es1)). split; [exact E|]. split; [exact L|]. split.
  - rewrite CL. change (2 - 1)%nat with 1%nat. rewrite rsum_S, (rsum_0 0) by (intros; lia). cbn [nth]. rewrite mode_zero. ring.
  - replace (INR 2) with 2 in UP by reflexivity. lra.
Qed.
