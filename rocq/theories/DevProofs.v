(** Proofs about dedlib_dev.py. *)
From Coq Require Import String Reals List Arith NArith ZArith Bool Lia Lra Psatz.
From Verif Require Import Base RBase RLin CBase OperatorsModel SectorModel LocalModel MatvecModel MbModel EspaceModel ProjModel CfModel GfModel DedModel DedSpec DedTrialProofs DedMoamProofs DevModel DevSpec.
Import ListNotations.
Local Open Scope R_scope.

(** ** Occupations *)
Lemma dev_loop_err body q s es egs beta acc : exists e, dev_occupation_loop body ((q, s) :: es) egs beta acc = Err e.
Proof.
  cbn [dev_occupation_loop]. destruct (s_vecs RRing s); cbn [bind]; try (eexists; reflexivity); destruct (s_states RRing s); cbn [bind]; eexists; reflexivity.
Qed.
Theorem dev_occupation_never body es egs beta : exists e, dev_occupation body es egs beta = Err e.
Proof.
  unfold dev_occupation. destruct es as [|[q s] es]; [eexists; reflexivity|]. destruct (dev_loop_err body q s es egs beta (0, 0)) as (e & E). rewrite E. eexists. reflexivity.
Qed.
Theorem dev_occupation_type body q s es egs beta : s_vecs RRing s <> NoVecs RRing -> (exists up dw, s_states RRing s = StSz up dw) -> dev_occupation body ((q, s) :: es) egs beta = Err TypeError.
Proof.
  intros HV (up & dw & ES). unfold dev_occupation. cbn [dev_occupation_loop]. rewrite ES. destruct (s_vecs RRing s); [congruence| |]; reflexivity.
Qed.

(** ** The loop *)
Section Loop.
Context {D : Type}.
Variable trial : D -> res trial_t.
Notation add := (fun (acc : increment * R) t => (inc_add (fst acc) (inc_scale (t_weight t) (t_inc t)), snd acc + t_weight t)).
Lemma dev_loop_spec N draws acc a : dev_loop trial N draws acc = Ok a <->
  exists m outs, (m <= length draws)%nat /\ mapM trial (firstn m draws) = Ok outs /\ length (filter t_found outs) = N /\ ends_with t_found outs /\ a = fold_left add outs acc.
Proof.
  revert N acc. induction draws as [|d draws IH]; intros N acc.
  - destruct N as [|N]; cbn [dev_loop].
    + split; [intros E; injection E as <-; exists 0%nat, []; repeat split; auto; intros o l' Q; destruct l'; discriminate|].
      intros (m & outs & Hm & E & L & _ & ->). rewrite firstn_nil in E. injection E as <-. reflexivity.
    + split; [discriminate|]. intros (m & outs & Hm & E & L & _ & ->). rewrite firstn_nil in E. injection E as <-. discriminate.
  - destruct N as [|N].
    + cbn [dev_loop]. split; [intros E; injection E as <-; exists 0%nat, []; repeat split; cbn; auto; try lia; intros o l' Q; destruct l'; discriminate|].
      intros (m & outs & Hm & E & L & EA & ->). destruct outs as [|o l] using rev_ind; [reflexivity|].
      exfalso. specialize (EA o l eq_refl). rewrite filter_app, app_length in L. cbn [filter] in L. rewrite EA in L. cbn in L. lia.
    + cbn [dev_loop]. split.
      * destruct (trial d) as [t|] eqn:T; [|discriminate]. cbn [bind]. intros E. apply IH in E. destruct E as (m & outs & Hm & E & L & EA & ->).
        exists (S m), (t :: outs). split; [cbn; lia|]. split; [cbn [firstn mapM]; rewrite T; cbn [bind]; now rewrite E|].
        split; [cbn [filter]; destruct (t_found t); cbn [length]; lia|]. split; [|reflexivity].
        intros o l' Q. destruct l' as [|x l']; [|injection Q as _ Q; now apply (EA o l')].
        injection Q as <- ->. cbn in L. destruct (t_found t); [reflexivity|discriminate].
      * intros (m & outs & Hm & E & L & EA & ->). destruct m as [|m]; [cbn in E; injection E as <-; discriminate|].
        cbn [firstn mapM] in E. destruct (trial d) as [t|] eqn:T; [|discriminate]. cbn [bind] in *.
        destruct (mapM trial (firstn m draws)) as [outs'|] eqn:E'; [|discriminate]. cbn [bind] in E. injection E as <-.
        apply IH. exists m, outs'. split; [cbn in Hm; lia|]. split; [exact E'|]. split; [cbn [filter] in L; destruct (t_found t); cbn [length] in L; lia|].
        split; [|reflexivity]. intros o l' Q. apply (EA o (t :: l')). now rewrite Q.
Qed.

Lemma weights_fold outs acc : snd (fold_left add outs acc) = snd acc + rsum (length outs) (fun t => nth t (map t_weight outs) 0).
Proof.
  revert acc. induction outs as [|t outs IH]; intros acc; cbn [fold_left length map].
  - unfold rsum, nsum. cbn. ring.
  - rewrite IH. cbn [snd]. rewrite rsum_S_l. cbn [nth]. ring.
Qed.
Lemma inc_fold outs acc : fst (fold_left add outs acc) = fold_left inc_add (map (fun t => inc_scale (t_weight t) (t_inc t)) outs) (fst acc).
Proof. revert acc. induction outs as [|t outs IH]; intros acc; cbn [fold_left map]; [reflexivity|]. now rewrite IH. Qed.

Notation dtr := (mktrial false 0 (mkinc [] 0 0 0)).
Notation tr outs t := (nth t outs dtr).
Lemma nth_map_d {A B} (f : A -> B) l d d' t : (t < length l)%nat -> nth t (map f l) d' = f (nth t l d).
Proof. intros H. rewrite (nth_indep _ d' (f d)) by (now rewrite map_length). apply map_nth. Qed.

Theorem rounds_spec kB sigma N draws r :
  (forall d t, In d draws -> trial d = Ok t -> length (i_sigma (t_inc t)) = length sigma) ->
  dev_rounds trial kB sigma N draws = Ok r ->
  (0 < N)%nat /\ exists m outs, (m <= length draws)%nat /\ mapM trial (firstn m draws) = Ok outs /\ length (filter t_found outs) = N /\ ends_with t_found outs /\
  let k := length outs in let w := fun t => t_weight (tr outs t) in let inc := fun t => t_inc (tr outs t) in
  length (i_sigma r) = length sigma /\
  (forall j, (j < length sigma)%nat -> nth j (i_sigma r) (rcx 0) = weighted_cmean k w (nth j sigma (rcx 0)) (fun t => nth j (i_sigma (inc t)) (rcx 0))) /\
  i_occ0 r = weighted_mean k w 0 (fun t => i_occ0 (inc t)) /\ i_occ1 r = weighted_mean k w 0 (fun t => i_occ1 (inc t)) /\
  i_entropy r = weighted_mean k w 0 (fun t => i_entropy (inc t)) / kB.
Proof.
  intros HL E. unfold dev_rounds in E. destruct (dev_loop trial N draws _) as [a|] eqn:EL; [|discriminate]. cbn [bind] in E.
  destruct (Nat.eqb_spec N 0) as [|N0]; [discriminate|]. injection E as <-. split; [lia|].
  apply dev_loop_spec in EL. destruct EL as (m & outs & Hm & EO & LN & EA & ->). exists m, outs. repeat (split; [assumption|]). cbv zeta.
  rewrite weights_fold, inc_fold. cbn [fst snd]. rewrite Rplus_0_l.
  assert (Q : rsum (length outs) (fun t => nth t (map t_weight outs) 0) = rsum (length outs) (fun t => t_weight (tr outs t))) by (apply rsum_ext; intros t Ht; now apply nth_map_d).
  rewrite Q. set (W := rsum _ (fun t => t_weight _)). set (incs := map _ outs).
  assert (LI : length incs = length outs) by (unfold incs; apply map_length).
  destruct (fold_inc incs (mkinc sigma 0 0 0)) as (A & B & C & Dd & F).
  { intros i Hi. unfold incs in Hi. apply in_map_iff in Hi. destruct Hi as (t & <- & Ht). cbn [inc_scale i_sigma]. rewrite map_length.
    destruct (mapM_out _ _ _ _ EO Ht) as (d & Hd & T). apply (HL d t); auto. rewrite <- (firstn_skipn m draws). apply in_or_app. now left. }
  rewrite LI in *. cbn [i_sigma i_occ0 i_occ1 i_entropy] in *.
  assert (LT : forall t, (t < length outs)%nat -> length (i_sigma (t_inc (tr outs t))) = length sigma).
  { intros t Ht. destruct (mapM_out _ _ _ (tr outs t) EO) as (d & Hd & T); [now apply nth_In|]. apply (HL d _); auto. rewrite <- (firstn_skipn m draws). apply in_or_app. now left. }
  assert (NI : forall t, (t < length outs)%nat -> nth t incs (mkinc [] 0 0 0) = inc_scale (t_weight (tr outs t)) (t_inc (tr outs t))).
  { intros t Ht. unfold incs. now apply (nth_map_d (fun t => inc_scale (t_weight t) (t_inc t)) outs dtr). }
  cbn [dev_finish i_sigma i_occ0 i_occ1 i_entropy]. split; [now rewrite map_length|]. split; [|split; [|split]].
  - intros j Hj. rewrite (nth_map_d _ _ (rcx 0)) by (rewrite A; lia). rewrite B by auto. unfold weighted_cmean. do 2 f_equal. apply csum_ext. intros t Ht.
    rewrite (nth_map_d i_sigma incs (mkinc [] 0 0 0)) by lia. rewrite NI by auto. cbn [inc_scale i_sigma]. rewrite (nth_map_d _ _ (rcx 0)) by (rewrite LT; auto). ring.
  - rewrite C. unfold weighted_mean. do 2 f_equal. apply rsum_ext. intros t Ht. rewrite (nth_map_d i_occ0 incs (mkinc [] 0 0 0)) by lia. rewrite NI by auto. cbn. ring.
  - rewrite Dd. unfold weighted_mean. do 2 f_equal. apply rsum_ext. intros t Ht. rewrite (nth_map_d i_occ1 incs (mkinc [] 0 0 0)) by lia. rewrite NI by auto. cbn. ring.
  - rewrite F. unfold weighted_mean. unfold Rdiv. rewrite Rinv_mult. rewrite <- Rmult_assoc. do 3 f_equal. apply rsum_ext. intros t Ht. rewrite (nth_map_d i_entropy incs (mkinc [] 0 0 0)) by lia. rewrite NI by auto. cbn. ring.
Qed.
Lemma rounds_never kB sigma N draws : (forall d, exists e, trial d = Err e) -> exists e, dev_rounds trial kB sigma N draws = Err e.
Proof.
  intros H. unfold dev_rounds. destruct N as [|N]; [destruct draws; eexists; reflexivity|]. destruct draws as [|d draws]; [eexists; reflexivity|]. cbn [dev_loop]. destruct (H d) as (e & ->). eexists. reflexivity.
Qed.
End Loop.

(** ** The trials *)
Section Trial.
Variables (big : R -> bool) (half : R).
Variable eigh : dense RRing -> res (list R * list (list R)).
Variable eigsh : nat -> Z -> (list R -> res (list R)) -> res (list R * list (list R)).
Variables (fsolve : (R -> R) -> R -> R) (kB : R) (wild : N -> nat -> N).
Variables (n : nat) (U sigma0 beta : R) (zs : list cx).
Notation trial occ := (dev_trial big half eigh eigsh fsolve kB wild occ n U sigma0 beta zs).
Notation espace_of := (dev_espace big half eigh eigsh n).

Lemma trial_never occ poles : (forall es e b, exists x, occ es e b = Err x) -> exists e, trial occ poles = Err e.
Proof.
  intros H. unfold dev_trial. cbv zeta. destruct (build_siam _ _ _ _ _) as [[h v]|]; [|eexists; reflexivity]. cbn [bind fst snd].
  destruct (espace_of h v) as [[es egs]|]; [|eexists; reflexivity]. cbn [bind fst snd]. destruct (gs_sector _ es egs) as [[k s]|]; [|eexists; reflexivity]. cbn [bind fst snd].
  destruct egs as [egs|]; [|eexists; reflexivity]. destruct (H es egs beta) as (x & ->). eexists. reflexivity.
Qed.
Lemma trial_type occ poles h v es egs gs : build_siam n (fun _ _ => 0) (fun _ _ => 0) 0 (gfimp_fit fsolve poles) = Ok (h, v) -> espace_of h v = Ok (es, Some egs) ->
  gs_sector (/ 10000000) es (Some egs) = Ok gs -> occ es egs beta = Err TypeError -> trial occ poles = Err TypeError.
Proof. intros A B C E. unfold dev_trial. cbv zeta. rewrite A. cbn [bind fst snd]. rewrite B. cbn [bind fst snd]. rewrite C. cbn [bind]. rewrite E. reflexivity. Qed.

(** The weight is 1 if the sectors agree, and positive otherwise. *)
Theorem trial_weight occ poles t : trial occ poles = Ok t -> length (i_sigma (t_inc t)) = length zs /\ 0 < t_weight t /\ (0 <= beta -> t_weight t <= 1) /\ (t_found t = true -> t_weight t = 1).
Proof.
  unfold dev_trial. cbv zeta. destruct (build_siam _ _ _ _ _) as [[h v]|]; [|discriminate]. cbn [bind fst snd].
  destruct (espace_of h v) as [[es egs]|]; [|discriminate]. cbn [bind fst snd]. destruct (gs_sector _ es egs) as [[k s]|]; [|discriminate]. cbn [bind fst snd].
  destruct egs as [egs|]; [|discriminate]. destruct (occ es egs beta) as [o0|]; [|discriminate]. cbn [bind].
  destruct (espace_of _ _) as [[es1 egs1]|]; [|discriminate]. cbn [bind fst snd]. destruct (gs_sector _ es1 egs1) as [[k1 s1]|]; [|discriminate]. cbn [bind fst snd].
  destruct egs1 as [egs1|]; [|discriminate]. destruct (occ es1 egs1 beta) as [o1|]; [|discriminate]. cbn [bind].
  destruct (sector_min es1 k1) as [m1|] eqn:E1; [|discriminate]. cbn [bind]. destruct (sector_min es1 k) as [m0|] eqn:E0; [|discriminate]. cbn [bind].
  destruct (build_gf_exact _ _ _ _ _ _) as [gf|]; [|discriminate]. cbn [bind]. destruct (mapM _ zs) as [ds|] eqn:M; [|discriminate]. cbn [bind].
  destruct (build_non_interacting_espace _ _ _ _) as [[b eb]|]; [|discriminate]. cbn [bind snd]. destruct eb; [|discriminate]. intros Q. injection Q as <-. cbn [t_inc t_weight t_found i_sigma].
  split; [|split; [apply exp_pos|split]].
  - clear - M. revert ds M. induction zs as [|z l IH]; intros ds M; cbn [mapM] in M; [now injection M as <-|].
    destruct (gf_call gf (rcx (re z)) (im z)); [|discriminate]. cbn [bind] in M. destruct (mapM _ l) as [ds'|]; [|discriminate]. cbn [bind] in M. injection M as <-. cbn. now rewrite (IH ds').
  - intros HB. rewrite <- exp_0. assert (H : - beta * Rabs (m1 - m0) <= 0) by (pose proof (Rabs_pos (m1 - m0)); nra). destruct H as [H|H]; [left; now apply exp_increasing|right; now rewrite H].
  - destruct (list_eq_dec Nat.eq_dec k1 k) as [->|]; [intros _|discriminate]. rewrite E1 in E0. injection E0 as ->. rewrite Rminus_diag_eq by reflexivity. rewrite Rabs_R0, Rmult_0_r. apply exp_0.
Qed.

(** With the occupations of the module the solver never returns. *)
Theorem solve_never body dos nsamples sigma N draws : exists e, dev_solve big half eigh eigsh fsolve kB wild (dev_occupation body) n U sigma0 beta zs dos nsamples sigma N draws = Err e.
Proof.
  unfold dev_solve. destruct zs as [|z0 l] eqn:EZ; [eexists; reflexivity|]. destruct (sampler_init _ _ _ _ _) as [rs|]; [|eexists; reflexivity]. cbn [bind]. apply rounds_never.
  intros d. destruct (sampler_call rs d) as [poles|]; [|eexists; reflexivity]. cbn [bind]. rewrite <- EZ. apply trial_never. intros es e b. apply dev_occupation_never.
Qed.
Theorem solve_type body dos nsamples sigma N d draws z0 rs poles h v q s es egs gs : (0 < N)%nat -> hd_error zs = Some z0 -> sampler_init dos (re z0) (re (last zs z0)) n nsamples = Ok rs ->
  sampler_call rs d = Ok poles -> build_siam n (fun _ _ => 0) (fun _ _ => 0) 0 (gfimp_fit fsolve poles) = Ok (h, v) -> espace_of h v = Ok ((q, s) :: es, Some egs) ->
  gs_sector (/ 10000000) ((q, s) :: es) (Some egs) = Ok gs -> s_vecs RRing s <> NoVecs RRing -> (exists up dw, s_states RRing s = StSz up dw) ->
  dev_solve big half eigh eigsh fsolve kB wild (dev_occupation body) n U sigma0 beta zs dos nsamples sigma N (d :: draws) = Err TypeError.
Proof.
  intros HN HZ RS SC BS BE GS NV ST. unfold dev_solve. destruct zs as [|z1 l] eqn:EZ; [discriminate|]. injection HZ as ->. rewrite <- EZ in *. rewrite RS. cbn [bind].
  unfold dev_rounds. destruct N as [|N]; [lia|]. cbn [dev_loop]. rewrite SC. cbn [bind].
  rewrite (trial_type _ poles h v ((q, s) :: es) egs gs BS BE GS (dev_occupation_type body q s es egs beta NV ST)). reflexivity.
Qed.
Lemma solve_rounds occ dos nsamples sigma N draws r : dev_solve big half eigh eigsh fsolve kB wild occ n U sigma0 beta zs dos nsamples sigma N draws = Ok r ->
  exists z0 rs, hd_error zs = Some z0 /\ sampler_init dos (re z0) (re (last zs z0)) n nsamples = Ok rs /\
  dev_rounds (fun d => do poles <- sampler_call rs d; trial occ poles) kB (match sigma with Some s => s | None => map (fun _ => rcx 0) zs end) N draws = Ok r.
Proof.
  unfold dev_solve. destruct zs as [|z0 l] eqn:EZ; [discriminate|]. rewrite <- EZ. destruct (sampler_init _ _ _ _ _) as [rs|] eqn:RS; [|discriminate]. cbn [bind]. intros E. exists z0, rs. now rewrite EZ in *.
Qed.
(** Occupations that can be computed: the result is a weighted mean over all passes. *)
Theorem solve_weighted occ dos nsamples sigma N draws r : 0 <= beta -> (match sigma with Some s => length s = length zs | None => True end) ->
  dev_solve big half eigh eigsh fsolve kB wild occ n U sigma0 beta zs dos nsamples sigma N draws = Ok r ->
  exists z0 rs m outs, hd_error zs = Some z0 /\ sampler_init dos (re z0) (re (last zs z0)) n nsamples = Ok rs /\ (0 < N)%nat /\ (m <= length draws)%nat /\
  mapM (fun d => do poles <- sampler_call rs d; trial occ poles) (firstn m draws) = Ok outs /\ length (filter t_found outs) = N /\ ends_with t_found outs /\
  (forall t, In t outs -> 0 < t_weight t <= 1 /\ (t_found t = true -> t_weight t = 1)) /\
  let k := length outs in let w := fun t => t_weight (nth t outs (mktrial false 0 (mkinc [] 0 0 0))) in let inc := fun t => t_inc (nth t outs (mktrial false 0 (mkinc [] 0 0 0))) in
  length (i_sigma r) = length zs /\
  (forall j, (j < length zs)%nat -> nth j (i_sigma r) (rcx 0) = weighted_cmean k w (match sigma with Some s => nth j s (rcx 0) | None => rcx 0 end) (fun t => nth j (i_sigma (inc t)) (rcx 0))) /\
  i_occ0 r = weighted_mean k w 0 (fun t => i_occ0 (inc t)) /\ i_occ1 r = weighted_mean k w 0 (fun t => i_occ1 (inc t)) /\
  i_entropy r = weighted_mean k w 0 (fun t => i_entropy (inc t)) / kB.
Proof.
  intros HB HL E. destruct (solve_rounds occ dos nsamples sigma N draws r E) as (z0 & rs & HZ & RS & ER).
  assert (LS : length (match sigma with Some s => s | None => map (fun _ => rcx 0) zs end) = length zs) by (destruct sigma; [exact HL|apply map_length]).
  assert (TW : forall d t, (do poles <- sampler_call rs d; trial occ poles) = Ok t -> length (i_sigma (t_inc t)) = length zs /\ 0 < t_weight t /\ (0 <= beta -> t_weight t <= 1) /\ (t_found t = true -> t_weight t = 1)).
  { intros d t T. destruct (sampler_call rs d) as [poles|]; [|discriminate]. cbn [bind] in T. now apply trial_weight in T. }
  apply rounds_spec in ER; [|intros d t _ T; rewrite LS; now apply TW in T]. destruct ER as (N0 & m & outs & Hm & EO & LN & EA & RR).
  exists z0, rs, m, outs. repeat (split; [assumption|]). split.
  { intros t Ht. destruct (mapM_out _ _ _ _ EO Ht) as (d & _ & T). destruct (TW d t T) as (_ & A & B & C). repeat split; auto. }
  cbv zeta in *. rewrite LS in RR. destruct RR as (R1 & R2 & R3). split; [exact R1|]. split; [|exact R3]. intros j Hj. rewrite R2 by auto. f_equal. destruct sigma; [reflexivity|].
  exact (map_nth (fun _ => rcx 0) zs (rcx 0) j).
Qed.
End Trial.

(** ** Several impurities *)
Section Multi.
Context {D P A : Type}.
Variables (pre : D -> res P) (post : A -> P -> res (list (option increment))).
Theorem multi_scalar given N d draws sigma x : (0 < N)%nat -> pre d = Ok x -> multi_solve pre post given UScalar N (d :: draws) sigma = Err UnboundLocalError.
Proof. intros HN E. unfold multi_solve. destruct N as [|N]; [lia|]. cbn [bind multi_loop]. unfold moam_trial. rewrite E. reflexivity. Qed.
Theorem multi_needs given U N draws sigma r : (0 < N)%nat -> multi_solve pre post given U N draws sigma = Ok r -> given = true /\ exists a, U = UArray a \/ U = UDict a.
Proof.
  intros HN E. unfold multi_solve in E. destruct N as [|N]; [lia|]. destruct draws as [|d draws]; [destruct U, given; discriminate|]. cbn [multi_loop] in E. unfold moam_trial in E.
  destruct (pre d); [|destruct U, given; discriminate E]. destruct U as [|u|u], given; try discriminate; (split; [reflexivity|exists u; auto]).
Qed.
Notation acc0 := (mkinc [] 0 0 0, 0%nat).
Lemma multi_loop_spec given U N draws acc a : (forall v x r, post v x = Ok r -> length r = length acc) -> multi_loop pre post given U N draws acc = Ok a ->
  exists m outs, (m <= length draws)%nat /\ mapM (moam_trial pre post given U) (firstn m draws) = Ok outs /\ length (filter any outs) = N /\ length a = length acc /\
    forall i, (i < length acc)%nat -> let incs := accepted (map (fun o => nth i o None) outs) in
      nth i a acc0 = (fold_left inc_add incs (fst (nth i acc acc0)), (snd (nth i acc acc0) + length incs)%nat).
Proof.
  revert N acc. induction draws as [|d draws IH]; intros N acc HL E.
  - destruct N; [|discriminate]. injection E as <-. exists 0%nat, []. repeat split; auto. intros i Hi. cbn. rewrite Nat.add_0_r. now destruct (nth i acc _).
  - destruct N as [|N]; [injection E as <-; exists 0%nat, []; repeat split; cbn; auto; try lia; intros i Hi; rewrite Nat.add_0_r; now destruct (nth i acc _)|]. cbn [multi_loop] in E.
    destruct (moam_trial pre post given U d) as [r|] eqn:T; [|discriminate]. cbn [bind] in E.
    assert (LR : length r = length acc). { unfold moam_trial in T. destruct (pre d); [|discriminate]. cbn [bind] in T. destruct (match U with UArray _ => _ | _ => _ end); [|discriminate]. cbn [bind] in T. destruct (moam_V1 U); [|discriminate]. now apply HL in T. }
    assert (LM : length (multi_add acc r) = length acc) by (unfold multi_add; rewrite map_length, combine_length; lia).
    apply IH in E; [|now rewrite LM]. destruct E as (m & outs & Hm & EO & LN & LA & HA). exists (S m), (r :: outs). split; [cbn; lia|].
    split; [cbn [firstn mapM]; rewrite T; cbn [bind]; now rewrite EO|]. split; [cbn [filter]; unfold any at 1; destruct (existsb _ r); cbn [length]; lia|].
    split; [now rewrite LA|]. intros i Hi. cbv zeta in *. rewrite HA by (now rewrite LM). cbn [map accepted flat_map]. fold (accepted (map (fun o => nth i o None) outs)).
    assert (NA : nth i (multi_add acc r) acc0 = match nth i r None with Some x => (inc_add (fst (nth i acc acc0)) x, S (snd (nth i acc acc0))) | None => nth i acc acc0 end).
    { unfold multi_add. rewrite (nth_map_d _ _ (acc0, None)) by (rewrite combine_length; lia). rewrite combine_nth by auto. reflexivity. }
    rewrite NA. destruct (nth i r None) as [x|]; cbn [fst snd app fold_left length]; [|reflexivity]. f_equal. lia.
Qed.
Lemma sum_fold {T} (f : T -> R) l : rsum (length l) (fun t => nth t (map f l) 0) = fold_right Rplus 0 (map f l).
Proof. induction l as [|x l IH]; [reflexivity|]. cbn [length map fold_right]. rewrite rsum_S_l. cbn [nth]. now rewrite IH. Qed.
Lemma csum_fold {T} (f : T -> list cx) l j : csum (length l) (fun t => nth j (nth t (map f l) []) (rcx 0)) = fold_right cxadd (rcx 0) (map (fun x => nth j (f x) (rcx 0)) l).
Proof.
  induction l as [|x l IH]; [reflexivity|]. cbn [length map fold_right]. unfold csum. rewrite (nsum_S_l CxRing). change (@nsum CxRing) with csum. change (cadd CxRing) with cxadd. cbn [nth]. now rewrite IH.
Qed.
(** Every impurity gets the mean over the samples accepted for it, whatever the array that
    was passed in contained. *)
Theorem multi_mean given U N draws sigma r nz : (forall v x r, post v x = Ok r -> length r = length sigma /\ forall i, In (Some i) r -> length (i_sigma i) = nz) ->
  (forall s, In s sigma -> length s = nz) -> multi_solve pre post given U N draws sigma = Ok r ->
  exists m outs, (m <= length draws)%nat /\ mapM (moam_trial pre post given U) (firstn m draws) = Ok outs /\ length (filter any outs) = N /\ length r = length sigma /\
  forall i, (i < length sigma)%nat -> let incs := accepted (map (fun o => nth i o None) outs) in let ri := nth i r (mkinc [] 0 0 0) in
    length (i_sigma ri) = nz /\ (forall j, (j < nz)%nat -> nth j (i_sigma ri) (rcx 0) = cmean (map (fun x => nth j (i_sigma x) (rcx 0)) incs)) /\
    i_occ0 ri = rmean (map i_occ0 incs) /\ i_occ1 ri = rmean (map i_occ1 incs).
Proof.
  intros HP HS E. unfold multi_solve in E. destruct (match U with UDict _ => if given then Ok tt else Err TypeError | _ => Ok tt end) as [u|]; [|discriminate]. cbn [bind] in E.
  destruct (multi_loop pre post given U N draws _) as [a|] eqn:EL; [|discriminate]. cbn [bind] in E. injection E as <-.
  apply multi_loop_spec in EL; [|intros v x r0 Q; rewrite map_length; now apply HP in Q]. destruct EL as (m & outs & Hm & EO & LN & LA & HA). rewrite map_length in *.
  exists m, outs. split; [exact Hm|]. split; [exact EO|]. split; [exact LN|]. unfold multi_finish. split; [now rewrite map_length|]. intros i Hi. cbv zeta in *.
  rewrite (nth_map_d _ _ acc0) by lia. rewrite (HA i Hi). rewrite (nth_map_d _ _ []) by auto. cbn [fst snd i_sigma i_occ0 i_occ1 Nat.add]. set (incs := accepted _).
  assert (LZ : length (nth i sigma []) = nz) by (apply HS, nth_In; lia).
  destruct (fold_inc incs (mkinc (map (fun _ => rcx 0) (nth i sigma [])) 0 0 0)) as (LL & B & C0 & C1 & _).
  { intros x Hx. unfold incs in Hx. apply accepted_in in Hx. apply in_map_iff in Hx. destruct Hx as (o & Eo & Ho). destruct (mapM_out _ _ _ _ EO Ho) as (d & _ & T).
    unfold moam_trial in T. destruct (pre d) as [y|]; [|discriminate]. cbn [bind] in T. destruct (match U with UArray _ => _ | _ => _ end); [|discriminate]. cbn [bind] in T. destruct (moam_V1 U) as [v|]; [|discriminate]. destruct (HP v y o T) as [LO HO].
    cbn [i_sigma]. etransitivity; [|symmetry; etransitivity; [apply map_length|exact LZ]]. apply HO. rewrite <- Eo. apply nth_In. lia. }
  cbn [i_sigma i_occ0 i_occ1] in *. assert (LM : length (map (fun _ : cx => rcx 0) (nth i sigma [])) = nz) by (rewrite map_length; exact LZ). rewrite LM in *. split; [now rewrite map_length|].
  assert (Z0 : forall j, nth j (map (fun _ : cx => rcx 0) (nth i sigma [])) (rcx 0) = rcx 0) by (intros j; exact (map_nth (fun _ => rcx 0) _ (rcx 0) j)).
  split; [|split].
  - intros j Hj. rewrite (nth_map_d _ _ (rcx 0)) by lia. rewrite B by auto. rewrite Z0, csum_fold. unfold cmean. destruct incs as [|x incs']; [cbn -[INR]; unfold cxdiv; apply cx_eq; cbn; ring|].
    rewrite map_length. cbn [map length Nat.ltb Nat.leb]. f_equal. ring.
  - rewrite C0, sum_fold, Rplus_0_l. unfold rmean. destruct incs; [cbn; field|]. rewrite map_length. reflexivity.
  - rewrite C1, sum_fold, Rplus_0_l. unfold rmean. destruct incs; [cbn; field|]. rewrite map_length. reflexivity.
Qed.
End Multi.
