(** Proofs about dedlib.py: trials without interaction, and the loop. *)
From Coq Require Import String Reals List Arith NArith ZArith Bool Lia Lra Psatz Ring FunctionalExtensionality.
From Verif Require CfMoreProofs.
From Verif Require Import Base RBase RLin CBase OperatorsModel OperatorsSpec SectorModel FockSpec LocalModel MatvecModel MbModel MbSpec EspaceModel EspaceSpec
  ProjModel ProjSpec CfModel GfModel GfSpec GfMoreProofs GmModel GmSpec GmProofs GmFreeProofs GmEomProofs GmEspaceProofs DedModel DedSpec DedFitProofs DedRootProofs DedProofs.
Import ListNotations.
Local Open Scope R_scope.
Add Ring cxr : cx_ring. Add Field cxf : cx_field.

Section Free.
Variables (big : R -> bool) (half : R).
Variable eigh : dense RRing -> res (list R * list (list R)).
Variable eigsh : nat -> Z -> (list R -> res (list R)) -> res (list R * list (list R)).
Variables (fsolve : (R -> R) -> R -> R) (kB : R) (wild : N -> nat -> N).
Variables (n : nat) (beta : R) (zs : list cx).
Hypothesis Hn : (1 < n)%nat. Hypothesis Hn' : (n <= 32)%nat. Hypothesis Hh : half + half = 1.
Hypothesis HE : eigh_sound RRing eigh. Hypothesis HA : eigsh_sound RRing eigsh. Hypothesis HC : eigh_complete eigh.

Lemma zpoint_id z : zpoint (rcx (re z)) (im z) = z.
Proof. rewrite CfMoreProofs.zpoint_value. destruct z as [a b]. cbn. f_equal. ring. Qed.

(** The Green's function of the impurity for the star matrix. *)
Lemma free_gf poles H V es egs e0 : length poles = n -> increasing n (pole poles) -> finds_roots fsolve n (pole poles) ->
  (forall v, In v (g_vk2 (gfimp_fit fsolve poles)) -> big (- sqrt v) = true) ->
  build_siam n (fun _ _ => 0) (fun _ _ => 0) 0 (gfimp_fit fsolve poles) = Ok (H, V) ->
  ded_espace big half eigh eigsh n H V = Ok (es, egs) ->
  exists gf, build_gf_exact n es beta e0 0 0%Z = Ok gf /\ forall z, im z <> 0 -> gf_call gf (rcx (re z)) (im z) = Ok (mean_gf n (pole poles) z).
Proof.
  intros L I FR B ES EE. subst n. assert (H0 : (0 < length poles)%nat) by lia.
  destruct (siam_ok fsolve poles H0 I FR 0) as (H' & V' & E' & HH & HV). rewrite ES in E'. injection E' as <- <-.
  assert (VK : forall k, (k < length poles - 1)%nat -> big (- sqrt (v2 (length poles - 1) (pole poles) (ek fsolve poles) k)) = true).
  { intros k Hk. rewrite <- (vk2_nth fsolve poles H0 I FR k Hk). apply B. apply nth_In. destruct (g_lengths fsolve poles) as [_ ->]. exact Hk. }
  assert (VZ : forall i j, (i < length poles)%nat -> (j < length poles)%nat -> V i j = 0) by (intros i j _ _; rewrite HV; destruct ((i =? 0)%nat && (j =? 0)%nat); reflexivity).
  assert (SY : forall sp : nat, symm RRing (length poles) (hspin RRing (H2 RRing H) sp)).
  { intros sp i j Hi Hj. cbn [hspin]. rewrite !HH by auto. apply star_sym. }
  destruct (free_espace big half (length poles) (H2 RRing H) (mkflags true true true) (VArray RRing V) false 0 None V eq_refl VZ eq_refl eq_refl Rleb eigh eigsh
    Rleb_total Rleb_trans Hn Hn' Hh SY eq_refl HE HA HC es egs EE) as (F & HF & _).
  destruct (free_pipeline big half (length poles) (H2 RRing H) (mkflags true true true) (VArray RRing V) false 0 None V eq_refl VZ eq_refl eq_refl Rleb eigh eigsh
    Rleb_total Rleb_trans Hn Hn' Hh SY eq_refl HE HA HC es egs EE 0%nat beta e0 ltac:(lia)) as (g & EG & HG).
  destruct (gm_consistent (length poles) es F beta e0 HF) as [_ (g' & EG' & HD)]. change (Z.of_nat 0) with 0%Z in EG. rewrite EG in EG'. injection EG' as <-.
  destruct (HD 0%nat H0) as (gf & EF & HV'). exists gf. split; [exact EF|]. intros z Hz.
  destruct (HV' (rcx (re z)) (im z)) as (G & EG1 & EG2). rewrite EG2. f_equal.
  destruct (HG (rcx (re z)) (im z) ltac:(now rewrite zpoint_id)) as (G' & EG3 & _ & _ & IV). rewrite EG1 in EG3. injection EG3 as <-. rewrite zpoint_id in IV.
  apply (resolvent_00 fsolve poles H0 I FR (entry G) (one_body big 0 (hspin RRing (H2 RRing H)) 0) z Hz); [|exact IV].
  intros i j Hi Hj. unfold one_body. cbn [hspin]. destruct (Nat.eqb_spec i j) as [->|N].
  - rewrite HH by auto. ring.
  - rewrite HH by auto. destruct i as [|a], j as [|b]; cbn [star]; try congruence.
    + now rewrite VK by lia.
    + now rewrite VK by lia.
    + destruct (Nat.eqb_spec a b); [congruence|]. now destruct (big 0).
Qed.

Hypothesis Hz : forall z, In z zs -> im z <> 0.
Theorem free_trial poles r : length poles = n -> increasing n (pole poles) -> finds_roots fsolve n (pole poles) ->
  (forall v, In v (g_vk2 (gfimp_fit fsolve poles)) -> big (- sqrt v) = true) ->
  siam_trial big half eigh eigsh fsolve kB wild n 0 0 beta zs poles = Ok r ->
  exists i, r = Some i /\ i_sigma i = map (fun _ => rcx 0) zs /\ i_occ1 i = i_occ0 i.
Proof.
  intros L I FR B. unfold siam_trial. cbv zeta. destruct (build_siam n (fun _ _ => 0) (fun _ _ => 0) 0 (gfimp_fit fsolve poles)) as [[H V]|] eqn:ES; [|discriminate].
  cbn [bind fst snd].
  replace (fun i j : nat => match i, j with O, O => H 0%nat 0%nat - 0 | _, _ => H i j end) with H
    by (apply functional_extensionality; intros [|i]; apply functional_extensionality; intros [|j]; auto; ring).
  replace (fun i j : nat => match i, j with O, O => 0 | _, _ => V i j end) with V.
  2: { unfold build_siam in ES. destruct (negb _); [discriminate|]. injection ES as _ <-. apply functional_extensionality; intros [|i]; apply functional_extensionality; intros [|j]; reflexivity. }
  destruct (ded_espace big half eigh eigsh n H V) as [[es egs]|] eqn:EE; [|discriminate]. cbn [bind fst snd].
  destruct (gs_sector (/ 10000000) es egs) as [[k s]|]; [|discriminate]. cbn [bind fst snd].
  destruct (gs_occupation s 0) as [o|]; [|discriminate]. cbn [bind].
  destruct (list_eq_dec Nat.eq_dec k k) as [_|NE]; [|congruence]. destruct egs as [e0|]; [|discriminate].
  destruct (free_gf poles H V es (Some e0) e0 L I FR B ES EE) as (gf & EF & HG). rewrite EF. cbn [bind].
  assert (M : mapM (fun z => do G <- gf_call gf (rcx (re z)) (im z); Ok (cxsub (cxinv (gf0_call poles z)) (cxinv G))) zs = Ok (map (fun _ => rcx 0) zs)).
  { clear - HG Hz L Hn. induction zs as [|z l IH]; [reflexivity|]. cbn [mapM map]. rewrite HG by (apply Hz; now left). cbn [bind]. rewrite IH by (intros; apply Hz; now right). cbn [bind].
    rewrite gf0_call_mean by lia. rewrite L. do 2 f_equal. ring. }
  rewrite M. cbn [bind]. destruct (build_non_interacting_espace RRing Rleb wild (g_ek (gfimp_fit fsolve poles))) as [[b eb]|]; [|discriminate]. cbn [bind snd].
  destruct eb as [eb|]; [|discriminate]. intros Q. injection Q as <-. eexists. split; [reflexivity|]. split; reflexivity.
Qed.
End Free.

(** ** The loop *)
Lemma fold_inc incs acc : (forall i, In i incs -> length (i_sigma i) = length (i_sigma acc)) ->
  let a := fold_left inc_add incs acc in length (i_sigma a) = length (i_sigma acc) /\
  (forall j, (j < length (i_sigma acc))%nat -> nth j (i_sigma a) (rcx 0) = cxadd (nth j (i_sigma acc) (rcx 0)) (csum (length incs) (fun t => nth j (nth t (map i_sigma incs) []) (rcx 0)))) /\
  i_occ0 a = i_occ0 acc + rsum (length incs) (fun t => nth t (map i_occ0 incs) 0) /\ i_occ1 a = i_occ1 acc + rsum (length incs) (fun t => nth t (map i_occ1 incs) 0) /\
  i_entropy a = i_entropy acc + rsum (length incs) (fun t => nth t (map i_entropy incs) 0).
Proof.
  revert acc. induction incs as [|i incs IH]; intros acc HL; cbn [fold_left map length].
  - cbv zeta. split; [reflexivity|]. split; [intros; unfold csum, nsum; cbn; apply cx_eq; cbn; ring|]. unfold rsum, nsum. cbn.
    repeat split; match goal with |- ?x = ?y => change (@eq R x y) end; ring.
  - pose proof (HL i (or_introl eq_refl)) as L1.
    assert (LA : length (i_sigma (inc_add acc i)) = length (i_sigma acc)) by (cbn [inc_add i_sigma]; unfold vadd; rewrite map_length, combine_length, L1; lia).
    destruct (IH (inc_add acc i)) as (A & B & C & D & E); [intros x Hx; rewrite LA; apply HL; now right|]. rewrite LA in *. cbv zeta. split; [exact A|]. split.
    + intros j Hj. rewrite B by auto. unfold csum at 2. rewrite (nsum_S_l CxRing). change (@nsum CxRing) with csum. change (cadd CxRing) with cxadd. cbn [nth map].
      cbn [inc_add i_sigma]. unfold vadd. rewrite (nth_indep _ (rcx 0) (cxadd (fst (rcx 0, rcx 0)) (snd (rcx 0, rcx 0)))) by (rewrite map_length, combine_length; lia).
      rewrite (map_nth (fun p : cx * cx => cxadd (fst p) (snd p))), combine_nth by auto. cbn [fst snd]. ring.
    + rewrite C, D, E, !rsum_S_l. cbn [inc_add i_occ0 i_occ1 i_entropy nth]. repeat split; ring.
Qed.

Section Loop.
Variables (big : R -> bool) (half : R).
Variable eigh : dense RRing -> res (list R * list (list R)).
Variable eigsh : nat -> Z -> (list R -> res (list R)) -> res (list R * list (list R)).
Variables (fsolve : (R -> R) -> R -> R) (kB : R) (wild : N -> nat -> N).
Variables (n : nat) (U sigma0 beta : R) (zs : list cx).
Notation trial := (siam_trial big half eigh eigsh fsolve kB wild n U sigma0 beta zs).
Notation loop := (siam_loop big half eigh eigsh fsolve kB wild n U sigma0 beta zs).

(** The results of the first trials, as far as the loop goes. *)
Definition outcomes (rs : sampler) (draws : list (list R)) : res (list (option increment)) :=
  mapM (fun d => do poles <- sampler_call rs d; trial poles) draws.
Lemma loop_spec rs N draws acc a : loop rs N draws acc = Ok a <->
  exists m outs, (m <= length draws)%nat /\ outcomes rs (firstn m draws) = Ok outs /\ length (accepted outs) = N /\ ends_accepted outs /\ a = fold_left inc_add (accepted outs) acc.
Proof.
  revert N acc. induction draws as [|d draws IH]; intros N acc.
  - destruct N as [|N]; cbn [siam_loop].
    + split; [intros E; injection E as <-; exists 0%nat, []; repeat split; auto; intros o l' Q; destruct l'; discriminate|].
      intros (m & outs & Hm & E & L & _ & ->). rewrite firstn_nil in E. injection E as <-. reflexivity.
    + split; [discriminate|]. intros (m & outs & Hm & E & L & _ & ->). rewrite firstn_nil in E. injection E as <-. discriminate.
  - destruct N as [|N].
    + cbn [siam_loop]. split; [intros E; injection E as <-; exists 0%nat, []; repeat split; cbn; auto; try lia; intros o l' Q; destruct l'; discriminate|].
      intros (m & outs & Hm & E & L & EA & ->). destruct outs as [|o l] using rev_ind; [reflexivity|].
      exfalso. specialize (EA o l eq_refl). destruct o; [|congruence]. unfold accepted in L. rewrite flat_map_app, app_length in L. cbn in L. lia.
    + cbn [siam_loop]. split.
      * destruct (sampler_call rs d) as [poles|] eqn:SC; [|discriminate]. cbn [bind]. destruct (trial poles) as [[i|]|] eqn:T; [| |discriminate]; cbn [bind]; intros E; apply IH in E;
        destruct E as (m & outs & Hm & E & L & EA & ->).
        -- exists (S m), (Some i :: outs). split; [cbn; lia|]. split; [unfold outcomes in *; cbn [firstn mapM]; rewrite SC; cbn [bind]; rewrite T; cbn [bind]; rewrite E; reflexivity|].
           split; [cbn; unfold accepted in L; now rewrite L|]. split; [|reflexivity]. intros o l' Q. destruct l' as [|x l']; [injection Q as <- _; discriminate|]. injection Q as _ Q. now apply (EA o l').
        -- exists (S m), (None :: outs). split; [cbn; lia|]. split; [unfold outcomes in *; cbn [firstn mapM]; rewrite SC; cbn [bind]; rewrite T; cbn [bind]; rewrite E; reflexivity|].
           split; [exact L|]. split; [|reflexivity]. intros o l' Q. destruct l' as [|x l']; [injection Q as <- Q; subst outs; discriminate|]. injection Q as _ Q. now apply (EA o l').
      * intros (m & outs & Hm & E & L & EA & ->). destruct m as [|m]; [cbn in E; injection E as <-; discriminate|].
        unfold outcomes in E. cbn [firstn mapM] in E. destruct (sampler_call rs d) as [poles|] eqn:SC; [|discriminate]. cbn [bind] in *. destruct (trial poles) as [o|] eqn:T; [|discriminate]. cbn [bind] in *.
        destruct (mapM _ (firstn m draws)) as [outs'|] eqn:E'; [|discriminate]. cbn [bind] in E. injection E as <-.
        assert (EA' : ends_accepted outs') by (intros o' l' Q; apply (EA o' (o :: l')); now rewrite Q).
        destruct o as [i|]; cbn [accepted flat_map app] in *.
        -- apply IH. exists m, outs'. split; [cbn in Hm; lia|]. split; [exact E'|]. split; [cbn in L; unfold accepted; lia|]. split; [exact EA'|reflexivity].
        -- apply IH. exists m, outs'. split; [cbn in Hm; lia|]. split; [exact E'|]. split; [exact L|]. split; [exact EA'|reflexivity].
Qed.
Lemma trial_len poles i : trial poles = Ok (Some i) -> length (i_sigma i) = length zs.
Proof.
  unfold siam_trial. cbv zeta. destruct (build_siam _ _ _ _ _) as [[H V]|]; [|discriminate]. cbn [bind fst snd].
  destruct (ded_espace _ _ _ _ _ _ _) as [[es egs]|]; [|discriminate]. cbn [bind fst snd].
  destruct (gs_sector _ es egs) as [[k s]|]; [|discriminate]. cbn [bind fst snd]. destruct (gs_occupation s 0) as [o|]; [|discriminate]. cbn [bind].
  destruct (ded_espace _ _ _ _ _ _ _) as [[es1 egs1]|]; [|discriminate]. cbn [bind fst snd].
  destruct (gs_sector _ es1 egs1) as [[k1 s1]|]; [|discriminate]. cbn [bind fst snd]. destruct (list_eq_dec Nat.eq_dec k1 k); [|discriminate].
  destruct egs1 as [e1|]; [|discriminate]. destruct (build_gf_exact _ _ _ _ _ _) as [gf|]; [|discriminate]. cbn [bind].
  destruct (mapM _ zs) as [ds|] eqn:M; [|discriminate]. cbn [bind]. destruct (gs_occupation s1 0); [|discriminate]. cbn [bind].
  destruct (build_non_interacting_espace _ _ _ _) as [[b eb]|]; [|discriminate]. cbn [bind snd]. destruct eb; [|discriminate]. intros Q. injection Q as <-. cbn [i_sigma].
  clear - M. revert ds M. induction zs as [|z l IH]; intros ds M; cbn [mapM] in M; [now injection M as <-|].
  destruct (gf_call gf (rcx (re z)) (im z)); [|discriminate]. cbn [bind] in M. destruct (mapM _ l) as [ds'|]; [|discriminate]. cbn [bind] in M. injection M as <-. cbn. now rewrite (IH ds').
Qed.
Lemma accepted_in {A} (l : list (option A)) a : In a (accepted l) <-> In (Some a) l.
Proof.
  unfold accepted. rewrite in_flat_map. split.
  - intros (o & H & E). destruct o as [x|]; [|destruct E]. destruct E as [E|[]]. now rewrite <- E.
  - intros H. exists (Some a). split; [exact H|now left].
Qed.
Lemma mapM_out {A B} (f : A -> res B) l r b : mapM f l = Ok r -> In b r -> exists a, In a l /\ f a = Ok b.
Proof.
  revert r. induction l as [|a l IH]; intros r E Hb; cbn [mapM] in E; [injection E as <-; destruct Hb|].
  destruct (f a) as [x|] eqn:FA; [|discriminate]. cbn [bind] in E. destruct (mapM f l) as [r'|]; [|discriminate]. injection E as <-.
  destruct Hb as [<-|Hb]; [exists a; split; [now left|auto]|]. destruct (IH r' eq_refl Hb) as (a' & ? & ?). exists a'. split; [now right|auto].
Qed.

Lemma rcx_div x N : (0 < N)%nat -> rcx (x / INR N) = cxdiv (rcx x) (rcx (INR N)).
Proof. intros H. assert (0 < INR N) by (now apply lt_0_INR). apply cx_eq; unfold cxdiv, cxmul, cxinv, rcx, re, im, cxn2; cbn -[INR]; field; lra. Qed.

Theorem solve_spec dos nsamples sigma N draws r : (match sigma with Some s => length s = length zs | None => True end) ->
  siam_solve big half eigh eigsh fsolve kB wild n U sigma0 beta zs dos nsamples sigma N draws = Ok r ->
  exists z0 rs m outs, hd_error zs = Some z0 /\ sampler_init dos (re z0) (re (last zs z0)) n nsamples = Ok rs /\ (0 < N)%nat /\
    (m <= length draws)%nat /\ outcomes rs (firstn m draws) = Ok outs /\ length (accepted outs) = N /\ ends_accepted outs /\
    length (i_sigma r) = length zs /\
    (forall j, (j < length zs)%nat -> nth j (i_sigma r) (rcx 0) =
       cxdiv (cxadd (match sigma with Some s => nth j s (rcx 0) | None => rcx 0 end) (csum N (fun t => nth j (nth t (map i_sigma (accepted outs)) []) (rcx 0)))) (rcx (INR N))) /\
    i_occ0 r = rsum N (fun t => nth t (map i_occ0 (accepted outs)) 0) / INR N /\ i_occ1 r = rsum N (fun t => nth t (map i_occ1 (accepted outs)) 0) / INR N /\
    i_entropy r = rsum N (fun t => nth t (map i_entropy (accepted outs)) 0) / (INR N * kB).
Proof.
  intros HL E. unfold siam_solve in E. destruct zs as [|z0 zs'] eqn:EZ; [discriminate|]. rewrite <- EZ in *.
  destruct (sampler_init dos (re z0) (re (last zs z0)) n nsamples) as [rs|] eqn:ES; [|discriminate]. cbn [bind] in E.
  destruct (loop rs N draws _) as [a|] eqn:EL; [|discriminate]. cbn [bind] in E. destruct (Nat.eqb_spec N 0) as [|N0]; [discriminate|]. injection E as <-.
  apply loop_spec in EL. destruct EL as (m & outs & Hm & EO & LN & EA & ->).
  set (acc := mkinc _ 0 0 0). assert (LA : length (i_sigma acc) = length zs) by (cbn [acc i_sigma]; destruct sigma; [exact HL|now rewrite map_length]).
  destruct (fold_inc (accepted outs) acc) as (A & B & C & D & F).
  { intros i Hi. apply accepted_in in Hi. destruct (mapM_out _ _ _ _ EO Hi) as (d & _ & T). destruct (sampler_call rs d) as [poles|]; [|discriminate]. cbn [bind] in T.
    rewrite LA. now apply trial_len in T. }
  exists z0, rs, m, outs. rewrite LN in *. rewrite LA in *. split; [now rewrite EZ|]. split; [exact ES|]. split; [lia|]. split; [exact Hm|]. split; [exact EO|]. split; [reflexivity|]. split; [exact EA|].
  cbn [siam_finish i_sigma i_occ0 i_occ1 i_entropy]. split; [now rewrite map_length|]. split.
  - intros j Hj. rewrite (nth_indep _ (rcx 0) (cxdiv (rcx 0) (rcx (INR N)))) by (rewrite map_length; lia). rewrite (map_nth (fun x => cxdiv x (rcx (INR N)))), B by auto.
    do 2 f_equal. cbn [acc i_sigma]. destruct sigma; [reflexivity|].
    exact (map_nth (fun _ => rcx 0) zs (rcx 0) j).
  - rewrite C, D, F. cbn [acc i_occ0 i_occ1 i_entropy]. rewrite !Rplus_0_l. auto.
Qed.
End Loop.

Lemma last_indep {A} (l : list A) a b : l <> [] -> last l a = last l b.
Proof. induction l as [|x [|y l] IH]; intros H; [congruence|reflexivity|]. apply IH. discriminate. Qed.

(** Without interaction and shift the self-energy stays zero. *)
Section FreeSolve.
Variables (big : R -> bool) (half : R).
Variable eigh : dense RRing -> res (list R * list (list R)).
Variable eigsh : nat -> Z -> (list R -> res (list R)) -> res (list R * list (list R)).
Variables (fsolve : (R -> R) -> R -> R) (kB : R) (wild : N -> nat -> N).
Variables (n : nat) (beta : R) (zs : list cx).
Hypothesis Hn : (1 < n)%nat. Hypothesis Hn' : (n <= 32)%nat. Hypothesis Hh : half + half = 1.
Hypothesis HE : eigh_sound RRing eigh. Hypothesis HA : eigsh_sound RRing eigsh. Hypothesis HC : eigh_complete eigh.
Hypothesis Hz : forall z, In z zs -> im z <> 0.
Theorem solve_free dos nsamples N draws r : 
  (forall rs d poles, In d draws -> sampler_init dos (re (hd (rcx 0) zs)) (re (last zs (rcx 0))) n nsamples = Ok rs -> sampler_call rs d = Ok poles ->
     length poles = n /\ increasing n (pole poles) /\ finds_roots fsolve n (pole poles) /\ forall v, In v (g_vk2 (gfimp_fit fsolve poles)) -> big (- sqrt v) = true) ->
  siam_solve big half eigh eigsh fsolve kB wild n 0 0 beta zs dos nsamples None N draws = Ok r ->
  i_sigma r = map (fun _ => rcx 0) zs /\ i_occ1 r = i_occ0 r.
Proof.
  intros HD E. destruct (solve_spec _ _ _ _ _ _ _ _ _ _ _ _ _ _ None _ _ _ Logic.I E) as (z0 & rs & m & outs & E0 & ES & N0 & Hm & EO & LN & _ & LS & S & O0 & O1 & _).
  assert (ALL : forall i, In i (accepted outs) -> i_sigma i = map (fun _ => rcx 0) zs /\ i_occ1 i = i_occ0 i).
  { intros i Hi. apply accepted_in in Hi. destruct (mapM_out _ _ _ _ EO Hi) as (d & Hd & T). destruct (sampler_call rs d) as [poles|] eqn:SC; [|discriminate]. cbn [bind] in T.
    assert (Hd' : In d draws) by (rewrite <- (firstn_skipn m draws); apply in_or_app; now left).
    assert (EH : hd (rcx 0) zs = z0 /\ last zs (rcx 0) = last zs z0).
    { clear - E0. destruct zs as [|a l]; [discriminate|]. injection E0 as <-. split; [reflexivity|]. now apply last_indep. }
    destruct EH as [H1 H2]. destruct (HD rs d poles Hd' ltac:(rewrite H1, H2; exact ES) SC) as (P1 & P2 & P3 & P4).
    destruct (free_trial big half eigh eigsh fsolve kB wild n beta zs Hn Hn' Hh HE HA HC Hz poles (Some i) P1 P2 P3 P4 T) as (i' & Q & R1 & R2). injection Q as <-. auto. }
  split.
  - apply (nth_ext _ _ (rcx 0) (rcx 0)); [now rewrite LS, map_length|]. rewrite LS. intros j Hj. rewrite S by auto.
    assert (Z0 : nth j (map (fun _ : cx => rcx 0) zs) (rcx 0) = rcx 0).
    { exact (map_nth (fun _ => rcx 0) zs (rcx 0) j). }
    rewrite Z0. rewrite csum_0.
    + unfold cxdiv. ring.
    + intros t Ht. rewrite (nth_indep _ [] (i_sigma (mkinc [] 0 0 0))) by (rewrite map_length; lia). rewrite map_nth.
      destruct (ALL (nth t (accepted outs) (mkinc [] 0 0 0))) as [-> _]; [apply nth_In; lia|exact Z0].
  - rewrite O0, O1. f_equal. apply rsum_ext. intros t Ht. rewrite (nth_indep (map i_occ1 _) 0 (i_occ1 (mkinc [] 0 0 0))) by (rewrite map_length; lia).
    rewrite (nth_indep (map i_occ0 _) 0 (i_occ0 (mkinc [] 0 0 0))) by (rewrite map_length; lia). rewrite !map_nth. apply ALL, nth_In. lia.
Qed.
End FreeSolve.
