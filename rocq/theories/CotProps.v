(** C75-C76: transition elements and detailed balance of cotunnelling. *)
From Coq Require Import Reals List Arith NArith ZArith Bool Lia Lra Psatz Sorted.
From Verif Require Import Base RBase RLin CBase OperatorsSpec FockSpec SectorModel LocalModel MatvecModel EspaceModel ProjModel ProjSpec
  GfModel GfSpec RateModel RateSpec RateProofs TransModel TransSpec TransFinalProofs CotModel CotSpec CotProofs CotBuildProofs CotFinalProofs.
Import ListNotations.
Local Open Scope R_scope.

(** * C75: transition elements *)
Theorem C75_elements : forall n es egs, (0 < n)%nat -> co_solved n es egs -> exists d, build_transition_elements n egs es None = Ok d /\ NoDup (map fst d) /\
  (forall p q i p' q' f, (exists l, In (([p'; q'; f], [p; q; i]), l) d) <->
     co_reach n es egs p q /\ co_reach n es egs p' q' /\ spin_flip (Z.of_nat p, Z.of_nat q) (Z.of_nat p', Z.of_nat q') /\
     exists sI sF, In ([p; q], sI) es /\ In ([p'; q'], sF) es /\ (i < nvals sI)%nat /\ (f < nvals sF)%nat) /\
  (forall F I l, In ((F, I), l) d -> (exists p q i p' q' f, I = [p; q; i] /\ F = [p'; q'; f]) /\ Forall2 (exact_sigma n es F I) (channels F I) l) /\
  (forall F I, In (F, I) (map fst d) -> In (I, F) (map fst d)).
Proof. exact co_build_spec. Qed.
Print Assumptions C75_elements.

Theorem C75_screened : forall n es egs, (0 < n)%nat -> co_solved n es egs -> forall c, exists d d',
  build_transition_elements n egs es None = Ok d /\ build_transition_elements n egs es (Some c) = Ok d' /\
  forall F I l, In ((F, I), l) d' <-> In ((F, I), l) d /\ near es egs c F /\ near es egs c I /\ exists EF EI, state_energy es F EF /\ state_energy es I EI /\ Rabs (EF - EI) < c.
Proof. exact co_build_screen. Qed.
Print Assumptions C75_screened.

(** Called directly, with all spins, a sector that cannot flip a spin in both
    directions makes [project_sector] fail. *)
Theorem C75_direct_refuted : forall n es egs, (0 < n)%nat -> co_solved n es egs -> forall p q d, is_ground es egs p q ->
  ((p = 0 \/ p = n \/ q = 0 \/ q = n)%nat -> project_sector n p q es d ispin_all = Err AttributeError) /\
  ((0 < p < n)%nat -> (0 < q < n)%nat -> exists d', project_sector n p q es d ispin_all = Ok d').
Proof. exact direct_edge. Qed.
Print Assumptions C75_direct_refuted.

(** One orbital; the down electron costs [h] more than the up electron. *)
Definition ex_s (u w : N) (e : R) : sct RRing := mksct RRing (StSz [u] [w]) [e] (Cols RRing [[1]]).
Definition exc (h : R) : espace RRing := [([0; 0]%nat, ex_s 0 0 0); ([1; 0]%nat, ex_s 1 0 (-1)); ([0; 1]%nat, ex_s 0 1 (-1 + h)); ([1; 1]%nat, ex_s 1 1 0)].
Lemma exc_ground h : is_ground (exc h) (-1) 1 0.
Proof. eexists. exists (-1). split; [cbn; tauto|]. split; [now left|]. split; [intros x [<-|[]]; apply Rle_refl|]. replace (-1 - -1) with 0 by ring. rewrite Rabs_R0. lra. Qed.
Lemma exc_ground_inv h p q : is_ground (exc h) (-1) p q -> (p + q = 1)%nat.
Proof.
  intros (s & m & H & I & _ & L). cbn in H. destruct H as [H|[H|[H|[H|[]]]]]; injection H as <- <- <-; auto; destruct I as [<-|[]]; exfalso; unfold Rabs in L; destruct (Rcase_abs _); lra.
Qed.
Lemma exc_reach h p q : co_reach 1 (exc h) (-1) p q <-> (p + q = 1)%nat.
Proof.
  split.
  - intros (Lp & Lq & a & b & G & k & K & E). apply exc_ground_inv in G. cbn [fst snd] in E. injection E as E1 E2. lia.
  - intros S. split; [lia|]. split; [lia|]. exists 1%nat, 0%nat. split; [apply exc_ground|]. exists (- Z.of_nat q)%Z. split; [lia|]. cbn [fst snd]. f_equal; lia.
Qed.
Example C75_ex_solved h : co_solved 1 (exc h) (-1).
Proof.
  split; [cbn; repeat constructor; cbn; intuition discriminate|]. split.
  - cbn. intros key s [H|[H|[H|[H|[]]]]]; injection H as <- <-; (split; [cbn; lia|]); do 2 eexists; (split; [reflexivity|]); repeat split; try lia; try reflexivity;
      (exists [[1]]; split; [reflexivity|]; split; [reflexivity|]; intros x [<-|[]]; reflexivity).
  - assert (ALL : forall p q, (p <= 1)%nat -> (q <= 1)%nat -> exists s, In ([p; q], s) (exc h)) by (intros p q Hp Hq; destruct p as [|[|]], q as [|[|]]; try lia; eexists; cbn; tauto).
    split; [intros p q (Lp & Lq & _); auto|intros; auto].
Qed.
(** A spin flip has an electron part and a hole part. *)
Lemma exc_flip h si sj p q p' q' s : (p + q = 1)%nat -> (p' + q' = 1)%nat -> count si p q = 1%nat -> count sj p q = 0%nat -> exact_sigma 1 (exc h) [p'; q'; 0%nat] [p; q; 0%nat] (si, sj) s ->
  exists e g, s = SEH e g /\ c_F e = [p'; q'; 0%nat] /\ c_I e = [p; q; 0%nat] /\ c_F g = [p'; q'; 0%nat] /\ c_I g = [p; q; 0%nat] /\ exact_path 1 (exc h) OpCdg sj si e /\ exact_path 1 (exc h) OpC si sj g.
Proof.
  intros S S' C1 C2 (a & b & i & E & H). injection E as <- <- <-. destruct s as [e|g|e g].
  - destruct H as (_ & _ & _ & C & _). lia.
  - destruct H as (_ & _ & _ & C & _). lia.
  - exists e, g. tauto.
Qed.
Example C75_example : forall h, exists d e g, build_transition_elements 1 (-1) (exc h) None = Ok d /\ In (([0; 1; 0], [1; 0; 0])%nat, [SEH e g]) d /\
  c_nsJ e = (1, 1)%nat /\ c_nsJ g = (0, 0)%nat /\ c_dE e = h /\ c_dE g = h /\ project_sector 1 1 0 (exc h) [] ispin_all = Err AttributeError.
Proof.
  intros h. destruct (co_build_spec 1 (exc h) (-1) ltac:(lia) (C75_ex_solved h)) as (d & E & _ & IFF & B & _).
  destruct (proj2 (IFF 1 0 0 0 1 0)%nat) as (l & Hl).
  { split; [now apply exc_reach|]. split; [now apply exc_reach|]. split; [exists (-1)%Z; split; [auto|reflexivity]|]. do 2 eexists. split; [cbn; tauto|]. split; [cbn; tauto|]. cbn. lia. }
  destruct (B _ _ _ Hl) as [_ FA]. change (channels [0; 1; 0]%nat [1; 0; 0]%nat) with [(0, 1)%nat] in FA. inversion FA as [|? s ? l0 X FN E1 E2]; subst. inversion FN; subst.
  destruct (exc_flip h 0 1 1 0 0 1 s) as (e & g & -> & Fe & Ie & Fg & Ig & Xe & Xg); auto. exists d, e, g. split; [exact E|]. split; [exact Hl|].
  destruct Xe as (p & q & i & pj & qj & p' & q' & f & I & J & F & A1 & A2 & A3 & A4 & A5 & A6 & A7 & A8 & A9 & A10 & A11 & A12 & A13 & A14).
  destruct Xg as (r & s & k & rj & sj & r' & s' & m & I' & J' & F' & B1 & B2 & B3 & B4 & B5 & B6 & B7 & B8 & B9 & B10 & B11 & B12 & B13 & B14).
  rewrite A1 in Ie. rewrite A2 in Fe. rewrite B1 in Ig. rewrite B2 in Fg. injection Ie as -> -> ->. injection Fe as -> -> ->. injection Ig as -> -> ->. injection Fg as -> -> ->.
  rewrite A3, B3, A14, B14. cbn in A9, B9. destruct A9 as [<- ->]. destruct B9 as [Q <-]. injection Q as <-. split; [reflexivity|]. split; [reflexivity|].
  cbn in A4, A6, B4, B6. destruct A4 as [A4|[A4|[A4|[A4|[]]]]]; try discriminate. destruct A6 as [A6|[A6|[A6|[A6|[]]]]]; try discriminate. destruct B4 as [B4|[B4|[B4|[B4|[]]]]]; try discriminate. destruct B6 as [B6|[B6|[B6|[B6|[]]]]]; try discriminate.
  injection A4 as <-. injection A6 as <-. injection B4 as <-. injection B6 as <-. split; [cbn; lra|]. split; [cbn; lra|].
  apply (proj1 (direct_edge 1 (exc h) (-1) ltac:(lia) (C75_ex_solved h) 1 0 [] (exc_ground h))). lia.
Qed.

(** * C76: detailed balance *)
Theorem C76_balance : forall n es, (0 < n)%nat -> NoDup (map fst es) -> (forall p q s, In ([p; q], s) es -> is_sector RRing n p q s) ->
  forall F I si sj s s' A ext inj beta mu me mi x, exact_sigma n es F I (si, sj) s -> exact_sigma n es I F (sj, si) s' ->
  c_dE (base s) = 0 \/ electron_first s -> 0 < beta -> nth_error mu ext = Some me -> nth_error mu inj = Some mi -> regular beta (c_dE (base s) - me + mi) ->
  approximate s A ext inj beta mu = Ok x ->
  exists y, approximate s' A inj ext beta mu = Ok y /\ x = exp (- beta * (c_dE (base s) - me + mi)) * y.
Proof. intros n es Hn ND SEC F I si sj s s' A ext inj beta mu me mi x. exact (sigma_balance n es ND SEC F I si sj s s' A ext inj beta mu me mi x Hn). Qed.
Print Assumptions C76_balance.

Theorem C76_rates : forall n es egs, (0 < n)%nat -> co_solved n es egs -> forall cutoff d F I E beta mu me mi A ext inj,
  build_transition_elements n egs es cutoff = Ok d -> state_energy es F E -> state_energy es I E ->
  0 < beta -> nth_error mu ext = Some me -> nth_error mu inj = Some mi -> regular beta (mi - me) ->
  rate_of (co_call A beta mu) d (ext, inj) F I = exp (- beta * (mi - me)) * rate_of (co_call A beta mu) d (inj, ext) I F.
Proof. exact rates_balance. Qed.
Print Assumptions C76_rates.

Theorem C76_degenerate : forall n es egs, (0 < n)%nat -> co_solved n es egs -> forall cutoff d beta m A,
  build_transition_elements n egs es cutoff = Ok d -> 0 < beta -> exists ids W,
  co_rate_matrix d beta [m; m] A = Ok (length ids, W) /\ StronglySorted before ids /\ (forall x, In x ids <-> exists I l, In ((x, I), l) d) /\
  (forall f i E, (f < length ids)%nat -> (i < length ids)%nat -> state_energy es (nth f ids []) E -> state_energy es (nth i ids []) E -> W f i = W i f) /\
  ((exists E, forall x, In x ids -> state_energy es x E) -> stationary (length ids) W (fun _ => 1)).
Proof. exact degenerate_rates. Qed.
Print Assumptions C76_degenerate.

(** The rates of the example. *)
Definition exA : list (list R) := [[1]; [1]].
Lemma exc_path h op s1 s2 p q p' q' g : exact_path 1 (exc h) op s1 s2 g -> c_I g = [p; q; 0%nat] -> c_F g = [p'; q'; 0%nat] ->
  exists pj qj, moved op s1 p q pj qj /\ moved (opp_op op) s2 pj qj p' q' /\ (pj <= 1)%nat /\ (qj <= 1)%nat /\
  exists I J F, In ([p; q], I) (exc h) /\ In ([pj; qj], J) (exc h) /\ In ([p'; q'], F) (exc h) /\
  forall z, gf2_call g z [1] [1] = Ok (amp 1 (opp_op op) s2 F J 0 0 0 * amp 1 op s1 J I 0 0 0 * / (z - side op * (energy J 0 - energy I 0))).
Proof.
  intros (p0 & q0 & i & pj & qj & p0' & q0' & f & I & J & F & A1 & A2 & A3 & A4 & A5 & A6 & A7 & A8 & A9 & A10 & A11 & A12 & A13 & A14) E1 E2.
  rewrite A1 in E1. rewrite A2 in E2. injection E1 as -> -> ->. injection E2 as -> -> ->.
  assert (VJ : nvals J = 1%nat /\ (pj <= 1)%nat /\ (qj <= 1)%nat) by (cbn in A5; destruct A5 as [X|[X|[X|[X|[]]]]]; injection X as <- <- <-; cbn; lia).
  destruct VJ as (VJ & L1 & L2). exists pj, qj. split; [auto|]. split; [auto|]. split; [auto|]. split; [auto|]. exists I, J, F. split; [auto|]. split; [auto|]. split; [auto|].
  intros z. unfold gf2_call. rewrite A11, A12, A13, VJ. cbn [seq map mapM]. unfold dotv. cbn. f_equal. ring.
Qed.
Ltac pick H := cbn in H; destruct H as [H|[H|[H|[H|[]]]]]; try discriminate H; injection H as <-.
Ltac av := unfold amp, bracket; cbv -[Rplus Rmult IZR Ropp]; lra.
Lemma exA_lead k : (k < 2)%nat -> lead exA k = Ok [1].
Proof. intros L. destruct k as [|[|]]; [reflexivity|reflexivity|lia]. Qed.
Lemma exc_forward h s z ext inj : (ext < 2)%nat -> (inj < 2)%nat -> exact_sigma 1 (exc h) [0; 1; 0]%nat [1; 0; 0]%nat (0, 1)%nat s ->
  c_dE (base s) = h /\ sigma_call s z exA ext inj = Ok ((/ (z - 1) - / (z + 1)) ^ 2).
Proof.
  intros Le Li X. destruct (exc_flip h 0 1 1 0 0 1 s) as (e & g & -> & Fe & Ie & Fg & Ig & Xe & Xg); auto. split.
  - destruct Xe as (p & q & i & pj & qj & p' & q' & f & I & J & F & A1 & A2 & _ & A4 & _ & A6 & _ & _ & _ & _ & _ & _ & _ & A14). rewrite A1 in Ie. rewrite A2 in Fe. injection Ie as -> -> ->. injection Fe as -> -> ->.
    pick A4. pick A6. cbn [base]. rewrite A14. cbn. lra.
  - destruct (exc_path h _ _ _ _ _ _ _ _ Xe Ie Fe) as (pj & qj & M1 & M2 & _ & _ & I & J & F & H1 & H2 & H3 & V).
    destruct (exc_path h _ _ _ _ _ _ _ _ Xg Ig Fg) as (rj & sj & M3 & M4 & _ & _ & I' & J' & F' & H4 & H5 & H6 & V').
    cbn in M1, M3. destruct M1 as [<- ->]. destruct M3 as [M3 <-]. injection M3 as <-. pick H1. pick H2. pick H3. pick H4. pick H5. pick H6.
    unfold sigma_call. rewrite !exA_lead by auto. cbn [bind]. rewrite V, V'. cbn [bind opp_op side].
    replace (amp 1 OpC 0 (ex_s 0 1 (-1 + h)) (ex_s 1 1 0) 0 0 0) with (-1) by av. replace (amp 1 OpCdg 1 (ex_s 1 1 0) (ex_s 1 0 (-1)) 0 0 0) with 1 by av.
    replace (amp 1 OpCdg 1 (ex_s 0 1 (-1 + h)) (ex_s 0 0 0) 0 0 0) with 1 by av. replace (amp 1 OpC 0 (ex_s 0 0 0) (ex_s 1 0 (-1)) 0 0 0) with 1 by av.
    cbn [energy ex_s s_vals nth]. replace (z - 1 * (0 - -1)) with (z - 1) by ring. replace (z - -1 * (0 - -1)) with (z + 1) by ring. f_equal. ring.
Qed.
Lemma exc_backward h s z ext inj : (ext < 2)%nat -> (inj < 2)%nat -> exact_sigma 1 (exc h) [1; 0; 0]%nat [0; 1; 0]%nat (1, 0)%nat s ->
  c_dE (base s) = - h /\ sigma_call s z exA ext inj = Ok ((/ (z - (1 - h)) - / (z + (1 - h))) ^ 2).
Proof.
  intros Le Li X. destruct (exc_flip h 1 0 0 1 1 0 s) as (e & g & -> & Fe & Ie & Fg & Ig & Xe & Xg); auto. split.
  - destruct Xe as (p & q & i & pj & qj & p' & q' & f & I & J & F & A1 & A2 & _ & A4 & _ & A6 & _ & _ & _ & _ & _ & _ & _ & A14). rewrite A1 in Ie. rewrite A2 in Fe. injection Ie as -> -> ->. injection Fe as -> -> ->.
    pick A4. pick A6. cbn [base]. rewrite A14. cbn. lra.
  - destruct (exc_path h _ _ _ _ _ _ _ _ Xe Ie Fe) as (pj & qj & M1 & M2 & _ & _ & I & J & F & H1 & H2 & H3 & V).
    destruct (exc_path h _ _ _ _ _ _ _ _ Xg Ig Fg) as (rj & sj & M3 & M4 & _ & _ & I' & J' & F' & H4 & H5 & H6 & V').
    cbn in M1, M3. destruct M1 as [-> <-]. destruct M3 as [<- M3]. injection M3 as <-. pick H1. pick H2. pick H3. pick H4. pick H5. pick H6.
    unfold sigma_call. rewrite !exA_lead by auto. cbn [bind]. rewrite V, V'. cbn [bind opp_op side].
    replace (amp 1 OpC 1 (ex_s 1 0 (-1)) (ex_s 1 1 0) 0 0 0) with 1 by av. replace (amp 1 OpCdg 0 (ex_s 1 1 0) (ex_s 0 1 (-1 + h)) 0 0 0) with (-1) by av.
    replace (amp 1 OpCdg 0 (ex_s 1 0 (-1)) (ex_s 0 0 0) 0 0 0) with 1 by av. replace (amp 1 OpC 1 (ex_s 0 0 0) (ex_s 0 1 (-1 + h)) 0 0 0) with 1 by av.
    cbn [energy ex_s s_vals nth]. replace (z - 1 * (0 - (-1 + h))) with (z - (1 - h)) by ring. replace (z - -1 * (0 - (-1 + h))) with (z + (1 - h)) by ring. f_equal. ring.
Qed.
(** The dictionary, state labels and rates of the example. *)
Lemma exc_dict h : exists d s s', build_transition_elements 1 (-1) (exc h) None = Ok d /\ NoDup (map fst d) /\
  (forall x, (exists I l, In ((x, I), l) d) <-> x = [0; 1; 0]%nat \/ x = [1; 0; 0]%nat) /\
  In (([0; 1; 0], [1; 0; 0])%nat, [s]) d /\ In (([1; 0; 0], [0; 1; 0])%nat, [s']) d /\
  exact_sigma 1 (exc h) [0; 1; 0]%nat [1; 0; 0]%nat (0, 1)%nat s /\ exact_sigma 1 (exc h) [1; 0; 0]%nat [0; 1; 0]%nat (1, 0)%nat s'.
Proof.
  destruct (co_build_spec 1 (exc h) (-1) ltac:(lia) (C75_ex_solved h)) as (d & E & ND & IFF & B & _).
  assert (K : forall p q p' q', (p + q = 1)%nat -> (p' + q' = 1)%nat -> exists l, In (([p'; q'; 0%nat], [p; q; 0%nat]), l) d).
  { intros p q p' q' S S'. apply IFF. split; [now apply exc_reach|]. split; [now apply exc_reach|]. split.
    - exists (Z.of_nat p' - Z.of_nat p)%Z. split; [lia|]. unfold TransBuildProofs.zz; cbn [fst snd]. apply pair_equal_spec; lia.
    - assert (V : forall a b, (a + b = 1)%nat -> exists s, In ([a; b], s) (exc h) /\ (0 < nvals s)%nat) by (intros a b Q; destruct a as [|[|]], b as [|[|]]; try lia; eexists; (split; [cbn; tauto|cbn; lia])).
      destruct (V p q S) as (sI & X1 & X2), (V p' q' S') as (sF & Y1 & Y2). exists sI, sF. tauto. }
  assert (FW : exists s, In (([0; 1; 0], [1; 0; 0])%nat, [s]) d /\ exact_sigma 1 (exc h) [0; 1; 0]%nat [1; 0; 0]%nat (0, 1)%nat s).
  { destruct (K 1 0 0 1)%nat as (l & Hl); auto. destruct (B _ _ _ Hl) as [_ FA]. change (channels [0; 1; 0]%nat [1; 0; 0]%nat) with [(0, 1)%nat] in FA.
    inversion FA as [|? s ? l0 X FN E1 E2]; subst. inversion FN; subst. eauto. }
  assert (BW : exists s, In (([1; 0; 0], [0; 1; 0])%nat, [s]) d /\ exact_sigma 1 (exc h) [1; 0; 0]%nat [0; 1; 0]%nat (1, 0)%nat s).
  { destruct (K 0 1 1 0)%nat as (l & Hl); auto. destruct (B _ _ _ Hl) as [_ FA]. change (channels [1; 0; 0]%nat [0; 1; 0]%nat) with [(1, 0)%nat] in FA.
    inversion FA as [|? s ? l0 X FN E1 E2]; subst. inversion FN; subst. eauto. }
  destruct FW as (s & F1 & F2), BW as (s' & B1 & B2). exists d, s, s'. split; [exact E|]. split; [exact ND|]. split; [|tauto].
  intros x. split.
  - intros (I & l & H). destruct (B _ _ _ H) as [(p & q & i & p' & q' & f & -> & ->) _].
    destruct (proj1 (IFF p q i p' q' f) (ex_intro _ l H)) as (_ & R' & _ & sI & sF & _ & HF & _ & L). apply exc_reach in R'.
    cbn in HF. destruct HF as [Q|[Q|[Q|[Q|[]]]]]; injection Q as <- <- <-; cbn in L; try lia; assert (f = 0)%nat by lia; subst f; auto.
  - intros [-> | ->]; eauto.
Qed.
Lemma ids_of (ids : list label) : StronglySorted before ids -> (forall x, In x ids <-> x = [0; 1; 0]%nat \/ x = [1; 0; 0]%nat) -> ids = [[0; 1; 0]; [1; 0; 0]]%nat.
Proof.
  intros S IN. assert (T : StronglySorted before [[0; 1; 0]; [1; 0; 0]]%nat) by (constructor; [constructor; [constructor|constructor]|]; constructor; [apply before_lt; lia|constructor]).
  apply sorted_same; auto. intros x. rewrite IN. cbn. intuition.
Qed.
Lemma exc_rates h d s s' : build_transition_elements 1 (-1) (exc h) None = Ok d -> In (([0; 1; 0], [1; 0; 0])%nat, [s]) d -> In (([1; 0; 0], [0; 1; 0])%nat, [s']) d ->
  exact_sigma 1 (exc h) [0; 1; 0]%nat [1; 0; 0]%nat (0, 1)%nat s -> exact_sigma 1 (exc h) [1; 0; 0]%nat [0; 1; 0]%nat (1, 0)%nat s' -> NoDup (map fst d) ->
  forall ei, In ei [(0, 0); (0, 1); (1, 0); (1, 1)]%nat ->
  rate_of (co_call exA 1 [0; 0]) d ei [0; 1; 0]%nat [1; 0; 0]%nat = Gfun 1 h * (/ (h / 2 - 1) - / (h / 2 + 1)) ^ 2 /\
  rate_of (co_call exA 1 [0; 0]) d ei [1; 0; 0]%nat [0; 1; 0]%nat = Gfun 1 (- h) * (/ (- h / 2 - (1 - h)) - / (- h / 2 + (1 - h))) ^ 2.
Proof.
  intros E H1 H2 X1 X2 ND ei Hei. rewrite (rate_of_In _ _ _ _ _ _ ND H1), (rate_of_In _ _ _ _ _ _ ND H2).
  assert (LE : (fst ei < 2)%nat /\ (snd ei < 2)%nat) by (cbn in Hei; destruct Hei as [<-|[<-|[<-|[<-|[]]]]]; cbn; lia). destruct LE as [L1 L2].
  assert (M : forall k, (k < 2)%nat -> lead [0; 0] k = Ok 0) by (intros k L; destruct k as [|[|]]; [reflexivity|reflexivity|lia]).
  unfold co_call, approximate. cbn [foldM]. rewrite !M by auto. cbn [bind].
  destruct (exc_forward h s (1 / 2 * (h + fold_right Rplus 0 [0; 0])) _ _ L1 L2 X1) as [D1 C1]. destruct (exc_backward h s' (1 / 2 * (- h + fold_right Rplus 0 [0; 0])) _ _ L1 L2 X2) as [D2 C2].
  rewrite D1, D2, C1, C2. cbn [bind fold_right].
  replace (1 / 2 * (h + (0 + (0 + 0)))) with (h / 2) by field. replace (1 / 2 * (- h + (0 + (0 + 0)))) with (- h / 2) by field. replace (h - 0 + 0) with h by ring. replace (- h - 0 + 0) with (- h) by ring.
  split; ring.
Qed.

(** With equal chemical potentials the Boltzmann weights are not stationary when
    the final state differs in energy. *)
Theorem C76_refuted : exists n es egs d ids W, (0 < n)%nat /\ co_solved n es egs /\ build_transition_elements n egs es None = Ok d /\
  co_rate_matrix d 1 [0; 0] [[1]; [1]] = Ok (length ids, W) /\ (forall x, In x ids <-> exists I l, In ((x, I), l) d) /\
  ~ exists w, (forall i E, (i < length ids)%nat -> state_energy es (nth i ids []) E -> w i = exp (- 1 * E)) /\ stationary (length ids) W w.
Proof.
  destruct (exc_dict (1 / 2)) as (d & s & s' & E & ND & IN & H1 & H2 & X1 & X2).
  destruct (rates_entries (list sigma) (nat * nat) (co_call exA 1 [0; 0]) [(0, 0); (0, 1); (1, 0); (1, 1)]%nat d ND) as (ids & W & EW & S & ID & OFF & DG).
  exists 1%nat, (exc (1 / 2)), (-1), d, ids, W. split; [lia|]. split; [apply C75_ex_solved|]. split; [exact E|]. split; [exact EW|]. split; [exact ID|].
  assert (Q : ids = [[0; 1; 0]; [1; 0; 0]]%nat) by (apply ids_of; auto; intros x; rewrite ID; apply IN). subst ids.
  pose proof (exc_rates _ _ _ _ E H1 H2 X1 X2 ND) as RT.
  intros (w & Hw & ST). specialize (ST 0%nat ltac:(cbn; lia)). cbn [length] in *. rewrite !rsum_S, rsum_0 in ST by (intros; lia).
  rewrite (DG 0%nat) in ST by lia. rewrite !rsum_S, rsum_0 in ST by (intros; lia). cbn [Nat.eqb] in ST.
  rewrite (OFF 0 1)%nat in ST by lia. rewrite (OFF 1 0)%nat in ST by lia. cbn [nth] in ST.
  assert (W0 : w 0%nat = exp (1 / 2)).
  { rewrite (Hw 0%nat (-1 + 1 / 2)); [f_equal; lra|lia|]. do 4 eexists. split; [reflexivity|]. split; [cbn; tauto|]. split; [cbn; lia|reflexivity]. }

  assert (W1 : w 1%nat = exp 1).
  { rewrite (Hw 1%nat (-1)); [f_equal; lra|lia|]. do 4 eexists. split; [reflexivity|]. split; [cbn; tauto|]. split; [cbn; lia|reflexivity]. }
  rewrite W0, W1 in ST.
  assert (FS : lsum (fun lead => rate_of (co_call exA 1 [0; 0]) d lead [0; 1; 0]%nat [1; 0; 0]%nat) [(0, 0); (0, 1); (1, 0); (1, 1)]%nat = 4 * (Gfun 1 (1 / 2) * (32 / 15) ^ 2)).
  { unfold lsum. cbn [bsum]. rewrite !(fun ei H => proj1 (RT ei H)) by (cbn; tauto).
    replace (/ (1 / 2 / 2 - 1) - / (1 / 2 / 2 + 1)) with (- (32 / 15)) by field. cbn. ring. }
  assert (BS : lsum (fun lead => rate_of (co_call exA 1 [0; 0]) d lead [1; 0; 0]%nat [0; 1; 0]%nat) [(0, 0); (0, 1); (1, 0); (1, 1)]%nat = 4 * (Gfun 1 (- (1 / 2)) * (16 / 3) ^ 2)).
  { unfold lsum. cbn [bsum]. rewrite !(fun ei H => proj2 (RT ei H)) by (cbn; tauto).
    replace (/ (- (1 / 2) / 2 - (1 - 1 / 2)) - / (- (1 / 2) / 2 + (1 - 1 / 2))) with (- (16 / 3)) by field. cbn. ring. }
  rewrite FS, BS in ST. clear - ST.
  assert (RG : regular 1 (1 / 2)).
  { right. rewrite Rabs_pos_eq by lra. split; lra. }
  pose proof (Gfun_balance 1 (1 / 2) ltac:(lra) RG) as GB.
  assert (GP : 0 < Gfun 1 (1 / 2)).
  { unfold Gfun. destruct (Rltb _ _); [lra|]. destruct (Rltb (10 ^ 3) _) eqn:Q; [apply Rltb_spec in Q; lra|].
    pose proof (exp_ineq1 (1 * (1 / 2)) ltac:(lra)). apply Rdiv_lt_0_compat; lra. }
  rewrite GB in ST.
  assert (EX : exp (- (1) * (1 / 2)) * exp 1 = exp (1 / 2)) by (rewrite <- exp_plus; f_equal; lra).
  assert (GQ : 0 < Gfun 1 (- (1 / 2))).
  { rewrite GB in GP. pose proof (exp_pos (- (1) * (1 / 2))) as P. apply Rmult_lt_reg_l with (1 := P). now rewrite Rmult_0_r. }
  assert (Z : Gfun 1 (- (1 / 2)) * exp (1 / 2) * ((32 / 15) ^ 2 - (16 / 3) ^ 2) = 0) by (rewrite <- EX in *; lra).
  pose proof (exp_pos (1 / 2)) as P. apply Rmult_integral in Z. destruct Z as [Z|Z]; [|lra]. apply Rmult_integral in Z. destruct Z; lra.
Qed.
Print Assumptions C76_refuted.

(** Without the splitting both rates are 16. *)
Example C76_example : exists d ids W, build_transition_elements 1 (-1) (exc 0) None = Ok d /\ co_rate_matrix d 1 [0; 0] [[1]; [1]] = Ok (length ids, W) /\
  ids = [[0; 1; 0]; [1; 0; 0]]%nat /\ W 0%nat 1%nat = 16 /\ W 1%nat 0%nat = 16 /\ W 0%nat 0%nat = -16.
Proof.
  destruct (exc_dict 0) as (d & s & s' & E & ND & IN & H1 & H2 & X1 & X2).
  destruct (rates_entries (list sigma) (nat * nat) (co_call exA 1 [0; 0]) [(0, 0); (0, 1); (1, 0); (1, 1)]%nat d ND) as (ids & W & EW & S & ID & OFF & DG).
  exists d, ids, W. split; [exact E|]. split; [exact EW|].
  assert (Q : ids = [[0; 1; 0]; [1; 0; 0]]%nat) by (apply ids_of; auto; intros x; rewrite ID; apply IN). subst ids. split; [reflexivity|].
  pose proof (exc_rates _ _ _ _ E H1 H2 X1 X2 ND) as RT. cbn [length] in *.
  assert (G0 : Gfun 1 0 = 1). { unfold Gfun. rewrite Rabs_R0. destruct (Rltb _ _) eqn:Q; auto. exfalso. assert (~ 1 * 0 < 1 / 10 ^ 18) by (rewrite <- Rltb_spec; congruence). lra. }
  assert (Q1 : W 0%nat 1%nat = 16).
  { rewrite OFF by lia. cbn [nth]. unfold lsum. cbn [bsum]. rewrite !(fun ei H => proj1 (RT ei H)) by (cbn; tauto). rewrite G0. replace (/ (0 / 2 - 1) - / (0 / 2 + 1)) with (-2) by field. cbn. ring. }
  assert (Q2 : W 1%nat 0%nat = 16).
  { rewrite OFF by lia. cbn [nth]. unfold lsum. cbn [bsum]. rewrite !(fun ei H => proj2 (RT ei H)) by (cbn; tauto). rewrite Ropp_0, G0.
    replace (/ (0 / 2 - (1 - 0)) - / (0 / 2 + (1 - 0))) with (-2) by field. cbn. ring. }
  split; [exact Q1|]. split; [exact Q2|]. rewrite DG by lia. rewrite !rsum_S, rsum_0 by (intros; lia). cbn [Nat.eqb]. rewrite Q2. ring.
Qed.
