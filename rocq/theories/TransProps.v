(** C73-C74: transition elements and equilibrium of sequential tunnelling. *)
From Coq Require Import Reals List Arith NArith ZArith Bool Lia Lra Psatz Sorted.
From Verif Require Import Base RBase RLin CBase OperatorsSpec FockSpec SectorModel LocalModel MatvecModel EspaceModel ProjModel ProjSpec
  GfModel GfSpec RateModel RateSpec RateProofs RateDictProofs RateStatProofs TransModel TransSpec TransProofs TransBuildProofs TransFinalProofs.
Import ListNotations.
Local Open Scope R_scope.

(** * C73: transition elements *)
Theorem C73_elements : forall n es egs, solved n es egs -> exists d, build_transition_elements n egs es None = Ok d /\ NoDup (map fst d) /\
  (forall k g, In (k, g) d -> k = (g_F g, g_I g) /\ exact_element n es g) /\
  (forall p q i p' q' j, (exists g, In (([p'; q'; j], [p; q; i]), g) d) <->
     reachable n es egs p q /\ reachable n es egs p' q' /\ apart p q p' q' /\
     exists I J, In ([p; q], I) es /\ In ([p'; q'], J) es /\ (i < nvals I)%nat /\ (j < nvals J)%nat) /\
  (forall F I g, In ((F, I), g) d -> exists g', In ((I, F), g') d /\ conj_el g g').
Proof. exact build_spec. Qed.
Print Assumptions C73_elements.

Theorem C73_screened : forall n es egs, solved n es egs -> forall c, exists d d',
  build_transition_elements n egs es None = Ok d /\ build_transition_elements n egs es (Some c) = Ok d' /\
  forall k g, In (k, g) d' <-> In (k, g) d /\ Rabs (g_E g) < c /\ near es egs c (g_F g) /\ near es egs c (g_I g).
Proof. exact build_screen. Qed.
Print Assumptions C73_screened.

Theorem C73_paired : forall n es egs, solved n es egs -> forall cutoff d, build_transition_elements n egs es cutoff = Ok d -> paired n es d.
Proof. exact build_paired. Qed.
Print Assumptions C73_paired.

(** One orbital: empty, two singly occupied states, doubly occupied. *)
Definition ex_s (u w : N) (e : R) : sct RRing := mksct RRing (StSz [u] [w]) [e] (Cols RRing [[1]]).
Definition ex_es : espace RRing := [([0; 0]%nat, ex_s 0 0 0); ([1; 0]%nat, ex_s 1 0 (-1)); ([0; 1]%nat, ex_s 0 1 (-1)); ([1; 1]%nat, ex_s 1 1 1)].
Lemma ex_ground p q : is_ground ex_es (-1) p q <-> (p = 1 /\ q = 0)%nat \/ (p = 0 /\ q = 1)%nat.
Proof.
  split.
  - intros (s & m & H & I & _ & L). cbn in H. destruct H as [H|[H|[H|[H|[]]]]]; injection H as <- <- <-; destruct I as [<-|[]]; auto; exfalso; unfold Rabs in L; destruct (Rcase_abs _); lra.
  - intros [[-> ->]|[-> ->]]; (eexists; exists (-1); split; [cbn; tauto|]; split; [now left|]; split; [intros x [<-|[]]; apply Rle_refl|]; replace (-1 - -1) with 0 by ring; rewrite Rabs_R0; lra).
Qed.
Lemma ex_sectors key s : In (key, s) ex_es -> (0 < nvals s)%nat /\ exists p q, key = [p; q] /\ is_sector RRing 1 p q s.
Proof.
  cbn. intros [H|[H|[H|[H|[]]]]]; injection H as <- <-; (split; [cbn; lia|]); do 2 eexists; (split; [reflexivity|]); repeat split; try lia; try reflexivity;
    (exists [[1]]; split; [reflexivity|]; split; [reflexivity|]; intros x [<-|[]]; reflexivity).
Qed.
Example C73_ex_solved : solved 1 ex_es (-1).
Proof.
  split; [cbn; repeat constructor; cbn; intuition discriminate|]. split; [exact ex_sectors|].
  intros p q [G|(p' & q' & G & A & Hp & Hq)].
  - apply ex_ground in G. destruct G as [[-> ->]|[-> ->]]; eexists; cbn; tauto.
  - destruct p as [|[|]], q as [|[|]]; try lia; eexists; cbn; tauto.
Qed.
(** The electron that doubly occupies the orbital is stored with amplitude 1 and
    energy 2, and so is the hole that leaves again. *)
Example C73_example : exists d g g', build_transition_elements 1 (-1) ex_es None = Ok d /\
  In (([1; 1; 0], [0; 1; 0])%nat, g) d /\ In (([0; 1; 0], [1; 1; 0])%nat, g') d /\
  g_kind g = Electron /\ g_kind g' = Hole /\ g_E g = 2 /\ g_E g' = 2 /\ length (g_v g) = 1%nat /\ nth 0 (g_v g) 0 = 1 /\ g_v g' = g_v g.
Proof.
  destruct (build_spec 1 ex_es (-1) C73_ex_solved) as (d & E & _ & B & IFF & P). exists d.
  assert (RR : forall p q, (p <= 1)%nat -> (q <= 1)%nat -> reachable 1 ex_es (-1) p q).
  { intros p q Hp Hq. destruct (Nat.eq_dec (p + q) 1) as [S|S].
    - left. apply ex_ground. lia.
    - right. exists 1%nat, 0%nat. split; [apply ex_ground; auto|]. repeat split; auto. apply apart_one. unfold one_electron, zz. cbn [fst snd]. lia. }
  destruct (proj2 (IFF 0 1 0 1 1 0)%nat) as (g & Hg).
  { split; [apply RR; lia|]. split; [apply RR; lia|]. split; [apply apart_one; reflexivity|]. do 2 eexists. split; [cbn; tauto|]. split; [cbn; tauto|]. cbn. lia. }
  destruct (P _ _ _ Hg) as (g' & Hg' & K1 & K2 & K3 & K4 & K5). exists g, g'. destruct (B _ _ Hg) as [EK X]. injection EK as EF EI.
  destruct X as (p & q & i & p' & q' & j & I & J & op & A1 & A2 & A3 & A4 & A5 & A6 & A7 & A8). rewrite A1 in EI. rewrite A2 in EF. injection EI as <- <- <-. injection EF as <- <- <-.
  cbn in A3, A4. destruct A3 as [A3|[A3|[A3|[A3|[]]]]]; try discriminate. destruct A4 as [A4|[A4|[A4|[A4|[]]]]]; try discriminate. injection A3 as <-. injection A4 as <-.
  destruct A7 as [(N & _ & V)|(Q & _)]; [|discriminate]. destruct op; cbn in N; [discriminate|]. destruct A8 as [KK EE]. rewrite K5, K4, K3, KK, EE, V.
  repeat split; auto; cbn; lra.
Qed.

(** * C74: equilibrium *)
Theorem C74_equilibrium : forall n es egs, solved n es egs -> forall cutoff d, build_transition_elements n egs es cutoff = Ok d ->
  forall beta m E, (forall id x, state_energy es id x -> E id = x) -> forall A, exists ids W,
  sq_rate_matrix d beta [m; m] A = Ok (length ids, W) /\ StronglySorted before ids /\
  (forall x, In x ids <-> exists I v, In ((x, I), v) d) /\
  (forall f i, (f < length ids)%nat -> (i < length ids)%nat -> W f i * gibbs beta m E (nth i ids []) = W i f * gibbs beta m E (nth f ids [])) /\
  stationary (length ids) W (fun i => gibbs beta m E (nth i ids [])) /\
  forall a, exists T, sq_transition_matrix d beta m a = Ok (length ids, T) /\
    (forall f i, (f < length ids)%nat -> (i < length ids)%nat -> T f i * gibbs beta m E (nth i ids []) = - (T i f * gibbs beta m E (nth f ids []))) /\
    rsum (length ids) (fun f => rsum (length ids) (fun i => T f i * gibbs beta m E (nth i ids []))) = 0.
Proof. exact equilibrium. Qed.
Print Assumptions C74_equilibrium.

(** If nothing else is stationary, the solver returns the grand canonical
    probabilities and the current through either lead vanishes. *)
Theorem C74_solution : forall n es egs, solved n es egs -> forall cutoff d, build_transition_elements n egs es cutoff = Ok d ->
  forall beta m E, (forall id x, state_energy es id x -> E id = x) -> forall A ids W w v,
  sq_rate_matrix d beta [m; m] A = Ok (length ids, W) -> StronglySorted before ids -> (forall x, In x ids <-> exists I v, In ((x, I), v) d) ->
  (0 < length ids)%nat -> eig_ok (length ids) W w v -> unique_stationary (length ids) W ->
  exists p, stationary_solution (w, v) = Ok p /\ length p = length ids /\
  (forall i, (i < length ids)%nat -> nth i p 0 = gibbs beta m E (nth i ids []) / rsum (length ids) (fun k => gibbs beta m E (nth k ids []))) /\
  forall a T, sq_transition_matrix d beta m a = Ok (length ids, T) ->
    rsum (length ids) (fun f => rsum (length ids) (fun i => T f i * nth i p 0)) = 0.
Proof. exact equilibrium_solution. Qed.
Print Assumptions C74_solution.

(** An empty orbital whose up electron costs 1 and whose down electron costs 10;
    the cutoff 5 keeps two states. *)
Definition ex2 : espace RRing := [([0; 0]%nat, ex_s 0 0 0); ([1; 0]%nat, ex_s 1 0 1); ([0; 1]%nat, ex_s 0 1 10)].
Lemma ex2_ground p q : is_ground ex2 0 p q <-> (p = 0 /\ q = 0)%nat.
Proof.
  split.
  - intros (s & m & H & I & _ & L). cbn in H. destruct H as [H|[H|[H|[]]]]; injection H as <- <- <-; destruct I as [<-|[]]; auto; exfalso; unfold Rabs in L; destruct (Rcase_abs _); lra.
  - intros [-> ->]. eexists. exists 0. split; [cbn; tauto|]. split; [now left|]. split; [intros x [<-|[]]; apply Rle_refl|]. replace (0 - 0) with 0 by ring. rewrite Rabs_R0. lra.
Qed.
Example C74_ex_solved : solved 1 ex2 0.
Proof.
  split; [cbn; repeat constructor; cbn; intuition discriminate|]. split.
  - cbn. intros key s [H|[H|[H|[]]]]; injection H as <- <-; (split; [cbn; lia|]); do 2 eexists; (split; [reflexivity|]); repeat split; try lia; try reflexivity;
      (exists [[1]]; split; [reflexivity|]; split; [reflexivity|]; intros x [<-|[]]; reflexivity).
  - intros p q [G|(p' & q' & G & A & Hp & Hq)].
    + apply ex2_ground in G. destruct G as [-> ->]; eexists; cbn; tauto.
    + apply ex2_ground in G. destruct G as [-> ->]. apply apart_one in A. unfold one_electron, zz in A. cbn [fst snd] in A.
      destruct p as [|[|]], q as [|[|]]; try lia; eexists; cbn; tauto.
Qed.
Definition ex2_E (id : label) : R := match id with [O; O; _] => 0 | [S O; O; _] => 1 | _ => 10 end.
Lemma ex2_energy id x : state_energy ex2 id x -> ex2_E id = x.
Proof.
  intros (p & q & k & s & -> & H & L & ->). cbn in H. destruct H as [H|[H|[H|[]]]]; injection H as <- <- <-; (destruct k; [reflexivity|cbn in L; lia]).
Qed.
Lemma ex2_near id : near ex2 0 5 id <-> id = [0; 0; 0]%nat \/ id = [1; 0; 0]%nat.
Proof.
  split.
  - intros (E & (p & q & k & s & -> & H & L & ->) & N). cbn in H. destruct H as [H|[H|[H|[]]]]; injection H as <- <- <-; (destruct k; [|cbn in L; lia]); auto.
    exfalso. cbn in N. unfold Rabs in N. destruct (Rcase_abs _); lra.
  - intros [-> | ->]; [exists 0|exists 1]; (split; [do 4 eexists; split; [reflexivity|]; split; [cbn; tauto|]; split; [cbn; lia|reflexivity]|]);
      unfold Rabs; destruct (Rcase_abs _); lra.
Qed.
Lemma ex2_element g : exact_element 1 ex2 g -> near ex2 0 5 (g_F g) -> near ex2 0 5 (g_I g) ->
  ((g_F g = [1; 0; 0]%nat /\ g_I g = [0; 0; 0]%nat) \/ (g_F g = [0; 0; 0]%nat /\ g_I g = [1; 0; 0]%nat)) /\ g_E g = 1 /\ dotv (g_v g) [1] = Ok 1.
Proof.
  intros (p & q & i & p' & q' & j & I & J & op & A1 & A2 & A3 & A4 & A5 & A6 & A7 & A8) NF NI. apply ex2_near in NF. apply ex2_near in NI. rewrite A2 in NF. rewrite A1 in NI. rewrite A1, A2.
  destruct NF as [Q|Q], NI as [Q'|Q']; injection Q as -> -> ->; injection Q' as -> -> ->.
  1, 4: exfalso; destruct A7 as [(N & _)|(_ & N & _)]; destruct op; cbn in N; lia.
  all: cbn in A3, A4; destruct A3 as [A3|[A3|[A3|[]]]]; try discriminate; destruct A4 as [A4|[A4|[A4|[]]]]; try discriminate; injection A3 as <-; injection A4 as <-;
    destruct A7 as [(N & _ & V)|(Q & _)]; [|discriminate]; destruct op; cbn in N; try discriminate; destruct A8 as [_ ->]; rewrite V;
    (split; [auto|]; split; [cbn; lra|]); unfold dotv; cbn [length Nat.eqb]; cbv [amps_up]; cbn; f_equal; lra.
Qed.
(** All hypotheses of [C74_solution] are met. *)
Example C74_example : exists d ids W w v, build_transition_elements 1 0 ex2 (Some 5) = Ok d /\ sq_rate_matrix d 1 [0; 0] [[1]; [1]] = Ok (length ids, W) /\
  ids = [[0; 0; 0]; [1; 0; 0]]%nat /\ StronglySorted before ids /\ (forall x, In x ids <-> exists I v, In ((x, I), v) d) /\
  eig_ok (length ids) W w v /\ unique_stationary (length ids) W /\
  exists p, stationary_solution (w, v) = Ok p /\ nth 1 p 0 / nth 0 p 0 = exp (-1).
Proof.
  destruct (build_spec 1 ex2 0 C74_ex_solved) as (d0 & E0 & _ & B0 & IFF & _). destruct (build_screen 1 ex2 0 C74_ex_solved 5) as (d1 & d & E1 & E & SC).
  rewrite E0 in E1. injection E1 as <-. pose proof (build_paired 1 ex2 0 C74_ex_solved (Some 5) d E) as (ND & B & P).
  assert (HIN : exists g, In (([1; 0; 0], [0; 0; 0])%nat, g) d).
  { destruct (proj2 (IFF 0 0 0 1 0 0)%nat) as (g & Hg).
    - split; [left; apply ex2_ground; auto|]. split; [right; exists 0%nat, 0%nat; split; [apply ex2_ground; auto|]; repeat split; try lia; apply apart_one; reflexivity|].
      split; [apply apart_one; reflexivity|]. do 2 eexists. split; [cbn; tauto|]. split; [cbn; tauto|]. cbn. lia.
    - exists g. destruct (B0 _ _ Hg) as [Q X]. injection Q as EF EI.
      assert (NF : near ex2 0 5 (g_F g)) by (rewrite <- EF; apply ex2_near; auto). assert (NI : near ex2 0 5 (g_I g)) by (rewrite <- EI; apply ex2_near; auto).
      apply SC. split; [exact Hg|]. split; [|auto]. destruct (ex2_element g X NF NI) as (_ & -> & _). rewrite Rabs_R1. lra. }
  destruct HIN as (g & Hg). destruct (P _ _ _ Hg) as (g' & Hg' & _).
  destruct (rates_entries gfel nat (sq_call [[1]; [1]] [0; 0] 1) [0; 1]%nat d ND) as (ids & W & EW & S & IN & OD & DG).
  assert (EI : ids = [[0; 0; 0]; [1; 0; 0]]%nat).
  { apply sorted_same; auto; [repeat constructor|]. intros x. rewrite IN. split.
    - intros (I & v & H). apply SC in H. destruct H as (H & _ & N & _). destruct (B0 _ _ H) as [Q _]. injection Q as -> _. apply ex2_near in N. cbn. intuition.
    - intros [<-|[<-|[]]]; eauto. }
  assert (POS : forall F I h lead, In ((F, I), h) d -> (lead < 2)%nat -> 0 < rate_of (sq_call [[1]; [1]] [0; 0] 1) d lead F I).
  { intros F I h lead Hh Hl. rewrite (rate_of_In _ _ _ _ _ _ ND Hh). apply SC in Hh. destruct Hh as (Hh & _ & NF & NI). destruct (B0 _ _ Hh) as [_ X].
    destruct (ex2_element h X NF NI) as (_ & EE & DV). unfold sq_call, gf_rate.
    destruct lead as [|[|]]; [| |lia]; cbn [nth_error bind]; rewrite DV; cbn [bind]; apply Rmult_lt_0_compat; try lra; destruct (g_kind h); apply nF_bounds. }
  assert (W10 : 0 < W 1%nat 0%nat).
  { rewrite OD by (rewrite ?EI; cbn; lia). rewrite EI. unfold lsum. cbn [bsum nth]. pose proof (POS _ _ _ 0%nat Hg ltac:(lia)). pose proof (POS _ _ _ 1%nat Hg ltac:(lia)). cbn [cadd c0 RRing]. lra. }
  assert (W01 : 0 < W 0%nat 1%nat).
  { rewrite OD by (rewrite ?EI; cbn; lia). rewrite EI. unfold lsum. cbn [bsum nth]. pose proof (POS _ _ _ 0%nat Hg' ltac:(lia)). pose proof (POS _ _ _ 1%nat Hg' ltac:(lia)). cbn [cadd c0 RRing]. lra. }
  assert (L2 : length ids = 2%nat) by (rewrite EI; reflexivity).
  assert (W00 : W 0%nat 0%nat = - W 1%nat 0%nat) by (rewrite DG by lia; rewrite L2; cbn; lra).
  assert (W11 : W 1%nat 1%nat = - W 0%nat 1%nat) by (rewrite DG by lia; rewrite L2; cbn; lra).
  pose (w := [rcx 0; rcx (- (W 1%nat 0%nat + W 0%nat 1%nat))]). pose (v := [[rcx (W 0%nat 1%nat); rcx (W 1%nat 0%nat)]; [rcx 1; rcx (-1)]]).
  exists d, ids, W, w, v. split; [exact E|]. split; [exact EW|]. split; [exact EI|]. split; [exact S|]. split; [exact IN|].
  assert (EIG : eig_ok (length ids) W w v).
  { rewrite L2. split; [reflexivity|]. split.
    - intros j Hj. change (j < 2)%nat in Hj. destruct j as [|[|]]; [| |lia].
      + split; [reflexivity|]. split; [exists 0%nat; split; [lia|]; cbn; intros Q; injection Q; lra|]. split; [|intros _ i Hi; destruct i as [|[|]]; [reflexivity|reflexivity|lia]].
        intros f Hf. destruct f as [|[|]]; [| |lia]; apply cx_eq; cbn; rewrite ?W00, ?W11; ring.
      + split; [reflexivity|]. split; [exists 0%nat; split; [lia|]; cbn; intros Q; injection Q; lra|]. split; [|intros _ i Hi; destruct i as [|[|]]; [reflexivity|reflexivity|lia]].
        intros f Hf. destruct f as [|[|]]; [| |lia]; apply cx_eq; cbn; rewrite ?W00, ?W11; ring.
    - intros x lam (i & Hi & NZ) EQ. pose proof (EQ 0%nat ltac:(lia)) as Q0. pose proof (EQ 1%nat ltac:(lia)) as Q1. cbn in Q0, Q1. rewrite W00 in Q0. rewrite W11 in Q1.
      assert (A : lam * (x 0%nat + x 1%nat) = 0) by lra. apply Rmult_integral in A. destruct A as [-> |A]; [now left|right; left].
      assert (X : x 1%nat = - x 0%nat) by lra. rewrite X in Q0.
      assert (QQ : x 0%nat * (lam + (W 1%nat 0%nat + W 0%nat 1%nat)) = 0) by lra. apply Rmult_integral in QQ. destruct QQ as [QQ|QQ]; [|f_equal; lra].
      exfalso. apply NZ. destruct i as [|[|]]; [lra|lra|lia]. }
  split; [exact EIG|].
  assert (U : unique_stationary (length ids) W).
  { rewrite L2. intros x y X Y. pose proof (X 0%nat ltac:(lia)) as X0. pose proof (Y 0%nat ltac:(lia)) as Y0. cbn in X0, Y0. rewrite W00 in X0, Y0.
    destruct (Req_EM_T (y 0%nat) 0) as [Z|NZ].
    - exists 0, 1. split; [lra|]. intros i Hi. assert (y 1%nat = 0) by (rewrite Z in Y0; nra). destruct i as [|[|]]; [lra|lra|lia].
    - exists (y 0%nat), (- x 0%nat). split; [intros [? ?]; lra|]. intros i Hi. destruct i as [|[|]]; [ring| |lia].
      assert (R0 : W 0%nat 1%nat * (y 0%nat * x 1%nat + - x 0%nat * y 1%nat) = 0).
      { transitivity (y 0%nat * (W 0%nat 1%nat * x 1%nat) - x 0%nat * (W 0%nat 1%nat * y 1%nat)); [ring|].
        replace (W 0%nat 1%nat * x 1%nat) with (W 1%nat 0%nat * x 0%nat) by lra. replace (W 0%nat 1%nat * y 1%nat) with (W 1%nat 0%nat * y 0%nat) by lra. ring. }
      apply Rmult_integral in R0. destruct R0; [lra|auto]. }
  split; [exact U|].
  destruct (equilibrium_solution 1 ex2 0 C74_ex_solved (Some 5) d E 1 0 ex2_E ex2_energy [[1]; [1]] ids W w v EW S IN ltac:(lia) EIG U) as (p & EP & _ & HP & _).
  exists p. split; [exact EP|]. rewrite !HP by lia. rewrite L2, EI. unfold gibbs. cbn [nth ex2_E electrons].
  replace (-(1) * (0 - 0 * INR (0 + 0))) with 0 by ring. replace (-(1) * (1 - 0 * INR (1 + 0))) with (-1) by ring. rewrite exp_0.
  match goal with |- context[rsum 2 ?f] => assert (ZP : 0 < rsum 2 f) by (apply Rlt_le_trans with (f 0%nat); [apply exp_pos|apply (rsum_term_le 2 f 0); [intros; left; apply exp_pos|lia]]); set (Z := rsum 2 f) in * end.
  field. lra.
Qed.
