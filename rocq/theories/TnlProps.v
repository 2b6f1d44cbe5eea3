(** C96-C98: sequential tunnelling between sectors labelled by the number of electrons,
    its equilibrium, and the currents of a stationary state. *)
From Coq Require Import Reals List Arith NArith ZArith Bool Lia Lra Psatz Sorted.
From Verif Require Import Base RBase RLin OperatorsSpec FockSpec SectorModel LocalModel MatvecModel EspaceModel ProjModel ProjSpec
  GfModel GfSpec RateModel RateSpec RateProofs TransModel TransSpec TransProofs TransFinalProofs TransCurrentProofs TnlModel TnlSpec TnlProofs ThermoProofs TnlMatProofs TransProps.
Import ListNotations.
Local Open Scope R_scope.

(** * C96: elements *)
Theorem C96_elements : forall n es No N egs, nsolved n es -> chosen es No N -> (No = None -> egs <> None) -> links_stored n es N ->
  exists d, sq_elements n es No egs = Ok d /\ StronglySorted kbefore (map fst d) /\ NoDup (map fst d) /\
  (forall F I, (exists l, In ((F, I), l) d) <-> considered n es N F I) /\
  (forall F I l, In ((F, I), l) d -> exists g0 g1, l = [g0; g1] /\ exact_nel n es 0 g0 /\ exact_nel n es 1 g1 /\ g_F g0 = F /\ g_I g0 = I /\ g_F g1 = F /\ g_I g1 = I) /\
  (forall F I l, In ((F, I), l) d -> exists l', In ((I, F), l') d /\ Forall2 conj_el l l').
Proof. exact sq_elements_full. Qed.
Print Assumptions C96_elements.

Theorem C96_ground : forall n es egs, nsolved n es -> es <> [] -> exists N E, choose es None (Some egs) = Ok (N, Some E) /\ lowest es N E /\
  forall N' E', lowest es N' E' -> N' = N /\ E' = E.
Proof.
  intros n es egs HS NE. destruct (choose_ok n es HS egs NE) as (N & E & Q & L). exists N, E. split; [exact Q|]. split; [exact L|]. intros N' E' L'. now apply (lowest_unique es).
Qed.
Print Assumptions C96_ground.

(** Sectors with one stored eigenvector, the basis state at position [a]. *)
Definition unit_vec (d a : nat) : list R := map (fun k => if (k =? a)%nat then 1 else 0) (seq 0 d).
Definition xs (l : list N) (a : nat) (e : R) : sct RRing := mksct RRing (StN l) [e] (Cols RRing [unit_vec (length l) a]).
Lemma xs_sector n N l a e : (N <= 2 * n)%nat -> (2 * n <= 32)%nat -> generate_states (2 * n) N = Ok l -> nsector n N (xs l a e).
Proof.
  intros A B C. repeat split; auto. exists [unit_vec (length l) a]. repeat split. intros x [<-|[]]. unfold unit_vec. now rewrite map_length, seq_length.
Qed.
Lemma xs_amp n op orb l a e l' a' e' : (a < length l)%nat -> (a' < length l')%nat ->
  namp n op orb (xs l a e) (xs l' a' e') 0 0 = z2k (K := RRing) (elem (2 * n) [lad op orb] (nth a l 0%N) (nth a' l' 0%N)).
Proof.
  intros Ha Ha'. 
  change (rsum (length l) (fun i => rsum (length l') (fun j => nth i (unit_vec (length l) a) 0 * z2k (K := RRing) (elem (2 * n) [lad op orb] (nth i l 0%N) (nth j l' 0%N)) * nth j (unit_vec (length l') a') 0))
    = z2k (K := RRing) (elem (2 * n) [lad op orb] (nth a l 0%N) (nth a' l' 0%N))).
  assert (U : forall d b k, (k < d)%nat -> nth k (unit_vec d b) 0 = if (k =? b)%nat then 1 else 0).
  { intros d b k Hk. unfold unit_vec. rewrite (nth_indep _ 0 (if (0 =? b)%nat then 1 else 0)) by (rewrite map_length, seq_length; exact Hk). rewrite map_nth with (f := fun k => if (k =? b)%nat then 1 else 0). now rewrite seq_nth. }
  rewrite (rsum_single _ _ a Ha).
  - rewrite (rsum_single _ _ a' Ha').
    + rewrite !U, !Nat.eqb_refl by auto. ring.
    + intros j Hj NE. rewrite (U (length l') a' j Hj). destruct (Nat.eqb_spec j a'); [congruence|]. ring.
  - intros j Hj NE. apply rsum_0. intros i _. rewrite (U (length l) a j Hj). destruct (Nat.eqb_spec j a); [congruence|]. ring.
Qed.
(** Two sites: one electron (states 0001 0010 0100 1000) with energy 0 and two
    electrons with energy [e]; the first has orbital 1 filled, the second 0 and 1. *)
Definition st1 : list N := [1; 2; 4; 8]%N.
Definition st2 : list N := [3; 5; 6; 9; 10; 12]%N.
Definition two_es (e : R) : espace RRing := [([1]%nat, xs st1 1 0); ([2]%nat, xs st2 0 e)].
Lemma two_solved e : nsolved 2 (two_es e).
Proof.
  split; [cbn; repeat constructor; cbn; intuition discriminate|]. intros key s [H|[H|[]]]; injection H as <- <-; eexists; (split; [reflexivity|]); (apply xs_sector; [lia|lia|reflexivity]).
Qed.
Lemma two_linked N lo : linked 2 N lo -> (N = 1 -> lo = 1)%nat.
Proof. intros [[-> _]|[A B]] ->; [reflexivity|lia]. Qed.
Lemma two_links e : links_stored 2 (two_es e) 1.
Proof. intros lo L. rewrite (two_linked 1 lo L eq_refl). split; eexists; cbn; eauto. Qed.
Lemma two_state e N k : is_state (two_es e) N k -> (N = 1 \/ N = 2)%nat /\ k = 0%nat.
Proof. intros (s & [H|[H|[]]] & L); injection H as <- <-; cbn in L; split; auto; lia. Qed.
Lemma two_considered e F I : considered 2 (two_es e) 1 F I <-> (F = [2; 0]%nat /\ I = [1; 0]%nat) \/ (F = [1; 0]%nat /\ I = [2; 0]%nat).
Proof.
  split.
  - intros (lo & a & b & L & A & B & C). rewrite (two_linked 1 lo L eq_refl) in *. destruct (two_state _ _ _ A) as [_ ->]. destruct (two_state _ _ _ B) as [_ ->]. exact C.
  - intros C. exists 1%nat, 0%nat, 0%nat. split; [left; split; [reflexivity|lia]|]. split; [exists (xs st2 0 e); split; [cbn; auto|cbn; lia]|]. split; [exists (xs st1 1 0); split; [cbn; auto|cbn; lia]|exact C].
Qed.
Lemma two_lowest e : 0 <= e -> lowest (two_es e) 1 0.
Proof.
  intros H. exists [], (xs st1 1 0), [([2]%nat, xs st2 0 e)]. split; [reflexivity|]. split; [now left|]. split; [|intros ? ? ? []].
  intros k t x [Q|[Q|[]]] Ix; injection Q as <- <-; destruct Ix as [<-|[]]; lra.
Qed.
(** The electron that fills orbital 0 (site 0, spin up) has amplitude -1; that of spin
    down vanishes. *)
Lemma two_elements e No egs d : chosen (two_es e) No 1 -> (No = None -> egs <> None) -> sq_elements 2 (two_es e) No egs = Ok d ->
  exists g0 g1 h0 h1, In (([2; 0], [1; 0])%nat, [g0; g1]) d /\ In (([1; 0], [2; 0])%nat, [h0; h1]) d /\ g_kind g0 = Electron /\ g_kind h0 = Hole /\ g_kind g1 = Electron /\ g_kind h1 = Hole /\
    g_E g0 = e /\ g_E g1 = e /\ g_E h0 = e /\ g_E h1 = e /\ g_v g0 = [-1; 0] /\ g_v g1 = [0; 0] /\ g_v h0 = [-1; 0] /\ g_v h1 = [0; 0].
Proof.
  intros HC HG HD. destruct (sq_elements_full 2 (two_es e) No 1 egs (two_solved e) HC HG (two_links e)) as (d' & HD' & _ & _ & KEY & ELS & REV). rewrite HD in HD'. injection HD' as <-.
  destruct (proj2 (KEY [2; 0]%nat [1; 0]%nat)) as (l & H); [apply two_considered; auto|]. destruct (ELS _ _ _ H) as (g0 & g1 & -> & X0 & X1 & F0 & I0 & F1 & I1).
  destruct (REV _ _ _ H) as (l' & H' & R). destruct (ELS _ _ _ H') as (h0 & h1 & -> & _). inversion_clear R as [|? ? ? ? C0 R1]. inversion_clear R1 as [|? ? ? ? C1 _].
  assert (V : forall s g, exact_nel 2 (two_es e) s g -> g_F g = [2; 0]%nat -> g_I g = [1; 0]%nat -> g_kind g = Electron /\ g_E g = e /\ g_v g = namps 2 s OpCdg (xs st2 0 e) (xs st1 1 0) 0 0).
  { intros s g (NI & i & NJ & j & I & J & op & A1 & A2 & A3 & A4 & A5 & A6 & A7 & A8 & A9) Q1 Q2. rewrite A1 in Q2. rewrite A2 in Q1. injection Q1 as -> ->. injection Q2 as -> ->.
    destruct A3 as [A3|[A3|[]]]; [injection A3 as <-|discriminate A3]. destruct A4 as [A4|[A4|[]]]; [discriminate A4|injection A4 as <-].
    destruct op; cbn in A7; [lia|]. destruct A9 as [K E]. split; [exact K|]. split; [rewrite E; unfold energy; cbn; ring|exact A8]. }
  destruct (V 0%nat g0 X0 F0 I0) as (K0 & E0 & V0). destruct (V 1%nat g1 X1 F1 I1) as (K1 & E1 & V1).
  assert (W0 : g_v g0 = [-1; 0]).
  { rewrite V0. unfold namps. cbn [seq map]. rewrite !xs_amp by (cbn; lia).
    replace (elem (2 * 2) [lad OpCdg (0 + 0 * 2)] (nth 0 st2 0%N) (nth 1 st1 0%N)) with (-1)%Z by (vm_compute; reflexivity). replace (elem (2 * 2) [lad OpCdg (1 + 0 * 2)] (nth 0 st2 0%N) (nth 1 st1 0%N)) with 0%Z by (vm_compute; reflexivity).
    cbn. f_equal. }
  assert (W1 : g_v g1 = [0; 0]).
  { rewrite V1. unfold namps. cbn [seq map]. rewrite !xs_amp by (cbn; lia).
    replace (elem (2 * 2) [lad OpCdg (0 + 1 * 2)] (nth 0 st2 0%N) (nth 1 st1 0%N)) with 0%Z by (vm_compute; reflexivity). replace (elem (2 * 2) [lad OpCdg (1 + 1 * 2)] (nth 0 st2 0%N) (nth 1 st1 0%N)) with 0%Z by (vm_compute; reflexivity).
    reflexivity. }
  destruct C0 as (_ & _ & CV0 & CE0 & CK0). destruct C1 as (_ & _ & CV1 & CE1 & CK1). exists g0, g1, h0, h1.
  rewrite CV0, CV1, CE0, CE1, CK0, CK1, K0, K1, E0, E1, W0, W1. repeat split; auto.
Qed.
Example C96_example : exists d g0 g1 h0 h1, sq_elements 2 (two_es 5) None (Some 7) = Ok d /\
  In (([2; 0], [1; 0])%nat, [g0; g1]) d /\ In (([1; 0], [2; 0])%nat, [h0; h1]) d /\ g_kind g0 = Electron /\ g_kind h0 = Hole /\ g_E g0 = 5 /\ g_v g0 = [-1; 0] /\ g_v g1 = [0; 0].
Proof.
  destruct (sq_elements_full 2 (two_es 5) None 1 (Some 7) (two_solved 5)) as (d & E & _); [exists 0; apply two_lowest; lra|discriminate|apply two_links|].
  destruct (two_elements 5 None (Some 7) d) as (g0 & g1 & h0 & h1 & A); [exists 0; apply two_lowest; lra|discriminate|exact E|]. exists d, g0, g1, h0, h1. tauto.
Qed.
(** Transitions into the empty and the completely filled sector are left out: a single
    orbital with one electron has none at all. *)
Definition one_es : espace RRing := [([0]%nat, xs [0%N] 0 0); ([1]%nat, xs [1; 2]%N 0 (-1)); ([2]%nat, xs [3%N] 0 1)].
Theorem C96_extremes_refuted : ~ (forall n es N d, nsolved n es -> links_stored n es N -> sq_elements n es (Some N) None = Ok d ->
  forall M j i, (M = S N \/ S M = N) -> is_state es M j -> is_state es N i -> exists l, In (([M; j], [N; i]), l) d).
Proof.
  intros H.
  assert (S : nsolved 1 one_es).
  { split; [cbn; repeat constructor; cbn; intuition discriminate|]. intros key s [Q|[Q|[Q|[]]]]; injection Q as <- <-; eexists; (split; [reflexivity|]); (apply xs_sector; [lia|lia|reflexivity]). }
  assert (L : links_stored 1 one_es 1) by (intros lo [[-> B]|[A B]]; lia).
  destruct (H 1%nat one_es 1%nat [] S L eq_refl 0%nat 0%nat 0%nat) as (l & []); [now right| |].
  - exists (xs [0%N] 0 0). split; [now left|cbn; lia].
  - exists (xs [1; 2]%N 0 (-1)). split; [right; now left|cbn; lia].
Qed.
Print Assumptions C96_extremes_refuted.

(** * C97: equilibrium *)
Theorem C97_equilibrium : forall n es No N egs d, nsolved n es -> chosen es No N -> (No = None -> egs <> None) -> links_stored n es N -> sq_elements n es No egs = Ok d ->
  forall a0 a1 beta m inject, length a0 = n -> length a1 = n -> (inject < 2)%nat -> unclipped es beta m ->
  forall E, (forall id x, nstate_energy es id x -> E id = x) -> exists ids W T,
  tnl_matrices d beta [m; m] [a0; a1] inject = Ok ((ids, W), (ids, T)) /\ StronglySorted before ids /\ (forall x, In x ids <-> exists y, considered n es N x y) /\
  (forall f i, (f < length ids)%nat -> (i < length ids)%nat -> W f i * ngibbs beta m E (nth i ids []) = W i f * ngibbs beta m E (nth f ids [])) /\
  stationary (length ids) W (fun i => ngibbs beta m E (nth i ids [])) /\
  current (length ids) T (fun i => ngibbs beta m E (nth i ids [])) = 0.
Proof. exact tnl_equilibrium. Qed.
Print Assumptions C97_equilibrium.
Lemma two_energy e id x : nstate_energy (two_es e) id x -> (id = [1; 0]%nat /\ x = 0) \/ (id = [2; 0]%nat /\ x = e).
Proof. intros (M & k & s & -> & [H|[H|[]]] & L & ->); injection H as <- <-; cbn in L; (assert (k = 0%nat) by lia); subst k; [left|right]; split; auto. Qed.
Definition two_E (e : R) (id : label) : R := match id with 2%nat :: _ => e | _ => 0 end.
Lemma two_E_ok e id x : nstate_energy (two_es e) id x -> two_E e id = x.
Proof. intros H. apply two_energy in H. destruct H as [[-> ->]|[-> ->]]; reflexivity. Qed.
Lemma two_unclipped e beta m : Rabs (beta * (e - 0 - m)) <= 100 -> unclipped (two_es e) beta m.
Proof.
  intros B id id' x y H H' Q. apply two_energy in H, H'. destruct H as [[-> ->]|[-> ->]], H' as [[-> ->]|[-> ->]]; cbn in Q; auto; lra.
Qed.
Lemma two_ids (ids : list label) e : StronglySorted before ids -> (forall x, In x ids <-> exists y, considered 2 (two_es e) 1 x y) -> ids = [[1; 0]; [2; 0]]%nat.
Proof.
  intros S IN. apply sorted_same; auto.
  - constructor; [constructor; [constructor|constructor]|]. constructor; [|constructor]. apply before_lt. lia.
  - intros x. rewrite IN. split.
    + intros (y & C). apply two_considered in C. destruct C as [[-> _]|[-> _]]; cbn; auto.
    + intros [<-|[<-|[]]]; eexists; apply two_considered; [right|left]; split; reflexivity.
Qed.
Example C97_example : exists d W T, sq_elements 2 (two_es 5) (Some 1%nat) None = Ok d /\ tnl_matrices d 1 [2; 2] [[1; 1]; [1; 3]] 0 = Ok (([[1; 0]; [2; 0]]%nat, W), ([[1; 0]; [2; 0]]%nat, T)) /\
  0 < W 1%nat 0%nat /\ W 1%nat 0%nat = exp (-3) * W 0%nat 1%nat.
Proof.
  destruct (sq_elements_full 2 (two_es 5) (Some 1%nat) 1 None (two_solved 5) eq_refl ltac:(discriminate) (two_links 5)) as (d & E & _ & ND & KEY & ELS & REV).
  destruct (tnl_equilibrium 2 (two_es 5) (Some 1%nat) 1 None d (two_solved 5) eq_refl ltac:(discriminate) (two_links 5) E [1; 1] [1; 3] 1 2 0%nat eq_refl eq_refl ltac:(lia)
    (two_unclipped 5 1 2 ltac:(rewrite Rabs_right; lra)) (two_E 5) (two_E_ok 5)) as (ids & W & T & EM & S & IN & BAL & _).
  pose proof (two_ids ids 5 S IN). subst ids. exists d, W, T. split; [exact E|]. split; [exact EM|].
  destruct (two_elements 5 (Some 1%nat) None d eq_refl ltac:(discriminate) E) as (g0 & g1 & h0 & h1 & H & _ & K0 & _ & K1 & _ & E0 & E1 & _ & _ & V0 & V1 & _).
  destruct (tnl_entries 2 (two_es 5) 1 d (two_solved 5) ND KEY ELS REV [1; 1] [1; 3] 1 2 2 eq_refl eq_refl 0%nat ltac:(lia)) as (ids & W' & T' & EM' & _ & _ & _ & WE & _).
  rewrite EM in EM'. injection EM' as <- <- _ <-. split.
  - rewrite (WE 1%nat 0%nat) by (cbn; lia). cbn [nth].
    destruct (G_in 2 (two_es 5) 1 d (two_solved 5) ND KEY ELS [1; 1] [1; 3] 1 2 2 eq_refl eq_refl _ _ 0%nat _ ltac:(lia) H) as (x0 & x1 & Q & _ & _ & ->). injection Q as <- <-.
    destruct (G_in 2 (two_es 5) 1 d (two_solved 5) ND KEY ELS [1; 1] [1; 3] 1 2 2 eq_refl eq_refl _ _ 1%nat _ ltac:(lia) H) as (x0 & x1 & Q & _ & _ & ->). injection Q as <- <-.
    assert (P : 0 < nF_cut (1 * (5 - 2))).
    { unfold nF_cut. destruct (Rltb 100 (1 * (5 - 2))) eqn:Q; [apply Rltb_spec in Q; lra|]. pose proof (exp_pos (1 * (5 - 2))). apply Rdiv_lt_0_compat; lra. }
    unfold rt, tnl_rate. rewrite V0, V1, K0, K1, E0, E1. cbn. cbn in P. lra.
  - pose proof (BAL 1%nat 0%nat ltac:(cbn; lia) ltac:(cbn; lia)) as B. cbn [nth] in B. unfold ngibbs in B. cbn [two_E nelectrons] in B.
    replace (- (1) * (0 - 2 * INR 1)) with 2 in B by (simpl; ring). replace (- (1) * (5 - 2 * INR 2)) with (-1) in B by (simpl; ring).
    replace (-1) with (-3 + 2) in B by ring. rewrite exp_plus in B. pose proof (exp_pos 2). apply (Rmult_eq_reg_r (exp 2)); [|lra]. lra.
Qed.

(** Energies more than 100 kT away: the rate one way is set to 0, its reverse is not, and
    the grand canonical distribution is not stationary. *)
Theorem C97_clip_refuted : ~ (forall n es No N egs d, nsolved n es -> chosen es No N -> (No = None -> egs <> None) -> links_stored n es N -> sq_elements n es No egs = Ok d ->
  forall a0 a1 beta m inject, length a0 = n -> length a1 = n -> (inject < 2)%nat -> 0 < beta ->
  forall E, (forall id x, nstate_energy es id x -> E id = x) -> forall ids W T,
  tnl_matrices d beta [m; m] [a0; a1] inject = Ok ((ids, W), (ids, T)) -> stationary (length ids) W (fun i => ngibbs beta m E (nth i ids []))).
Proof.
  intros HH.
  destruct (sq_elements_full 2 (two_es 200) (Some 1%nat) 1 None (two_solved 200) eq_refl ltac:(discriminate) (two_links 200)) as (d & E & _ & ND & KEY & ELS & REV).
  destruct (tnl_entries 2 (two_es 200) 1 d (two_solved 200) ND KEY ELS REV [1; 1] [1; 1] 1 0 0 eq_refl eq_refl 0%nat ltac:(lia)) as (ids & W & T & EM & S & IN & [CO _] & WE & _).
  pose proof (two_ids ids 200 S IN). subst ids.
  pose proof (HH 2%nat (two_es 200) (Some 1%nat) 1%nat None d (two_solved 200) eq_refl ltac:(discriminate) (two_links 200) E [1; 1] [1; 1] 1 0 0%nat eq_refl eq_refl ltac:(lia) ltac:(lra) (two_E 200) (two_E_ok 200) _ _ _ EM) as ST.
  destruct (two_elements 200 (Some 1%nat) None d eq_refl ltac:(discriminate) E) as (g0 & g1 & h0 & h1 & H & H' & K0 & J0 & K1 & J1 & E0 & E1 & D0 & D1 & V0 & V1 & U0 & U1).
  cbn [length] in *.
  assert (W10 : W 1%nat 0%nat = 0).
  { rewrite (WE 1%nat 0%nat) by (cbn; lia). cbn [nth].
    destruct (G_in 2 (two_es 200) 1 d (two_solved 200) ND KEY ELS [1; 1] [1; 1] 1 0 0 eq_refl eq_refl _ _ 0%nat _ ltac:(lia) H) as (x0 & x1 & Q & _ & _ & ->). injection Q as <- <-.
    destruct (G_in 2 (two_es 200) 1 d (two_solved 200) ND KEY ELS [1; 1] [1; 1] 1 0 0 eq_refl eq_refl _ _ 1%nat _ ltac:(lia) H) as (x0 & x1 & Q & _ & _ & ->). injection Q as <- <-.
    assert (P : nF_cut (1 * (200 - 0)) = 0) by (unfold nF_cut; destruct (Rltb 100 (1 * (200 - 0))) eqn:Q; [reflexivity|]; exfalso; assert (Q' : 100 < 1 * (200 - 0)) by lra; apply Rltb_spec in Q'; congruence).
    unfold rt, tnl_rate. rewrite V0, V1, K0, K1, E0, E1. cbn [dotv length Nat.eqb combine map fold_right fst snd bind nth]. rewrite P. ring. }
  assert (W01 : 0 < W 0%nat 1%nat).
  { rewrite (WE 0%nat 1%nat) by (cbn; lia). cbn [nth].
    destruct (G_in 2 (two_es 200) 1 d (two_solved 200) ND KEY ELS [1; 1] [1; 1] 1 0 0 eq_refl eq_refl _ _ 0%nat _ ltac:(lia) H') as (x0 & x1 & Q & _ & _ & ->). injection Q as <- <-.
    destruct (G_in 2 (two_es 200) 1 d (two_solved 200) ND KEY ELS [1; 1] [1; 1] 1 0 0 eq_refl eq_refl _ _ 1%nat _ ltac:(lia) H') as (x0 & x1 & Q & _ & _ & ->). injection Q as <- <-.
    assert (P : 0 < nF_cut (- (1) * (200 - 0))).
    { unfold nF_cut. destruct (Rltb 100 (- (1) * (200 - 0))) eqn:Q; [apply Rltb_spec in Q; lra|]. pose proof (exp_pos (- (1) * (200 - 0))). apply Rdiv_lt_0_compat; lra. }
    unfold rt, tnl_rate. rewrite U0, U1, J0, J1, D0, D1. cbn [dotv length Nat.eqb List.combine map fold_right fst snd bind nth]. lra. }
  pose proof (CO 0%nat ltac:(lia)) as C0. rewrite !rsum_S, rsum_0, W10 in C0 by (intros; lia). assert (W00 : W 0%nat 0%nat = 0) by lra.
  pose proof (ST 0%nat ltac:(lia)) as S0. rewrite !rsum_S, rsum_0, W00 in S0 by (intros; lia).
  assert (P : 0 < ngibbs 1 0 (two_E 200) (nth 1 [[1; 0]; [2; 0]]%nat [])) by apply exp_pos.
  cbn [nth] in *. nra.
Qed.
Print Assumptions C97_clip_refuted.

(** * C98: currents of a stationary state *)
Theorem C98_sqtunneling : forall n es egs cutoff d, solved n es egs -> build_transition_elements n egs es cutoff = Ok d -> forall beta m0 m1 a0 a1,
  exists ids W T0 T1, sq_rate_matrix d beta [m0; m1] [a0; a1] = Ok (length ids, W) /\ StronglySorted before ids /\
  (forall x, In x ids <-> exists I v, In ((x, I), v) d) /\
  sq_transition_matrix d beta m0 a0 = Ok (length ids, T0) /\ sq_transition_matrix d beta m1 a1 = Ok (length ids, T1) /\
  (forall p, stationary (length ids) W p -> current (length ids) T0 p + current (length ids) T1 p = 0) /\
  (forall p, 0 < beta -> stationary (length ids) W p -> (forall i, (i < length ids)%nat -> 0 <= p i) -> 0 <= (m0 - m1) * current (length ids) T0 p).
Proof. exact sq_built_currents. Qed.
Print Assumptions C98_sqtunneling.

Theorem C98_sqtnl : forall n es No N egs d, nsolved n es -> chosen es No N -> (No = None -> egs <> None) -> links_stored n es N -> sq_elements n es No egs = Ok d ->
  forall a0 a1 beta m0 m1, length a0 = n -> length a1 = n -> exists ids W T0 T1,
  tnl_matrices d beta [m0; m1] [a0; a1] 0 = Ok ((ids, W), (ids, T0)) /\ tnl_matrices d beta [m0; m1] [a0; a1] 1 = Ok ((ids, W), (ids, T1)) /\
  StronglySorted before ids /\ (forall x, In x ids <-> exists y, considered n es N x y) /\ rate_matrix (length ids) W /\
  (forall p, stationary (length ids) W p -> current (length ids) T0 p + current (length ids) T1 p = 0) /\
  (forall p, 0 < beta -> unclipped es beta m0 -> unclipped es beta m1 -> stationary (length ids) W p -> (forall i, (i < length ids)%nat -> 0 <= p i) ->
     (m0 - m1) * current (length ids) T0 p <= 0).
Proof. exact tnl_both. Qed.
Print Assumptions C98_sqtnl.
(** Both leads couple to the first site; the first has the higher chemical potential, so
    that electrons flow out of it through the two states. *)
Example C98_example : exists d W T p, sq_elements 2 (two_es 0) (Some 1%nat) None = Ok d /\
  tnl_matrices d 1 [1; 0] [[1; 0]; [1; 0]] 0 = Ok (([[1; 0]; [2; 0]]%nat, W), ([[1; 0]; [2; 0]]%nat, T)) /\ stationary 2 W p /\ 0 < p 0%nat /\ 0 < p 1%nat /\ current 2 T p < 0.
Proof.
  destruct (sq_elements_full 2 (two_es 0) (Some 1%nat) 1 None (two_solved 0) eq_refl ltac:(discriminate) (two_links 0)) as (d & E & _ & ND & KEY & ELS & REV).
  destruct (tnl_entries 2 (two_es 0) 1 d (two_solved 0) ND KEY ELS REV [1; 0] [1; 0] 1 1 0 eq_refl eq_refl 0%nat ltac:(lia)) as (ids & W & T & EM & S & IN & [CO _] & WE & TE).
  pose proof (two_ids ids 0 S IN). subst ids.
  destruct (two_elements 0 (Some 1%nat) None d eq_refl ltac:(discriminate) E) as (g0 & g1 & h0 & h1 & H & H' & K0 & J0 & K1 & J1 & E0 & E1 & D0 & D1 & V0 & V1 & U0 & U1).
  assert (P : forall x, x <= 1 -> nF_cut x = 1 / (exp x + 1)).
  { intros x Hx. unfold nF_cut. destruct (Rltb 100 x) eqn:Q; [apply Rltb_spec in Q; lra|reflexivity]. }
  assert (GV : forall l, (l < 2)%nat -> G d [1; 0] [1; 0] 1 1 0 l [2; 0]%nat [1; 0]%nat = 1 / (exp (- nth l [1; 0] 0) + 1) /\ G d [1; 0] [1; 0] 1 1 0 l [1; 0]%nat [2; 0]%nat = 1 / (exp (nth l [1; 0] 0) + 1)).
  { intros l Hl.
    destruct (G_in 2 (two_es 0) 1 d (two_solved 0) ND KEY ELS [1; 0] [1; 0] 1 1 0 eq_refl eq_refl _ _ l _ Hl H) as (x0 & x1 & Q & _ & _ & ->). injection Q as <- <-.
    destruct (G_in 2 (two_es 0) 1 d (two_solved 0) ND KEY ELS [1; 0] [1; 0] 1 1 0 eq_refl eq_refl _ _ l _ Hl H') as (x0 & x1 & Q & _ & _ & ->). injection Q as <- <-.
    unfold rt, tnl_rate. rewrite U0, U1, V0, V1, K0, K1, J0, J1, D0, D1, E0, E1.
    destruct l as [|[|l]]; [| |lia]; cbn [nth dotv length Nat.eqb List.combine map fold_right fst snd bind].
    - rewrite !P by lra. replace (1 * (0 - 1)) with (- (1)) by ring. replace (- (1) * (0 - 1)) with 1 by ring. split; ring.
    - rewrite !P by lra. replace (1 * (0 - 0)) with (- 0) by ring. replace (- (1) * (0 - 0)) with 0 by ring. split; ring. }
  destruct (GV 0%nat ltac:(lia)) as [A0 B0]. destruct (GV 1%nat ltac:(lia)) as [A1 B1]. cbn [nth] in A0, A1, B0, B1.
  rewrite Ropp_0, exp_0 in A1. rewrite exp_0 in B1.
  pose proof (WE 1%nat 0%nat ltac:(cbn; lia) ltac:(cbn; lia) ltac:(lia)) as W10. pose proof (WE 0%nat 1%nat ltac:(cbn; lia) ltac:(cbn; lia) ltac:(lia)) as W01. cbn [nth] in W10, W01. rewrite A0, A1 in W10. rewrite B0, B1 in W01.
  pose proof (CO 0%nat ltac:(cbn; lia)) as C0. pose proof (CO 1%nat ltac:(cbn; lia)) as C1. cbn [length] in C0, C1. rewrite !rsum_S, rsum_0 in C0, C1 by (intros; lia).
  assert (QA : 1 / 2 < 1 / (exp (- (1)) + 1)).
  { unfold Rdiv. rewrite !Rmult_1_l. pose proof (exp_pos (- (1))). apply Rinv_lt_contravar; [lra|]. rewrite <- exp_0 in *. pose proof (exp_increasing (- (1)) 0 ltac:(lra)). rewrite exp_0 in *. lra. }
  assert (QB : 0 < 1 / (exp 1 + 1) < 1 / 2).
  { unfold Rdiv. rewrite !Rmult_1_l. pose proof (exp_pos 1). split; [apply Rinv_0_lt_compat; lra|]. apply Rinv_lt_contravar; [lra|]. pose proof (exp_increasing 0 1 ltac:(lra)) as Q. rewrite exp_0 in Q. lra. }
  set (fa := 1 / (exp (- (1)) + 1)) in *. set (fb := 1 / (exp 1 + 1)) in *.
  exists d, W, T, (fun i => match i with O => fb + 1 / (1 + 1) | _ => fa + 1 / (1 + 1) end).
  split; [exact E|]. split; [exact EM|]. split; [|split; [lra|split; [lra|]]].
  - intros f Hf. rewrite !rsum_S, rsum_0 by (intros; lia). destruct f as [|[|f]]; [| |lia].
    + assert (Q : W 0%nat 0%nat = - (fa + 1 / (1 + 1))) by lra. rewrite Q, W01. ring.
    + assert (Q : W 1%nat 1%nat = - (fb + 1 / (1 + 1))) by lra. rewrite Q, W10. ring.
  - unfold current. rewrite !rsum_S, !rsum_0 by (intros; lia). rewrite !TE by (cbn; lia). cbn [nth nelectrons]. rewrite A0, B0. simpl INR.
    match goal with |- ?x < 0 => replace x with ((fb - fa) / 2) by field end. lra.
Qed.
(** The current out of the lead with the higher chemical potential, for the four states of
    one orbital of C73. *)
Example C98_sqtunneling_example : exists d (ids : list label) W T0 T1, build_transition_elements 1 (-1) ex_es None = Ok d /\ sq_rate_matrix d 1 [1; 0] [[1]; [1]] = Ok (length ids, W) /\
  sq_transition_matrix d 1 1 [1] = Ok (length ids, T0) /\ sq_transition_matrix d 1 0 [1] = Ok (length ids, T1) /\ (2 <= length ids)%nat /\
  forall p, stationary (length ids) W p -> (forall i, (i < length ids)%nat -> 0 <= p i) -> 0 <= current (length ids) T0 p /\ current (length ids) T1 p = - current (length ids) T0 p.
Proof.
  destruct C73_example as (d & g & g' & E & H & H' & _). destruct (sq_built_currents 1 ex_es (-1) None d C73_ex_solved E 1 1 0 [1] [1]) as (ids & W & T0 & T1 & EW & _ & IN & E0 & E1 & KI & SL).
  exists d, ids, W, T0, T1. split; [exact E|]. split; [exact EW|]. split; [exact E0|]. split; [exact E1|]. split.
  - assert (A : In [1; 1; 0]%nat ids) by (apply IN; eauto). assert (B : In [0; 1; 0]%nat ids) by (apply IN; eauto).
    destruct ids as [|x [|y ids]]; cbn [length]; [destruct A| |lia]. destruct A as [A|[]], B as [B|[]]. congruence.
  - intros p S P. pose proof (KI p S). pose proof (SL p ltac:(lra) S P). split; lra.
Qed.
