(** C99-C102: second-order tunnelling within the sector of N electrons (cotnl.py). *)
From Coq Require Import Reals List Arith NArith ZArith Bool Lia Lra Psatz Sorted.
From Verif Require Import Base RBase RLin OperatorsSpec FockSpec SectorModel LocalModel MatvecModel EspaceModel ProjModel ProjSpec
  GfModel GfSpec RateModel RateSpec RateProofs TransModel TransSpec TransProofs TransFinalProofs CotModel CotSpec TnlModel TnlSpec TnlProofs TnlMatProofs CnlSpec CnlProofs CnlRateProofs CnlScreenProofs CnlIntProofs TransProps TnlProps.
Import ListNotations.
Local Open Scope R_scope.

(** * C99: elements *)
Theorem C99_elements : forall n es No N egs, nsolved n es -> chosen es No N -> (No = None -> egs <> None) -> links_stored n es N ->
  exists d, co_elements n es No egs None = Ok d /\ StronglySorted kbefore (map fst d) /\ NoDup (map fst d) /\
  (forall F I, (exists l, In ((F, I), l) d) <-> (exists lo, linked n N lo) /\ exists f i, F = [N; f] /\ I = [N; i] /\ is_state es N f /\ is_state es N i) /\
  (forall f i l, In (([N; f], [N; i]), l) d -> Forall2 (exact_sig n es N f i) [(0, 0); (0, 1); (1, 0); (1, 1)]%nat l).
Proof. exact co_elements_full. Qed.
Print Assumptions C99_elements.
(** The amplitude of the reversed process, with the leads exchanged, is the same when the
    energy of the electron that leaves is shifted by the energy difference. *)
Theorem C99_reversed : forall n es N s' s ae ai f i z T, nsolved n es -> second_order n es N s' s ae ai f i z T ->
  forall S, In ([N], S) es -> second_order n es N s s' ai ae i f (z + (energy S f - energy S i)) T.
Proof. exact second_order_reversed. Qed.
Print Assumptions C99_reversed.

(** Sectors with the eigenvectors [cols]. *)
Definition us (l : list N) (cols : list (list R)) (vals : list R) : sct RRing := mksct RRing (StN l) vals (Cols RRing cols).
Lemma us_sector n N l cols vals : (N <= 2 * n)%nat -> (2 * n <= 32)%nat -> generate_states (2 * n) N = Ok l -> (0 < length vals)%nat -> length cols = length vals -> (forall x, In x cols -> length x = length l) -> nsector n N (us l cols vals).
Proof. intros A B C D E F. repeat split; auto. exists cols. auto. Qed.
Definition one_two (cols : list (list R)) (vals : list R) (e : R) : espace RRing := [([1]%nat, us st1 cols vals); ([2]%nat, xs st2 0 e)].
Definition zero_two (cols : list (list R)) (vals : list R) (e0 e : R) : espace RRing := ([0]%nat, xs [0%N] 0 e0) :: one_two cols vals e.
Lemma one_two_solved cols vals e : (0 < length vals)%nat -> length cols = length vals -> (forall x, In x cols -> length x = 4%nat) -> nsolved 2 (one_two cols vals e).
Proof.
  intros A B C. split; [cbn; repeat constructor; cbn; intuition discriminate|]. intros key s [H|[H|[]]]; injection H as <- <-; eexists; (split; [reflexivity|]).
  - apply us_sector; auto; try lia; reflexivity.
  - apply xs_sector; [lia|lia|reflexivity].
Qed.
Lemma zero_two_solved cols vals e0 e : (0 < length vals)%nat -> length cols = length vals -> (forall x, In x cols -> length x = 4%nat) -> nsolved 2 (zero_two cols vals e0 e).
Proof.
  intros A B C. split; [cbn; repeat constructor; cbn; intuition discriminate|]. intros key s [H|[H|[H|[]]]]; injection H as <- <-; eexists; (split; [reflexivity|]).
  - apply xs_sector; [lia|lia|reflexivity].
  - apply us_sector; auto; try lia; reflexivity.
  - apply xs_sector; [lia|lia|reflexivity].
Qed.
Lemma one_two_links cols vals e : links_stored 2 (one_two cols vals e) 1.
Proof. intros lo L. rewrite (two_linked 1 lo L eq_refl). split; eexists; cbn; eauto. Qed.
Lemma zero_two_links cols vals e0 e : links_stored 2 (zero_two cols vals e0 e) 1.
Proof. intros lo L. rewrite (two_linked 1 lo L eq_refl). split; eexists; cbn; eauto. Qed.
(** Amplitudes for adding an electron to reach both up orbitals filled. *)
Lemma us_amp p cols vals e i : (p < 4)%nat -> namp 2 OpCdg p (xs st2 0 e) (us st1 cols vals) 0 i =
  match p with 0%nat => - nth 1 (nth i cols []) 0 | 1%nat => nth 0 (nth i cols []) 0 | _ => 0 end.
Proof.
  intros Hp. change (rsum 6 (fun a => rsum 4 (fun b => nth a (unit_vec 6 0) 0 * z2k (K := RRing) (elem (2 * 2) [lad OpCdg p] (nth a st2 0%N) (nth b st1 0%N)) * nth b (nth i cols []) 0)) =
    match p with 0%nat => - nth 1 (nth i cols []) 0 | 1%nat => nth 0 (nth i cols []) 0 | _ => 0 end).
  rewrite (rsum_single 6 _ 0) by (try lia; intros j Hj NE; apply rsum_0; intros b _; destruct j as [|[|[|[|[|[|j]]]]]]; try lia; cbn; ring).
  rewrite !rsum_S. set (c := nth i cols []). 
  assert (E : map (fun b => elem (2 * 2) [lad OpCdg p] (nth 0 st2 0%N) (nth b st1 0%N)) [0; 1; 2; 3]%nat = match p with 0%nat => [0; -1; 0; 0]%Z | 1%nat => [1; 0; 0; 0]%Z | _ => [0; 0; 0; 0]%Z end)
    by (destruct p as [|[|[|[|p]]]]; [vm_compute; reflexivity| vm_compute; reflexivity|vm_compute; reflexivity|vm_compute; reflexivity|lia]).
  cbn [map] in E. assert (E0 := f_equal (fun l => nth 0 l 0%Z) E). assert (E1 := f_equal (fun l => nth 1 l 0%Z) E). assert (E2 := f_equal (fun l => nth 2 l 0%Z) E). assert (E3 := f_equal (fun l => nth 3 l 0%Z) E). cbn [nth] in E0, E1, E2, E3.
  change (nth 0 (unit_vec 6 0) 0) with 1. cbn [nth st2] in *. rewrite E0, E1, E2, E3. change (rsum 0 _) with 0.
  destruct p as [|[|[|[|p]]]]; [| | | |lia]; cbn [z2k]; cbn; ring.
Qed.
Lemma us_coupled s a cols vals e i : (s < 2)%nat -> coupled 2 s OpCdg (xs st2 0 e) (us st1 cols vals) 0 i a =
  match s with 0%nat => - nth 0 a 0 * nth 1 (nth i cols []) 0 + nth 1 a 0 * nth 0 (nth i cols []) 0 | _ => 0 end.
Proof.
  intros Hs. unfold coupled. rewrite !rsum_S. change (rsum 0 _) with 0. rewrite !us_amp by lia. destruct s as [|[|s]]; [| |lia]; cbn [Nat.add Nat.mul]; ring.
Qed.
Lemma us_more s' s ae ai cols vals e f i z : (s' < 2)%nat -> (s < 2)%nat -> via_more 2 s' s ae ai (us st1 cols vals) (xs st2 0 e) f i z =
  coupled 2 s' OpCdg (xs st2 0 e) (us st1 cols vals) 0 f ai * coupled 2 s OpCdg (xs st2 0 e) (us st1 cols vals) 0 i ae / (e - nth f vals 0 - z).
Proof.
  intros A B. unfold via_more. change (nvals (xs st2 0 e)) with 1%nat. rewrite rsum_S. change (rsum 0 _) with 0. rewrite Rplus_0_l. rewrite (coupled_adj 2 s' OpC). reflexivity.
Qed.
(** One electron: the only second-order process goes through both up orbitals filled. *)
Lemma one_two_order s' s ae ai cols vals e f i z T : (0 < length vals)%nat -> length cols = length vals -> (forall x, In x cols -> length x = 4%nat) -> (s' < 2)%nat -> (s < 2)%nat ->
  second_order 2 (one_two cols vals e) 1 s' s ae ai f i z T ->
  T = (match s' with 0%nat => - nth 0 ai 0 * nth 1 (nth f cols []) 0 + nth 1 ai 0 * nth 0 (nth f cols []) 0 | _ => 0 end) *
      (match s with 0%nat => - nth 0 ae 0 * nth 1 (nth i cols []) 0 + nth 1 ae 0 * nth 0 (nth i cols []) 0 | _ => 0 end) / (e - nth f vals 0 - z).
Proof.
  intros A B C Hs' Hs (S & x & y & HI & HM & HL & ->). cbn in HL. subst y. cbn in HM. destruct HM as (M & HM & ->).
  assert (S = us st1 cols vals) by (destruct HI as [Q|[Q|[]]]; [now injection Q|discriminate Q]). assert (M = xs st2 0 e) by (destruct HM as [Q|[Q|[]]]; [discriminate Q|now injection Q]). subst S M.
  rewrite us_more, !us_coupled by assumption. ring.
Qed.
Lemma zero_two_order s' s ae ai cols vals e0 e f i z T : (s' < 2)%nat -> (s < 2)%nat -> second_order 2 (zero_two cols vals e0 e) 1 s' s ae ai f i z T -> second_order 2 (one_two cols vals e) 1 s' s ae ai f i z T.
Proof.
  intros Hs' Hs (S & x & y & HI & HM & HL & ->). exists S, x, y. cbn in *. split; [|split; [|auto]].
  - destruct HI as [Q|HI]; [discriminate Q|exact HI].
  - destruct HM as (M & [Q|HM] & E); [discriminate Q|]. eauto.
Qed.
Lemma unit_cols4 x : In x [unit_vec 4 0; unit_vec 4 1] -> length x = 4%nat.
Proof. intros [<-|[<-|[]]]; reflexivity. Qed.
Lemma one_linked : exists lo, linked 2 1 lo.
Proof. exists 1%nat. left. split; [reflexivity|lia]. Qed.

(** Two states of one up electron, on site 0 (energy 0) and on site 1 (energy 1), and the
    two-electron state of energy 10: the transition from the first to the second with couplings
    (2, 3) to the lead electrons come from and (5, 7) to the other, at energy 1. *)
Example C99_example : exists d s0 s1 s2 s3, co_elements 2 (one_two [unit_vec 4 0; unit_vec 4 1] [0; 1] 10) (Some 1%nat) None None = Ok d /\
  In (([1; 1], [1; 0])%nat, [s0; s1; s2; s3]) d /\ nsigma_call s0 1 [[2; 3]; [5; 7]] 0 1 = Ok ((15 / 8) ^ 2) /\ nsigma_call s1 1 [[2; 3]; [5; 7]] 0 1 = Ok 0 /\
  n_spins s0 = (0, 0)%nat /\ n_spins s1 = (0, 1)%nat /\ n_dE s0 = 1.
Proof.
  set (es := one_two [unit_vec 4 0; unit_vec 4 1] [0; 1] 10). assert (HS : nsolved 2 es) by (apply one_two_solved; [cbn; lia|reflexivity|apply unit_cols4]).
  destruct (co_elements_full 2 es (Some 1%nat) 1 None HS eq_refl ltac:(discriminate) (one_two_links _ _ _)) as (d & E & _ & _ & KEY & ELS).
  destruct (proj2 (KEY [1; 1]%nat [1; 0]%nat)) as (l & H).
  { split; [exact one_linked|]. exists 1%nat, 0%nat. repeat split; exists (us st1 [unit_vec 4 0; unit_vec 4 1] [0; 1]); (split; [now left|cbn; lia]). }
  pose proof (ELS 1%nat 0%nat l H) as F. inversion F as [|? s0 ? ? X0 F0]; subst. inversion F0 as [|? s1 ? ? X1 F1]; subst. inversion F1 as [|? s2 ? ? X2 F2]; subst. inversion F2 as [|? s3 ? ? X3 F3]; subst. inversion F3; subst.
  exists d, s0, s1, s2, s3. split; [exact E|]. split; [exact H|].
  destruct X0 as (SP0 & (S & HI & DE) & C0). destruct X1 as (SP1 & _ & C1).
  destruct (C0 [[2; 3]; [5; 7]] 0%nat 1%nat [2; 3] [5; 7] 1 eq_refl eq_refl eq_refl eq_refl) as (T0 & O0 & ->). destruct (C1 [[2; 3]; [5; 7]] 0%nat 1%nat [2; 3] [5; 7] 1 eq_refl eq_refl eq_refl eq_refl) as (T1 & O1 & ->).
  apply one_two_order in O0; [|cbn; lia|reflexivity|apply unit_cols4|cbn; lia|cbn; lia]. apply one_two_order in O1; [|cbn; lia|reflexivity|apply unit_cols4|cbn; lia|cbn; lia].
  cbn in O0, O1. split; [f_equal; rewrite O0; field|]. split; [f_equal; rewrite O1; field|]. repeat split; auto.
  assert (S = us st1 [unit_vec 4 0; unit_vec 4 1] [0; 1]) by (destruct HI as [Q|[Q|[]]]; [now injection Q|discriminate Q]). subst S. rewrite DE. unfold energy. cbn. ring.
Qed.

(** It is not the amplitude through all intermediate states: the vacuum (and the full
    system) are left out. *)
Theorem C99_all_paths_refuted : ~ (forall n es N d f i l s sp A ext inj ae ai z x, nsolved n es -> links_stored n es N -> (forall M, (M <= 2 * n)%nat -> (M = N + 1)%nat \/ (M + 1 = N)%nat -> stored es M) ->
  co_elements n es (Some N) None None = Ok d -> In (([N; f], [N; i]), l) d -> In s l -> n_spins s = sp -> nth_error A ext = Some ae -> nth_error A inj = Some ai -> length ae = n -> length ai = n ->
  off_pole es N f i z -> nsigma_call s z A ext inj = Ok x -> exists T, full_order n es N (fst sp) (snd sp) ae ai f i z T /\ x = T ^ 2).
Proof.
  intros HH. set (cols := [unit_vec 4 0]). set (es := zero_two cols [0] 5 10).
  assert (LC : forall x, In x cols -> length x = 4%nat) by (intros x [<-|[]]; reflexivity).
  assert (HS : nsolved 2 es) by (apply zero_two_solved; [cbn; lia|reflexivity|exact LC]).
  destruct (co_elements_full 2 es (Some 1%nat) 1 None HS eq_refl ltac:(discriminate) (zero_two_links _ _ _ _)) as (d & E & _ & _ & KEY & ELS).
  destruct (proj2 (KEY [1; 0]%nat [1; 0]%nat)) as (l & H).
  { split; [exact one_linked|]. exists 0%nat, 0%nat. repeat split; exists (us st1 cols [0]); (split; [now right; left|cbn; lia]). }
  pose proof (ELS 0%nat 0%nat l H) as F. inversion F as [|? s0 ? ? X0 F0]; subst. destruct X0 as (SP0 & _ & C0).
  destruct (C0 [[1; 0]; [1; 0]] 0%nat 1%nat [1; 0] [1; 0] 0 eq_refl eq_refl eq_refl eq_refl) as (T0 & O0 & EC).
  apply zero_two_order in O0; [|cbn; lia|cbn; lia]. apply one_two_order in O0; [|cbn; lia|reflexivity|exact LC|cbn; lia|cbn; lia]. cbn in O0. assert (T0 = 0) by (rewrite O0; field). subst T0.
  assert (ST : forall M, (M <= 2 * 2)%nat -> (M = 1 + 1)%nat \/ (M + 1 = 1)%nat -> stored es M) by (intros M HM [->|Q]; [exists (xs st2 0 10); cbn; auto|]; assert (M = 0)%nat by lia; subst M; exists (xs [0%N] 0 5); cbn; auto).
  assert (OP : off_pole es 1 0 0 0).
  { intros S HI. destruct HI as [Q|[Q|[Q|[]]]]; try discriminate Q. injection Q as <-. split; intros M k HM Hk; cbn in HM; destruct HM as [Q|[Q|[Q|[]]]]; try discriminate Q; injection Q as <-; cbn in Hk; assert (k = 0)%nat by lia; subst k; unfold energy; cbn; lra. }
  destruct (HH 2%nat es 1%nat d 0%nat 0%nat _ s0 (0, 0)%nat [[1; 0]; [1; 0]] 0%nat 1%nat [1; 0] [1; 0] 0 _ HS (zero_two_links _ _ _ _) ST E H (in_eq _ _) SP0 eq_refl eq_refl eq_refl eq_refl OP EC) as (T & FO & ET).
  destruct FO as (S & x & y & HI & HM & HL & ->). cbn in HM, HL. destruct HM as (M & HM & ->). destruct HL as (L & HL & ->).
    destruct HI as [Q|[Q|[Q|[]]]]; try discriminate Q. injection Q as <-. destruct HM as [Q|[Q|[Q|[]]]]; try discriminate Q. injection Q as <-. destruct HL as [Q|[Q|[Q|[]]]]; try discriminate Q. injection Q as <-.
    rewrite us_more, !us_coupled in ET by lia. cbn [nth] in ET.
    assert (V : via_less 2 0 0 [1; 0] [1; 0] (us st1 cols [0]) (xs [0%N] 0 5) 0 0 0 = - (1 / 5)).
    { unfold via_less. change (nvals (xs [0%N] 0 5)) with 1%nat. rewrite rsum_S. change (rsum 0 _) with 0. rewrite (coupled_adj 2 0 OpC). cbn [opp_op].
      assert (CP : coupled 2 0 OpCdg (us st1 cols [0]) (xs [0%N] 0 5) 0 0 [1; 0] = 1).
      { unfold coupled. rewrite !rsum_S. change (rsum 0 _) with 0. cbn [nth]. change (us st1 cols [0]) with (xs st1 0 0). rewrite !xs_amp by (cbn; lia). cbn [nth st1].
        replace (elem (2 * 2) [lad OpCdg (0 + 0 * 2)] 1 0) with 1%Z by (vm_compute; reflexivity). replace (elem (2 * 2) [lad OpCdg (1 + 0 * 2)] 1 0) with 0%Z by (vm_compute; reflexivity). cbn. ring. }
      rewrite CP. unfold energy. cbn. field. }
    rewrite V in ET. unfold cols in ET. cbn in ET. lra.
Qed.
Print Assumptions C99_all_paths_refuted.

(** * C100: rates, method 'approximate' *)
Theorem C100_rate : forall n es No N egs d f i l A ext inj ae ai beta mu me mi S, nsolved n es -> chosen es No N -> (No = None -> egs <> None) -> links_stored n es N -> co_elements n es No egs None = Ok d ->
  In (([N; f], [N; i]), l) d -> In ([N], S) es -> nth_error A ext = Some ae -> nth_error A inj = Some ai -> length ae = n -> length ai = n -> nth_error mu ext = Some me -> nth_error mu inj = Some mi ->
  exists X, cross n es N ae ai f i (1 / 2 * (energy S f - energy S i + fold_right Rplus 0 mu)) X /\ 0 <= X /\
  (forall X', cross n es N ae ai f i (1 / 2 * (energy S f - energy S i + fold_right Rplus 0 mu)) X' -> X' = X) /\
  co_gamma napproximate A beta mu l (ext, inj) = Ok (Gfun beta (energy S f - energy S i - me + mi) * X).
Proof.
  intros n es No N egs d f i l A ext inj ae ai beta mu me mi S HS HC HG LK HD H HI Ee Ei Le Li Me Mi.
  destruct (co_elements_full n es No N egs HS HC HG LK) as (d' & E & _ & _ & _ & ELS). rewrite HD in E. injection E as <-.
  destruct (gamma_value n es N f i l A ext inj ae ai beta mu me mi S HS HI (ELS _ _ _ H) Ee Ei Le Li Me Mi) as (X & CX & EX). exists X. split; [exact CX|]. split; [eapply cross_nonneg; eauto|]. split; [|exact EX].
  intros X' CX'. now apply (cross_fun n es N ae ai f i _ _ _ HS CX').
Qed.
Print Assumptions C100_rate.
(** Between states of equal energy the rates there and back, with the leads exchanged, obey
    detailed balance. *)
Theorem C100_elastic : forall n es No N egs d f i l l' A ext inj ae ai beta mu me mi S, nsolved n es -> chosen es No N -> (No = None -> egs <> None) -> links_stored n es N -> co_elements n es No egs None = Ok d ->
  In (([N; f], [N; i]), l) d -> In (([N; i], [N; f]), l') d -> In ([N], S) es -> energy S f = energy S i ->
  nth_error A ext = Some ae -> nth_error A inj = Some ai -> length ae = n -> length ai = n -> nth_error mu ext = Some me -> nth_error mu inj = Some mi ->
  0 < beta -> regular beta (mi - me) -> exists x, co_gamma napproximate A beta mu l' (inj, ext) = Ok x /\ co_gamma napproximate A beta mu l (ext, inj) = Ok (exp (- beta * (mi - me)) * x).
Proof.
  intros n es No N egs d f i l l' A ext inj ae ai beta mu me mi S HS HC HG LK HD H H' HI EE Ee Ei Le Li Me Mi HB RG.
  destruct (co_elements_full n es No N egs HS HC HG LK) as (d' & E & _ & _ & _ & ELS). rewrite HD in E. injection E as <-.
  exact (elastic_balance n es N f i l l' A ext inj ae ai beta mu me mi S HS HI EE (ELS _ _ _ H) (ELS _ _ _ H') Ee Ei Le Li Me Mi HB RG).
Qed.
Print Assumptions C100_elastic.
(** The cross section is reversible when it is taken at half the sum of the potentials minus
    half the energy difference; the code takes plus. *)
Theorem C100_midpoint : forall n es N ae ai f i me mi X S, nsolved n es -> In ([N], S) es ->
  cross n es N ae ai f i (1 / 2 * (me + mi - (energy S f - energy S i))) X -> cross n es N ai ae i f (1 / 2 * (mi + me - (energy S i - energy S f))) X.
Proof.
  intros n es N ae ai f i me mi X S HS HI H. apply (cross_reversed n es N ae ai f i _ _ S HS HI) in H.
  replace (1 / 2 * (mi + me - (energy S i - energy S f))) with (1 / 2 * (me + mi - (energy S f - energy S i)) + (energy S f - energy S i)) by field. exact H.
Qed.
Print Assumptions C100_midpoint.
Theorem C100_matrices : forall n es No N egs d a0 a1 beta m0 m1 ext inj, nsolved n es -> chosen es No N -> (No = None -> egs <> None) -> links_stored n es N -> co_elements n es No egs None = Ok d ->
  length a0 = n -> length a1 = n -> 0 < beta -> (ext < 2)%nat -> (inj < 2)%nat ->
  exists ids W idsT T, cotnl_matrices napproximate d beta [m0; m1] [a0; a1] ext inj = Ok ((ids, W), (idsT, T)) /\
  StronglySorted before ids /\ StronglySorted before idsT /\
  (forall x, In x idsT <-> (exists lo, linked n N lo) /\ exists f, x = [N; f] /\ is_state es N f) /\
  (forall x, In x ids <-> In x idsT /\ exists y, In y idsT /\ y <> x) /\
  rate_matrix (length ids) W /\
  (forall f i, (f < length ids)%nat -> (i < length ids)%nat -> f <> i -> exists l, In ((nth f ids [], nth i ids []), l) d /\ co_total napproximate [a0; a1] beta [m0; m1] l = Ok (W f i)) /\
  (forall f i, (f < length idsT)%nat -> (i < length idsT)%nat -> exists l x y, In ((nth f idsT [], nth i idsT []), l) d /\
     co_gamma napproximate [a0; a1] beta [m0; m1] l (ext, inj) = Ok x /\ co_gamma napproximate [a0; a1] beta [m0; m1] l (inj, ext) = Ok y /\ T f i = x - y).
Proof.
  intros n es No N egs d a0 a1 beta m0 m1 ext inj HS HC HG LK HD L0 L1 HB He Hj. exact (co_matrices n es No N egs d HS HC HG LK HD a0 a1 beta m0 m1 ext inj L0 L1 HB He Hj).
Qed.
Print Assumptions C100_matrices.
(** Whatever the method, exchanging the leads only changes the sign of the transmissions. *)
Theorem C100_swap : forall meth d beta mu A ext inj ids W idsT T, cotnl_matrices meth d beta mu A ext inj = Ok ((ids, W), (idsT, T)) ->
  exists T', cotnl_matrices meth d beta mu A inj ext = Ok ((ids, W), (idsT, T')) /\
  forall f i, (f < length idsT)%nat -> (i < length idsT)%nat -> T' f i = - T f i.
Proof. exact lead_swap. Qed.
Print Assumptions C100_swap.
Theorem C100_equilibrium : forall n es No N egs d a0 a1 beta m ext inj, nsolved n es -> chosen es No N -> (No = None -> egs <> None) -> links_stored n es N -> co_elements n es No egs None = Ok d ->
  length a0 = n -> length a1 = n -> 0 < beta -> (ext < 2)%nat -> (inj < 2)%nat ->
  exists ids W idsT T, cotnl_matrices napproximate d beta [m; m] [a0; a1] ext inj = Ok ((ids, W), (idsT, T)) /\
  (forall f i E, (f < length ids)%nat -> (i < length ids)%nat -> nstate_energy es (nth f ids []) E -> nstate_energy es (nth i ids []) E -> W f i = W i f) /\
  (forall f i E, (f < length idsT)%nat -> (i < length idsT)%nat -> nstate_energy es (nth f idsT []) E -> nstate_energy es (nth i idsT []) E -> T f i = - T i f) /\
  ((exists E, forall x, In x idsT -> nstate_energy es x E) -> stationary (length ids) W (fun _ => 1) /\ current (length idsT) T (fun _ => 1) = 0).
Proof. exact co_degenerate. Qed.
Print Assumptions C100_equilibrium.

(** The two states of C99_example without bias at temperature 1. *)
Definition level_es : espace RRing := one_two [unit_vec 4 0; unit_vec 4 1] [0; 1] 10.
Lemma level_solved : nsolved 2 level_es.
Proof. apply one_two_solved; [cbn; lia|reflexivity|apply unit_cols4]. Qed.
Lemma level_cross f i z X : (f < 2)%nat -> (i < 2)%nat -> cross 2 level_es 1 [1; 1] [1; 1] f i z X -> X = (/ (10 - nth f [0; 1] 0 - z)) ^ 2.
Proof.
  intros Hf Hi (T00 & T01 & T10 & T11 & A & B & C & D & ->).
  apply one_two_order in A, B, C, D; try (cbn; lia); try reflexivity; try apply unit_cols4. rewrite A, B, C, D. unfold Rdiv.
  destruct f as [|[|f]]; [| |lia]; (destruct i as [|[|i]]; [| |lia]); cbn [unit_vec seq map nth Nat.eqb]; ring.
Qed.
Lemma level_total d f i l : co_elements 2 level_es (Some 1%nat) None None = Ok d -> In (([1; f], [1; i])%nat, l) d -> (f < 2)%nat -> (i < 2)%nat ->
  co_total napproximate [[1; 1]; [1; 1]] 1 [0; 0] l = Ok (4 * (Gfun 1 (nth f [0; 1] 0 - nth i [0; 1] 0) * (/ (10 - nth f [0; 1] 0 - 1 / 2 * (nth f [0; 1] 0 - nth i [0; 1] 0))) ^ 2)).
Proof.
  intros E H Hf Hi. assert (HI : In ([1]%nat, us st1 [unit_vec 4 0; unit_vec 4 1] [0; 1]) level_es) by now left.
  assert (G : forall a b, (a < 2)%nat -> (b < 2)%nat -> co_gamma napproximate [[1; 1]; [1; 1]] 1 [0; 0] l (a, b) = Ok (Gfun 1 (nth f [0; 1] 0 - nth i [0; 1] 0) * (/ (10 - nth f [0; 1] 0 - 1 / 2 * (nth f [0; 1] 0 - nth i [0; 1] 0))) ^ 2)).
  { intros a b Ha Hb. assert (N1 : forall k, (k < 2)%nat -> nth_error [[1; 1]; [1; 1]] k = Some [1; 1] /\ nth_error [0; 0] k = Some 0) by (intros [|[|k]] Hk; [split; reflexivity|split; reflexivity|lia]).
    destruct (N1 a Ha) as [Aa Ma]. destruct (N1 b Hb) as [Ab Mb].
    destruct (C100_rate 2 level_es (Some 1%nat) 1 None d f i l [[1; 1]; [1; 1]] a b [1; 1] [1; 1] 1 [0; 0] 0 0 _ level_solved eq_refl ltac:(discriminate) (one_two_links _ _ _) E H HI Aa Ab eq_refl eq_refl Ma Mb) as (X & CX & _ & _ & ->).
    assert (EN : forall k, energy (us st1 [unit_vec 4 0; unit_vec 4 1] [0; 1]) k = nth k [0; 1] 0) by reflexivity.
    apply level_cross in CX; [|assumption|assumption]. rewrite CX, !EN. cbn [fold_right].
    
    generalize (nth f [0; 1] 0) (nth i [0; 1] 0). intros x y. replace (x - y - 0 + 0) with (x - y) by ring. replace (x - y + (0 + (0 + 0))) with (x - y) by ring. reflexivity. }
  unfold co_total. cbn [foldM]. rewrite !G by lia. cbn [bind]. f_equal. ring.
Qed.
Lemma level_ids (ids : list label) : StronglySorted before ids -> (forall x, In x ids <-> x = [1; 0]%nat \/ x = [1; 1]%nat) -> ids = [[1; 0]; [1; 1]]%nat.
Proof.
  intros S IN. apply sorted_same; auto.
  - constructor; [constructor; [constructor|constructor]|]. constructor; [|constructor]. apply before_eq, before_lt. lia.
  - intros x. rewrite IN. cbn. intuition congruence.
Qed.
Lemma level_state f : is_state level_es 1 f <-> (f < 2)%nat.
Proof. split; [intros (s & [H|[H|[]]] & L); [injection H as <-; exact L|discriminate H]|intros L; eexists; split; [now left|exact L]]. Qed.
Example C100_example : exists d W T, co_elements 2 level_es (Some 1%nat) None None = Ok d /\
  cotnl_matrices napproximate d 1 [0; 0] [[1; 1]; [1; 1]] 0 1 = Ok (([[1; 0]; [1; 1]]%nat, W), ([[1; 0]; [1; 1]]%nat, T)) /\
  rate_matrix 2 W /\ W 1%nat 0%nat = 4 * Gfun 1 1 / (17 / 2) ^ 2 /\ W 0%nat 1%nat = 4 * Gfun 1 (-1) / (21 / 2) ^ 2.
Proof.
  destruct (co_elements_full 2 level_es (Some 1%nat) 1 None level_solved eq_refl ltac:(discriminate) (one_two_links _ _ _)) as (d & E & _).
  destruct (C100_matrices 2 level_es (Some 1%nat) 1 None d [1; 1] [1; 1] 1 0 0 0%nat 1%nat level_solved eq_refl ltac:(discriminate) (one_two_links _ _ _) E eq_refl eq_refl ltac:(lra) ltac:(lia) ltac:(lia)) as (ids & W & idsT & T & EM & S & ST & IT & IW & RM & WE & _).
  assert (HT : forall x, In x idsT <-> x = [1; 0]%nat \/ x = [1; 1]%nat).
  { intros x. rewrite IT. split; [intros (_ & f & -> & L); apply level_state in L; destruct f as [|[|f]]; [now left|now right|lia]|].
    intros [->| ->]; (split; [exact one_linked|]); [exists 0%nat|exists 1%nat]; (split; [reflexivity|]); apply level_state; lia. }
  assert (HW : forall x, In x ids <-> x = [1; 0]%nat \/ x = [1; 1]%nat).
  { intros x. rewrite IW, HT. split; [tauto|]. intros [->| ->]; (split; [auto|]); [exists [1; 1]%nat|exists [1; 0]%nat]; (split; [apply HT; auto|discriminate]). }
  rewrite (level_ids ids S HW) in *. rewrite (level_ids idsT ST HT) in *. exists d, W, T. split; [exact E|]. split; [exact EM|]. split; [exact RM|].
  destruct (WE 1%nat 0%nat ltac:(cbn; lia) ltac:(cbn; lia) ltac:(lia)) as (l & H & EW). destruct (WE 0%nat 1%nat ltac:(cbn; lia) ltac:(cbn; lia) ltac:(lia)) as (l' & H' & EW'). cbn [nth] in H, H'.
  assert (Q := level_total d 1 0 l E H ltac:(lia) ltac:(lia)). assert (Q' := level_total d 0 1 l' E H' ltac:(lia) ltac:(lia)). rewrite Q in EW. rewrite Q' in EW'. injection EW as <-. injection EW' as <-. cbn [nth].
  replace (1 - 0) with 1 by ring. replace (0 - 1) with (-1) by ring. split; field.
Qed.
Lemma Gfun_one : Gfun 1 1 = exp (-1) * Gfun 1 (-1) /\ 0 < Gfun 1 1.
Proof.
  assert (T : 1 / 10 ^ 18 <= 1) by (rewrite <- (Rinv_1) at 2; unfold Rdiv; rewrite Rmult_1_l; apply Rinv_le_contravar; [lra|apply pow_R1_Rle; lra]).
  assert (B : 1 < 10 ^ 3) by lra.
  assert (F1 : Gfun 1 1 = 1 / (exp 1 - 1)).
  { unfold Gfun. replace (1 * Rabs 1) with 1 by (rewrite Rabs_R1; ring). destruct (Rltb 1 (1 / 10 ^ 18)) eqn:Q; [apply Rltb_spec in Q; lra|]. destruct (Rltb (10 ^ 3) (1 * 1)) eqn:Q'; [apply Rltb_spec in Q'; lra|]. rewrite Rmult_1_l. reflexivity. }
  assert (F2 : Gfun 1 (-1) = -1 / (exp (-1) - 1)).
  { unfold Gfun. replace (1 * Rabs (-1)) with 1 by (rewrite Rabs_left by lra; ring). destruct (Rltb 1 (1 / 10 ^ 18)) eqn:Q; [apply Rltb_spec in Q; lra|]. destruct (Rltb (10 ^ 3) (1 * -1)) eqn:Q'; [apply Rltb_spec in Q'; lra|]. rewrite Rmult_1_l. reflexivity. }
  rewrite F1, F2. assert (P : exp (-1) * exp 1 = 1) by (rewrite <- exp_plus; replace (-1 + 1) with 0 by ring; apply exp_0).
  pose proof (exp_ineq1 1 ltac:(lra)). pose proof (exp_pos (-1)). assert (N1 : exp (-1) - 1 <> 0) by (intros Q; assert (exp (-1) = 1) by lra; rewrite H1 in P; lra). split.
  - apply (Rmult_eq_reg_r ((exp 1 - 1) * (exp (-1) - 1))); [|apply Rmult_integral_contrapositive_currified; lra]. field_simplify; [|lra|lra]. lra.
  - apply Rdiv_lt_0_compat; lra.
Qed.
(** Without bias the thermal distribution is not stationary. *)
Theorem C100_gibbs_refuted : ~ (forall n es No N egs d a0 a1 beta m ext inj ids W idsT T E, nsolved n es -> chosen es No N -> (No = None -> egs <> None) -> links_stored n es N -> co_elements n es No egs None = Ok d ->
  length a0 = n -> length a1 = n -> 0 < beta -> (ext < 2)%nat -> (inj < 2)%nat -> (forall id x, nstate_energy es id x -> E id = x) ->
  cotnl_matrices napproximate d beta [m; m] [a0; a1] ext inj = Ok ((ids, W), (idsT, T)) -> stationary (length ids) W (fun k => exp (- beta * E (nth k ids [])))).
Proof.
  intros HH. destruct C100_example as (d & W & T & E & EM & [CO _] & W10 & W01). set (EE := fun id : label => match id with [1; 1]%nat => 1 | [2; _]%nat => 10 | _ => 0 end).
  assert (ST := HH 2%nat level_es (Some 1%nat) 1%nat None d [1; 1] [1; 1] 1 0 0%nat 1%nat [[1; 0]; [1; 1]]%nat W [[1; 0]; [1; 1]]%nat T EE level_solved eq_refl ltac:(discriminate) (one_two_links _ _ _) E eq_refl eq_refl ltac:(lra) ltac:(lia) ltac:(lia)).
  assert (HE : forall id x, nstate_energy level_es id x -> EE id = x).
  { intros id x (N & k & s & -> & [H|[H|[]]] & Hk & ->); injection H as <- <-; cbn in Hk; [destruct k as [|[|k]]; [| |lia]|assert (k = 0)%nat by lia; subst k]; reflexivity. }
  specialize (ST HE EM 1%nat ltac:(cbn; lia)). cbn [length] in ST. rewrite !rsum_S in ST. change (rsum 0 _) with 0 in ST. cbn [nth EE] in ST.
  specialize (CO 1%nat ltac:(lia)). rewrite !rsum_S in CO. change (rsum 0 _) with 0 in CO.
  assert (D : W 1%nat 1%nat = - W 0%nat 1%nat) by lra. rewrite D, W10, W01 in ST. replace (- (1) * 0) with 0 in ST by ring. rewrite exp_0 in ST. replace (- (1) * 1) with (-1) in ST by ring.
  destruct Gfun_one as [G P]. assert (Q : 4 * Gfun 1 1 / (17 / 2) ^ 2 = 4 * (exp (-1) * Gfun 1 (-1)) / (21 / 2) ^ 2) by lra. rewrite <- G in Q. lra.
Qed.
Print Assumptions C100_gibbs_refuted.

(** * C101: screening *)
Theorem C101_screen : forall n es No N egs e c, nsolved n es -> chosen es No N -> (No = None -> egs <> None) -> links_stored n es N -> reference es No egs e ->
  (exists lo, linked n N lo) -> (exists f i, in_range es N e c f i) ->
  exists d, co_elements n es No egs (Some c) = Ok d /\ NoDup (map fst d) /\
  (forall F I, (exists l, In ((F, I), l) d) <-> exists f i, F = [N; f] /\ I = [N; i] /\ in_range es N e c f i /\ connected n es N f i) /\
  (forall f i l, In (([N; f], [N; i]), l) d -> kept_entry n es N f i l).
Proof. exact co_screened. Qed.
Print Assumptions C101_screen.
Theorem C101_nothing : forall n es No N egs e c, nsolved n es -> chosen es No N -> (No = None -> egs <> None) -> links_stored n es N -> reference es No egs e ->
  ~ ((exists lo, linked n N lo) /\ exists f i, in_range es N e c f i) -> co_elements n es No egs (Some c) = Err StopIteration.
Proof. exact co_nothing. Qed.
Print Assumptions C101_nothing.
Theorem C101_no_reference : forall n es N c, nsolved n es -> links_stored n es N -> (exists lo, linked n N lo) -> 0 < c -> co_elements n es (Some N) None (Some c) = Err TypeError.
Proof. exact co_no_reference. Qed.
Print Assumptions C101_no_reference.
(** Rates of the entries that stay: those of the intermediate states that stay. *)
Theorem C101_rate : forall n es No N egs e c d f i l A ext inj ae ai beta mu me mi S, nsolved n es -> chosen es No N -> (No = None -> egs <> None) -> links_stored n es N -> reference es No egs e ->
  co_elements n es No egs (Some c) = Ok d -> In (([N; f], [N; i]), l) d -> In ([N], S) es ->
  nth_error A ext = Some ae -> nth_error A inj = Some ai -> length ae = n -> length ai = n -> nth_error mu ext = Some me -> nth_error mu inj = Some mi ->
  exists X, kept_cross n es N ae ai f i (1 / 2 * (energy S f - energy S i + fold_right Rplus 0 mu)) X /\
  co_gamma napproximate A beta mu l (ext, inj) = Ok (Gfun beta (energy S f - energy S i - me + mi) * X).
Proof.
  intros n es No N egs e c d f i l A ext inj ae ai beta mu me mi S HS HC HG LK HR HD H HI Ee Ei Le Li Me Mi.
  destruct (co_ok_range n es No N egs e c d HS HC HG LK HR HD) as [K R].
  destruct (co_screened n es No N egs e c HS HC HG LK HR K R) as (d' & E & _ & _ & KE). rewrite HD in E. injection E as <-.
  exact (kept_gamma n es N f i l A ext inj ae ai beta mu me mi S HS HI (KE _ _ _ H) Ee Ei Le Li Me Mi).
Qed.
Print Assumptions C101_rate.
(** What is left of the amplitude vanishes for the entries that were dropped. *)
Theorem C101_dropped : forall n es N f i sp ae ai z T, nsolved n es -> (fst sp < 2)%nat -> (snd sp < 2)%nat -> ~ connected n es N f i -> kept_order n es N (fst sp) (snd sp) ae ai f i z T -> T = 0.
Proof. exact unconnected_zero. Qed.
Print Assumptions C101_dropped.

(** Within 1/2 of the ground state there is only the ground state. *)
Lemma level_weight s' s f i : (s' < 2)%nat -> (s < 2)%nat -> weight_more 2 s' s (us st1 [unit_vec 4 0; unit_vec 4 1] [0; 1]) (xs st2 0 10) f i 0 =
  (match s' with 0%nat => - nth 1 (nth f [unit_vec 4 0; unit_vec 4 1] []) 0 + nth 0 (nth f [unit_vec 4 0; unit_vec 4 1] []) 0 | _ => 0 end) *
  (match s with 0%nat => - nth 1 (nth i [unit_vec 4 0; unit_vec 4 1] []) 0 + nth 0 (nth i [unit_vec 4 0; unit_vec 4 1] []) 0 | _ => 0 end).
Proof.
  intros A B. unfold weight_more. rewrite (coupled_adj 2 s' OpC). cbn [opp_op]. rewrite !us_coupled by assumption. unfold ones. cbn [repeat]. change (nth 0 [1; 1] 0) with 1. change (nth 1 [1; 1] 0) with 1.
  destruct s' as [|s']; destruct s as [|s]; ring.
Qed.
Lemma tiny10 : 1 / 10 ^ 10 < 1.
Proof. assert (1 < 10 ^ 10) by (apply Rlt_pow_R1; [lra|lia]). unfold Rdiv. rewrite Rmult_1_l, <- Rinv_1. apply Rinv_lt_contravar; lra. Qed.
Lemma tiny10_pos : 0 < 1 / 10 ^ 10.
Proof. apply Rdiv_lt_0_compat; [lra|]. apply pow_lt. lra. Qed.
Example C101_example : exists l, co_elements 2 level_es (Some 1%nat) (Some 0) (Some (1 / 2)) = Ok [(([1; 0], [1; 0])%nat, l)].
Proof.
  assert (RN : forall f i, in_range level_es 1 0 (1 / 2) f i <-> f = 0%nat /\ i = 0%nat).
  { intros f i. split.
    - intros (S & [H|[H|[]]] & Hf & Hi & _ & A & B); [|discriminate H]. injection H as <-. cbn in Hf, Hi. unfold energy in A, B. cbn [us s_vals] in A, B.
      destruct f as [|[|f]]; [| |lia]; (destruct i as [|[|i]]; [| |lia]); cbn [nth] in A, B; auto; [rewrite (Rabs_right (1 - 0)) in B by lra; lra|rewrite (Rabs_right (1 - 0)) in A by lra; lra|rewrite (Rabs_right (1 - 0)) in A by lra; lra].
    - intros [-> ->]. exists (us st1 [unit_vec 4 0; unit_vec 4 1] [0; 1]). split; [now left|]. unfold energy. cbn [us s_vals nth nvals length]. split; [cbn; lia|]. split; [cbn; lia|]. rewrite Rminus_0_r, Rabs_R0. lra. }
  destruct (co_screened 2 level_es (Some 1%nat) 1 (Some 0) 0 (1 / 2) level_solved eq_refl ltac:(discriminate) (one_two_links _ _ _) eq_refl one_linked) as (d & E & ND & KEY & _); [exists 0%nat, 0%nat; apply RN; auto|].
  assert (C : connected 2 level_es 1 0 0).
  { exists 0%nat, 0%nat, (us st1 [unit_vec 4 0; unit_vec 4 1] [0; 1]), 0%nat. split; [lia|]. split; [lia|]. split; [now left|]. left. exists (xs st2 0 10). split; [lia|]. split; [now right; left|]. split; [cbn; lia|].
    unfold heavy. rewrite level_weight by lia. cbn [nth unit_vec map seq Nat.eqb]. replace ((- 0 + 1) * (- 0 + 1)) with 1 by ring. rewrite Rabs_R1. apply tiny10. }
  destruct (proj2 (KEY [1; 0]%nat [1; 0]%nat)) as (l & H); [exists 0%nat, 0%nat; repeat split; auto; apply RN; auto|].
  exists l. rewrite E. f_equal. assert (AL : forall x, In x d -> fst x = ([1; 0], [1; 0])%nat).
  { intros [[F I] m] Hx. destruct (proj1 (KEY F I)) as (f & i & -> & -> & R & _); [eauto|]. apply RN in R. destruct R as [-> ->]. reflexivity. }
  destruct d as [|[k m] d]; [destruct H|]. assert (d = []) as ->.
  { destruct d as [|[k' m'] d]; [reflexivity|]. exfalso. cbn [map fst] in ND. inversion_clear ND as [|? ? NI _]. apply NI. left. pose proof (AL (k, m) (or_introl eq_refl)). pose proof (AL (k', m') (or_intror (or_introl eq_refl))). cbn in *. congruence. }
  destruct H as [H|[]]. injection H as -> ->. reflexivity.
Qed.
(** A state can be lost although it carries a current: the weights are taken with equal
    couplings of all sites.  The orbital (1, 1)/sqrt 2, coupled to both leads by site 0 only. *)
Theorem C101_harmless_refuted : ~ (forall n es N e c d d' f i l A ext inj beta mu x, nsolved n es -> links_stored n es N -> co_elements n es (Some N) (Some e) None = Ok d -> co_elements n es (Some N) (Some e) (Some c) = Ok d' ->
  in_range es N e c f i -> In (([N; f], [N; i]), l) d -> co_gamma napproximate A beta mu l (ext, inj) = Ok x -> x <> 0 -> exists l', In (([N; f], [N; i]), l') d').
Proof.
  intros HH. set (r := / sqrt 2). set (cols := [[r; r; 0; 0]]). set (es := one_two cols [0] 10).
  assert (RR : r * r = 1 / 2). { unfold r. rewrite <- Rinv_mult. rewrite sqrt_sqrt by lra. lra. }
  assert (LC : forall x, In x cols -> length x = 4%nat) by (intros x [<-|[]]; reflexivity).
  assert (HS : nsolved 2 es) by (apply one_two_solved; [cbn; lia|reflexivity|exact LC]).
  assert (HI : In ([1]%nat, us st1 cols [0]) es) by now left.
  assert (R0 : in_range es 1 0 1 0 0) by (exists (us st1 cols [0]); split; [exact HI|]; unfold energy; cbn [us s_vals nth]; split; [cbn; lia|]; split; [cbn; lia|]; rewrite Rminus_0_r, Rabs_R0; lra).
  destruct (co_elements_full 2 es (Some 1%nat) 1 (Some 0) HS eq_refl ltac:(discriminate) (one_two_links _ _ _)) as (d & E & _ & _ & KEY & ELS).
  destruct (co_screened 2 es (Some 1%nat) 1 (Some 0) 0 1 HS eq_refl ltac:(discriminate) (one_two_links _ _ _) eq_refl one_linked) as (d' & E' & _ & KEY' & _); [exists 0%nat, 0%nat; exact R0|].
  destruct (proj2 (KEY [1; 0]%nat [1; 0]%nat)) as (l & H).
  { split; [exact one_linked|]. exists 0%nat, 0%nat. repeat split; exists (us st1 cols [0]); (split; [exact HI|cbn; lia]). }
  destruct (gamma_value 2 es 1 0 0 l [[1; 0]; [1; 0]] 0 1 [1; 0] [1; 0] 1 [0; 0] 0 0 _ HS HI (ELS _ _ _ H) eq_refl eq_refl eq_refl eq_refl eq_refl eq_refl) as (X & CX & EX).
  assert (VX : X = 1 / 400).
  { destruct CX as (T00 & T01 & T10 & T11 & A & B & C & D & ->). apply one_two_order in A, B, C, D; try (cbn; lia); try reflexivity; try exact LC. cbn in A, B, C, D.
    rewrite A, B, C, D. unfold energy. cbn. replace (- (1) * r + 0 * r) with (- r) by ring. replace (- r * - r) with (r * r) by ring. rewrite RR. field. }
  assert (NZ : Gfun 1 (energy (us st1 cols [0]) 0 - energy (us st1 cols [0]) 0 - 0 + 0) * X <> 0).
  { rewrite VX. replace (energy (us st1 cols [0]) 0 - energy (us st1 cols [0]) 0 - 0 + 0) with 0 by ring. unfold Gfun. rewrite Rabs_R0, Rmult_0_r. destruct (Rltb 0 (1 / 10 ^ 18)) eqn:Q; [lra|].
    exfalso. assert (P : 0 < 1 / 10 ^ 18) by (apply Rdiv_lt_0_compat; [lra|]; apply pow_lt; lra). apply Rltb_spec in P. congruence. }
  destruct (HH 2%nat es 1%nat 0 1 d d' 0%nat 0%nat l [[1; 0]; [1; 0]] 0%nat 1%nat 1 [0; 0] _ HS (one_two_links _ _ _) E E' R0 H EX NZ) as (l' & H').
  destruct (proj1 (KEY' [1; 0]%nat [1; 0]%nat)) as (f & i & Qf & Qi & _ & (s' & s & S & k & A & B & HS1 & [(M & _ & HM & Hk & HV)|(L & L1 & _)])); [eauto| |lia]. injection Qf as <-. injection Qi as <-.
  assert (S = us st1 cols [0]) by (destruct HS1 as [Q|[Q|[]]]; [now injection Q|discriminate Q]). assert (M = xs st2 0 10) by (destruct HM as [Q|[Q|[]]]; [discriminate Q|now injection Q]). subst S M. cbn in Hk. assert (k = 0)%nat by lia. subst k.
  unfold heavy, weight_more in HV. rewrite (coupled_adj 2 s' OpC) in HV. cbn [opp_op] in HV. rewrite !us_coupled in HV by assumption. unfold ones, cols in HV. cbn [repeat nth] in HV. pose proof tiny10_pos.
  replace (- (1) * r + 1 * r) with 0 in HV by ring. destruct s' as [|s'], s as [|s]; rewrite ?Rmult_0_l, ?Rmult_0_r, Rabs_R0 in HV; lra.
Qed.
Print Assumptions C101_harmless_refuted.

(** * C102: numerical integration *)
Theorem C102_weight : forall beta me mi e, 0 < beta -> e <= me -> 1 / 2 <= window_code beta me mi e.
Proof. exact window_code_below. Qed.
Print Assumptions C102_weight.
Theorem C102_golden : forall beta me mi e, 0 < window beta me mi e <= exp (- beta * (mi - me)).
Proof. exact window_below. Qed.
Print Assumptions C102_golden.
(** The rate against a bias does not become small: as many grid intervals below [me] as fit
    into 4/beta count with half their value. *)
Theorem C102_lower : forall s A ext inj beta mu m_e mi c m x, 0 < beta -> nth_error mu ext = Some m_e -> nth_error mu inj = Some mi -> 0 <= c ->
  (forall e, In e (grid beta (m_e - n_dE s) mi) -> exists v, nsigma_call s e A ext inj = Ok v /\ 0 <= v /\ (e <= m_e - n_dE s -> c <= v)) ->
  m_e - n_dE s <= mi -> (m <= 199)%nat -> INR m * spacing beta (m_e - n_dE s) mi <= 4 / beta ->
  nintegrate s A ext inj beta mu = Ok x -> INR m * spacing beta (m_e - n_dE s) mi * c / 2 <= x.
Proof. exact nintegrate_lower. Qed.
Print Assumptions C102_lower.
(** With the product of the occupations it would be exponentially small. *)
Theorem C102_product : forall beta me mi v c, 0 < beta -> (forall e, In e (grid beta me mi) -> 0 <= v e <= c) ->
  trapz (map (fun e => v e * window beta me mi e) (grid beta me mi)) (grid beta me mi) <= (Rmax me mi - Rmin me mi + 8 / beta) * c * exp (- beta * (mi - me)).
Proof. exact product_upper. Qed.
Print Assumptions C102_product.
(** One path through a level at 1000 against a bias of 50 kT. *)
Definition far_sigma : nsigma := mknsigma (0, 0)%nat [mkpath Electron [[1]] [[1]] [1000] 0] 0.
Lemma far_call z : nsigma_call far_sigma z [[1]; [1]] 0 1 = Ok ((/ (1000 - z)) ^ 2).
Proof. unfold nsigma_call, far_sigma. cbn. f_equal. unfold rsum. cbn. ring. Qed.
Lemma far_grid e : In e (grid 1 0 50) -> -4 <= e <= 54.
Proof.
  unfold grid, linspace. intros H. apply in_map_iff in H. destruct H as (k & <- & Hk). apply in_seq in Hk. rewrite Rmin_left, Rmax_right by lra. change (200 - 1)%nat with 199%nat.
  assert (INR k <= INR 199) by (apply le_INR; lia). pose proof (pos_INR k). replace (INR 199) with 199 in * by (rewrite INR_IZR_INZ; reflexivity). lra.
Qed.
Example C102_example : exists x, nintegrate far_sigma [[1]; [1]] 0 1 1 [0; 50] = Ok x /\ 1 / 1004 ^ 2 <= x /\
  trapz (map (fun e => (/ (1000 - e)) ^ 2 * window 1 0 50 e) (grid 1 0 50)) (grid 1 0 50) <= exp (-50) / 10000.
Proof.
  destruct (nintegrate far_sigma [[1]; [1]] 0 1 1 [0; 50]) as [x|er] eqn:E.
  2:{ exfalso. revert E. unfold nintegrate, lead. cbn [nth_error bind]. rewrite (mapM_vals _ (fun e => (/ (1000 - e)) ^ 2 * window_code 1 (0 - n_dE far_sigma) 50 e)) by (intros; now rewrite far_call). discriminate. }
  exists x. split; [reflexivity|]. cbn [far_sigma n_dE] in *.
  assert (V : forall e, -4 <= e <= 54 -> 1 / 1004 ^ 2 <= (/ (1000 - e)) ^ 2 <= 1 / 900 ^ 2).
  { intros e He. split.
    - unfold Rdiv. rewrite Rmult_1_l. rewrite <- (pow_inv 1004). apply pow_incr. split; [left; apply Rinv_0_lt_compat; lra|]. apply Rinv_le_contravar; lra.
    - unfold Rdiv. rewrite Rmult_1_l. rewrite <- (pow_inv 900). apply pow_incr. split; [left; apply Rinv_0_lt_compat; lra|]. apply Rinv_le_contravar; lra. }
  assert (S0 : spacing 1 0 50 = 58 / 199) by (unfold spacing; rewrite Rmin_left, Rmax_right by lra; lra). split.
  - assert (G0 : forall e, In e (grid 1 (0 - 0) 50) -> -4 <= e <= 54) by (intros e He; apply far_grid; now rewrite Rminus_0_r in He).
    assert (B := nintegrate_lower far_sigma [[1]; [1]] 0 1 1 [0; 50] 0 50 (1 / 1004 ^ 2) 13 x ltac:(lra) eq_refl eq_refl). cbn [far_sigma n_dE] in B. rewrite !Rminus_0_r in *. rewrite S0 in B.
    replace (INR 13) with 13 in B by (cbn; lra). assert (P : 0 < 1 / 1004 ^ 2) by lra. specialize (B ltac:(lra)).
    assert (B' : 13 * (58 / 199) * (1 / 1004 ^ 2) / 2 <= x); [|lra]. apply B; [|lra|lia|lra|exact E].
    intros e He. exists ((/ (1000 - e)) ^ 2). split; [apply far_call|]. destruct (V e (G0 e He)). lra.
  - pose proof (product_upper 1 0 50 (fun e => (/ (1000 - e)) ^ 2) (1 / 900 ^ 2) ltac:(lra)) as B. rewrite Rmin_left, Rmax_right in B by lra. replace (- (1) * (50 - 0)) with (-50) in B by ring.
    eapply Rle_trans; [apply B|].
    + intros e He. destruct (V e (far_grid e He)). split; [|lra]. apply pow2_ge_0.
    + pose proof (exp_pos (-50)). lra.
Qed.
(** It is not the golden-rule integral on the grid. *)
Theorem C102_golden_rule_refuted : ~ (forall s A ext inj beta mu m_e mi v x, 0 < beta -> nth_error mu ext = Some m_e -> nth_error mu inj = Some mi ->
  (forall e, nsigma_call s e A ext inj = Ok (v e)) -> nintegrate s A ext inj beta mu = Ok x ->
  x = trapz (map (fun e => v e * window beta (m_e - n_dE s) mi e) (grid beta (m_e - n_dE s) mi)) (grid beta (m_e - n_dE s) mi)).
Proof.
  intros HH. destruct C102_example as (x & E & LO & HI). specialize (HH far_sigma [[1]; [1]] 0%nat 1%nat 1 [0; 50] 0 50 (fun e => (/ (1000 - e)) ^ 2) x ltac:(lra) eq_refl eq_refl far_call E).
  cbn [far_sigma n_dE] in HH. rewrite Rminus_0_r in HH. rewrite <- HH in HI.
  assert (X : exp (-25) <= 1 / 26). { replace (-25) with (- (25)) by ring. rewrite exp_Ropp. pose proof (exp_ineq1 25 ltac:(lra)). unfold Rdiv. rewrite Rmult_1_l. apply Rinv_le_contravar; lra. }
  assert (Y : exp (-50) <= 1 / 26 * (1 / 26)). { replace (-50) with (-25 + -25) by ring. rewrite exp_plus. pose proof (exp_pos (-25)). apply Rmult_le_compat; lra. }
  lra.
Qed.
Print Assumptions C102_golden_rule_refuted.
