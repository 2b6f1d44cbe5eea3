(** C114: sequential elements extracted from the second-order ones (sqtnl.py). *)
From Coq Require Import Reals List Arith NArith ZArith Bool Lia Lra Psatz Sorted Permutation.
From Verif Require Import Base RBase RLin OperatorsSpec FockSpec SectorModel LocalModel MatvecModel EspaceModel ProjModel ProjSpec
  GfModel GfSpec RateModel RateSpec RateProofs TransModel TransSpec TransProofs TransFinalProofs CotModel CotSpec TnlModel TnlSpec TnlProofs TnlMatProofs CnlSpec CnlProofs CnlRateProofs CnlScreenProofs TransProps TnlProps CnlProps
  ExtModel ExtSpec ExtProofs ExtBuildProofs ExtMatProofs.
Import ListNotations.
Local Open Scope R_scope.

(** The transitions are those of the direct construction, and for each of them every element
    of the direct construction occurs twice.  For the transitions with one electron less,
    half of them carry the label of the other spin. *)
Theorem C114_elements : forall n es No N egs, nsolved n es -> chosen es No N -> (No = None -> egs <> None) -> links_stored n es N ->
  exists d X, co_elements n es No egs None = Ok d /\ extract_sequential d = Ok X /\ NoDup (map fst X) /\ (forall F J, (exists l, In ((F, J), l) X) <-> considered n es N F J) /\
  forall F J l, In ((F, J), l) X -> exists g0 g1, exact_nel n es 0 g0 /\ exact_nel n es 1 g1 /\ g_F g0 = F /\ g_I g0 = J /\ g_F g1 = F /\ g_I g1 = J /\
    (upper N F J -> twice l g0 g1) /\ (~ upper N F J -> mixed l g0 g1).
Proof. exact extracted_full. Qed.
Print Assumptions C114_elements.
(** All rates and currents are twice those of the direct construction; the stationary
    distributions are the same. *)
Theorem C114_doubled : forall n es No N egs d0 X d, nsolved n es -> chosen es No N -> (No = None -> egs <> None) -> links_stored n es N ->
  co_elements n es No egs None = Ok d0 -> extract_sequential d0 = Ok X -> sq_elements n es No egs = Ok d ->
  forall a0 a1 beta m0 m1 inject, length a0 = n -> length a1 = n -> (inject < 2)%nat -> exists ids W T W' T',
  tnl_matrices d beta [m0; m1] [a0; a1] inject = Ok ((ids, W), (ids, T)) /\ tnl_matrices (unlabelled X) beta [m0; m1] [a0; a1] inject = Ok ((ids, W'), (ids, T')) /\
  (forall f i, (f < length ids)%nat -> (i < length ids)%nat -> W' f i = 2 * W f i /\ T' f i = 2 * T f i) /\
  (forall p, stationary (length ids) W' p <-> stationary (length ids) W p) /\ (forall p, current (length ids) T' p = 2 * current (length ids) T p).
Proof. exact extracted_matrices. Qed.
Print Assumptions C114_doubled.

(** Two sites with one electron. *)
Example C114_example : exists d0 X l g0 g1, co_elements 2 (two_es 5) (Some 1%nat) None None = Ok d0 /\ extract_sequential d0 = Ok X /\
  In (([2; 0], [1; 0])%nat, l) X /\ Permutation l [(0%nat, g0); (0%nat, g0); (1%nat, g1); (1%nat, g1)] /\ g_kind g0 = Electron /\ g_E g0 = 5 /\ g_v g0 = [-1; 0] /\ g_v g1 = [0; 0].
Proof.
  destruct (extracted_full 2 (two_es 5) (Some 1%nat) 1 None (two_solved 5) eq_refl ltac:(discriminate) (two_links 5)) as (d0 & X & E0 & EX & NX & KEY & ELS).
  destruct (proj2 (KEY [2; 0]%nat [1; 0]%nat)) as (l & H); [apply two_considered; auto|]. destruct (ELS _ _ _ H) as (g0 & g1 & X0 & X1 & F0 & I0 & F1 & I1 & T & _).
  destruct (sq_elements_full 2 (two_es 5) (Some 1%nat) 1 None (two_solved 5) eq_refl ltac:(discriminate) (two_links 5)) as (d & ED & _ & ND & DKEY & DELS & _).
  destruct (two_elements 5 (Some 1%nat) None d eq_refl ltac:(discriminate) ED) as (h0 & h1 & k0 & k1 & Hd & _ & K0 & _ & _ & _ & EE & _ & _ & _ & V0 & V1 & _).
  destruct (DELS _ _ _ Hd) as (p & q & Q & Y0 & Y1 & A1 & A2 & A3 & A4). injection Q as <- <-.
  assert (g0 = h0) as -> by (apply (exact_nel_fun 2 (two_es 5) 0 g0 h0 (two_solved 5) X0 Y0); congruence).
  assert (g1 = h1) as -> by (apply (exact_nel_fun 2 (two_es 5) 1 g1 h1 (two_solved 5) X1 Y1); congruence).
  exists d0, X, l, h0, h1. split; [exact E0|]. split; [exact EX|]. split; [exact H|]. split; [|auto]. apply T. exists 0%nat, 0%nat. left. auto.
Qed.
Theorem C114_rates_refuted : ~ (forall n es N egs d0 X d, nsolved n es -> links_stored n es N -> co_elements n es (Some N) egs None = Ok d0 -> extract_sequential d0 = Ok X -> sq_elements n es (Some N) egs = Ok d ->
  forall a0 a1 beta m0 m1 inject ids W T ids' W' T', length a0 = n -> length a1 = n -> (inject < 2)%nat -> tnl_matrices d beta [m0; m1] [a0; a1] inject = Ok ((ids, W), (ids, T)) ->
  tnl_matrices (unlabelled X) beta [m0; m1] [a0; a1] inject = Ok ((ids', W'), (ids', T')) -> forall f i, (f < length ids)%nat -> (i < length ids)%nat -> W' f i = W f i).
Proof.
  intros HH. destruct (extracted_full 2 (two_es 5) (Some 1%nat) 1 None (two_solved 5) eq_refl ltac:(discriminate) (two_links 5)) as (d0 & X & E0 & EX & _).
  destruct C97_example as (d & W & T & ED & EM & POS & _).
  destruct (extracted_matrices 2 (two_es 5) (Some 1%nat) 1 None d0 X d (two_solved 5) eq_refl ltac:(discriminate) (two_links 5) E0 EX ED [1; 1] [1; 3] 1 2 2 0%nat eq_refl eq_refl ltac:(lia)) as (ids & W1 & T1 & W' & T' & EM1 & EM' & DB & _).
  rewrite EM in EM1. assert (ids = [[1; 0]; [2; 0]]%nat) by congruence. assert (W1 = W) by congruence. assert (T1 = T) by congruence. subst ids W1 T1. cbn [length] in *. pose proof (HH 2%nat (two_es 5) 1%nat None d0 X d (two_solved 5) (two_links 5) E0 EX ED [1; 1] [1; 3] 1 2 2 0%nat _ _ _ _ _ _ eq_refl eq_refl ltac:(lia) EM EM' 1%nat 0%nat ltac:(cbn; lia) ltac:(cbn; lia)) as Q.
  destruct (DB 1%nat 0%nat ltac:(lia) ltac:(lia)) as [D _]. lra.
Qed.
Print Assumptions C114_rates_refuted.

(** One orbital with two electrons: the electron that leaves has spin down, but it is
    also listed with the label of spin up. *)
Definition full_es : espace RRing := [([1]%nat, xs [1; 2]%N 0 0); ([2]%nat, xs [3%N] 0 1)].
Lemma full_solved : nsolved 1 full_es.
Proof. split; [cbn; repeat constructor; cbn; intuition discriminate|]. intros key s [Q|[Q|[]]]; injection Q as <- <-; eexists; (split; [reflexivity|]); (apply xs_sector; [lia|lia|reflexivity]). Qed.
Lemma full_links : links_stored 1 full_es 2.
Proof. intros lo [[-> B]|[A B]]; [lia|]. assert (lo = 1%nat) by lia. subst lo. split; eexists; cbn; eauto. Qed.
Theorem C114_spins_refuted : ~ (forall n es N egs d X, nsolved n es -> links_stored n es N -> co_elements n es (Some N) egs None = Ok d -> extract_sequential d = Ok X ->
  forall F J l s g, In ((F, J), l) X -> In (s, g) l -> exact_nel n es s g).
Proof.
  intros HH. destruct (extracted_full 1 full_es (Some 2%nat) 2 None full_solved eq_refl ltac:(discriminate) full_links) as (d & X & E0 & EX & NX & KEY & ELS).
  destruct (proj2 (KEY [1; 0]%nat [2; 0]%nat)) as (l & H).
  { exists 1%nat, 0%nat, 0%nat. split; [right; split; lia|]. split; [exists (xs [3%N] 0 1); split; [cbn; auto|cbn; lia]|]. split; [exists (xs [1; 2]%N 0 0); split; [cbn; auto|cbn; lia]|]. right. auto. }
  destruct (ELS _ _ _ H) as (g0 & g1 & X0 & X1 & F0 & I0 & F1 & I1 & _ & M).
  assert (P : mixed l g0 g1) by (apply M; intros (a & b & [[Q _]|[Q _]]); discriminate Q).
  assert (I : In (0%nat, g1) l) by (apply (Permutation_in _ (Permutation_sym P)); cbn; auto).
  pose proof (HH 1%nat full_es 2%nat None d X full_solved full_links E0 EX _ _ _ _ _ H I) as X01.
  assert (g0 = g1) as -> by (apply (exact_nel_fun 1 full_es 0 g0 g1 full_solved X0 X01); congruence).
  assert (V : forall s, exact_nel 1 full_es s g1 -> g_v g1 = namps 1 s OpC (xs [1; 2]%N 0 0) (xs [3%N] 0 1) 0 0).
  { intros s (NI & i & NJ & j & I' & J & op & A1 & A2 & A3 & A4 & A5 & A6 & A7 & A8 & A9). rewrite A1 in I1. rewrite A2 in F1. injection F1 as -> ->. injection I1 as -> ->.
    destruct A3 as [A3|[A3|[]]]; [discriminate A3|injection A3 as <-]. destruct A4 as [A4|[A4|[]]]; [injection A4 as <-|discriminate A4]. destruct op; cbn in A7; [exact A8|lia]. }
  pose proof (eq_trans (eq_sym (V 0%nat X0)) (V 1%nat X1)) as Q. unfold namps in Q. cbn [seq map] in Q. rewrite !xs_amp in Q by (cbn; lia).
  repeat match type of Q with context[elem ?a ?b ?c ?d'] => let v := eval vm_compute in (elem a b c d') in replace (elem a b c d') with v in Q by (vm_compute; reflexivity) end.
  apply (f_equal (fun l => nth 0 l 0)) in Q. cbn in Q. lra.
Qed.
Print Assumptions C114_spins_refuted.

(** After the screening the rows of a path are numbered anew, and elements are attributed to
    the wrong states: here the state with energy 5 takes the place of that with energy 4. *)
Definition upM : sct RRing := us st2 [unit_vec 6 1; unit_vec 6 0] [4; 5].
Definition scr_es : espace RRing := [([1]%nat, xs st1 1 0); ([2]%nat, upM)].
Lemma scr_solved : nsolved 2 scr_es.
Proof.
  split; [cbn; repeat constructor; cbn; intuition discriminate|]. intros key s [Q|[Q|[]]]; injection Q as <- <-; eexists; (split; [reflexivity|]).
  - apply xs_sector; [lia|lia|reflexivity].
  - apply us_sector; try lia; try reflexivity; try (cbn; lia). intros x [<-|[<-|[]]]; reflexivity.
Qed.
Lemma scr_links : links_stored 2 scr_es 1.
Proof. intros lo L. rewrite (two_linked 1 lo L eq_refl). split; eexists; cbn; eauto. Qed.
Lemma scr_coupled s k : (s < 2)%nat -> (k < 2)%nat -> coupled 2 s OpCdg upM (xs st1 1 0) k 0 (ones 2) = match s, k with 0%nat, 1%nat => -1 | _, _ => 0 end.
Proof.
  intros Hs Hk. unfold coupled. rewrite !rsum_S. change (rsum 0 _) with 0.
  destruct k as [|[|k]]; [| |lia].
  - change (namp 2 OpCdg (0 + s * 2) upM (xs st1 1 0) 0 0) with (namp 2 OpCdg (0 + s * 2) (xs st2 1 4) (xs st1 1 0) 0 0). change (namp 2 OpCdg (1 + s * 2) upM (xs st1 1 0) 0 0) with (namp 2 OpCdg (1 + s * 2) (xs st2 1 4) (xs st1 1 0) 0 0).
    rewrite !xs_amp by (cbn; lia). destruct s as [|[|s]]; [| |lia];
    repeat match goal with |- context[elem ?a ?b ?c ?d'] => let v := eval vm_compute in (elem a b c d') in replace (elem a b c d') with v by (vm_compute; reflexivity) end; cbn; ring.
  - change (namp 2 OpCdg (0 + s * 2) upM (xs st1 1 0) 1 0) with (namp 2 OpCdg (0 + s * 2) (xs st2 0 4) (xs st1 1 0) 0 0). change (namp 2 OpCdg (1 + s * 2) upM (xs st1 1 0) 1 0) with (namp 2 OpCdg (1 + s * 2) (xs st2 0 4) (xs st1 1 0) 0 0).
    rewrite !xs_amp by (cbn; lia). destruct s as [|[|s]]; [| |lia];
    repeat match goal with |- context[elem ?a ?b ?c ?d'] => let v := eval vm_compute in (elem a b c d') in replace (elem a b c d') with v by (vm_compute; reflexivity) end; cbn; ring.
Qed.
Lemma scr_heavy s' s : (s' < 2)%nat -> (s < 2)%nat -> hv_more 2 s' s (xs st1 1 0) upM 0 0 = match s', s with 0%nat, 0%nat => [1%nat] | _, _ => [] end.
Proof.
  intros A B. unfold hv_more. change (nvals upM) with 2%nat. cbn [seq filter]. unfold weight_more. rewrite !(coupled_adj 2 s' OpC). cbn [opp_op]. rewrite !scr_coupled by lia.
  assert (Z : heavyb 0 = false) by (pose proof tiny10_pos; unfold heavyb; destruct (Rlt_dec _ _) as [Q|]; [rewrite Rabs_R0 in Q; lra|reflexivity]).
  assert (O : heavyb (-1 * -1) = true) by (pose proof tiny10; unfold heavyb; destruct (Rlt_dec _ _) as [|Q]; [reflexivity|]; exfalso; apply Q; rewrite Rabs_right by lra; lra).
  destruct s' as [|[|s']]; [| |lia]; (destruct s as [|[|s]]; [| |lia]); rewrite ?Rmult_0_l, ?Rmult_0_r, ?Z, ?O; reflexivity.
Qed.
Lemma scr_elements : co_elements 2 scr_es (Some 1%nat) (Some 0) (Some 1) = Ok [(([1; 0], [1; 0])%nat, [mknsigma (0, 0)%nat [part_more 2 0 0 (xs st1 1 0) upM 0 0 [1%nat]] (0 - 0)])].
Proof.
  assert (K : exists lo, linked 2 1 lo) by (exists 1%nat; left; split; [reflexivity|lia]).
  destruct (co_built 2 scr_es scr_solved 1 scr_links K) as (I & Mo & Lo & D & U & ED & ND & HD). unfold co_elements, choose. cbn [bind fst snd]. rewrite ED. cbn [bind].
  assert (EI : I = xs st1 1 0) by (destruct U as ([Q|[Q|[]]] & _); [now injection Q|discriminate Q]).
  assert (EMo : Mo = Some upM) by (destruct U as (_ & Q & _); destruct Mo as [M|]; [|lia]; destruct Q as [_ [Q|[Q|[]]]]; [discriminate Q|injection Q as <-; reflexivity]).
  assert (ELo : Lo = None) by (destruct U as (_ & _ & Q); destruct Lo as [L|]; [lia|reflexivity]). subst I Mo Lo.
  assert (D = [(([1; 0], [1; 0])%nat, map (sig_of 2 1 (xs st1 1 0) (Some upM) None 0 0) spin_pairs)]) as ->.
  { assert (IN : forall e, In e D -> e = (([1; 0], [1; 0])%nat, map (sig_of 2 1 (xs st1 1 0) (Some upM) None 0 0) spin_pairs)).
    { intros [k l] H. apply HD in H. destruct H as (f & i & A & B & -> & ->). cbn in A, B. assert (f = 0%nat) by lia. assert (i = 0%nat) by lia. subst. reflexivity. }
    assert (H : In (([1; 0], [1; 0])%nat, map (sig_of 2 1 (xs st1 1 0) (Some upM) None 0 0) spin_pairs) D) by (apply HD; exists 0%nat, 0%nat; cbn; auto).
    destruct D as [|x [|y D]]; [destruct H|rewrite (IN x (or_introl eq_refl)); reflexivity|]. exfalso. cbn [map] in ND. inversion_clear ND as [|? ? NI _]. apply NI. left.
    rewrite (IN x (or_introl eq_refl)), (IN y (or_intror (or_introl eq_refl))). reflexivity. }
  cbn [ksort fold_right kinsert]. unfold nscreen. cbn [filterM]. rewrite (keep_value 2 scr_es scr_solved 1 _ _ _ 0 0 0 1 U ltac:(cbn; lia) ltac:(cbn; lia)). cbn [bind].
  replace (Rltb (Rabs (energy (xs st1 1 0) 0 - energy (xs st1 1 0) 0)) 1) with true. 2: { symmetry. apply Rltb_spec. rewrite Rminus_eq_0, Rabs_R0. lra. }
  replace (Rltb (Rabs (energy (xs st1 1 0) 0 - 0)) 1) with true. 2: { symmetry. apply Rltb_spec. change (energy (xs st1 1 0) 0) with 0. rewrite Rminus_eq_0, Rabs_R0. lra. }
  cbn [andb]. unfold spin_pairs. cbn [map]. unfold sig_of at 1. cbn [n_gf2 gf2_of app]. change (length (nth 0 (p_vF (more_path 2 (fst (0, 0)%nat) (snd (0, 0)%nat) (xs st1 1 0) upM 0 0)) [])) with 2%nat.
  unfold screen_sigma, sig_of, gf2_of. cbn [mapM snd fst app n_gf2]. rewrite !screen_more. cbn [bind]. rewrite !scr_heavy by lia. reflexivity.
Qed.
Theorem C114_screened_refuted : ~ (forall n es N e c d X, nsolved n es -> links_stored n es N -> co_elements n es (Some N) (Some e) (Some c) = Ok d -> extract_sequential d = Ok X ->
  forall F J l s g x y, In ((F, J), l) X -> In (s, g) l -> g_kind g = Electron -> nstate_energy es F x -> nstate_energy es J y -> g_E g = x - y).
Proof.
  intros HH. pose proof (HH 2%nat scr_es 1%nat 0 1 _ _ scr_solved scr_links scr_elements eq_refl [2; 0]%nat [1; 0]%nat _ 0%nat _ 4 0 (or_introl eq_refl) (or_introl eq_refl) eq_refl) as Q. cbn [g_E] in Q.
  assert (E : energy upM 1 - energy (xs st1 1 0) 0 = 4 - 0).
  { apply Q; [exists 2%nat, 0%nat, upM|exists 1%nat, 0%nat, (xs st1 1 0)]; (split; [reflexivity|]); (split; [cbn; auto|]); split; try (cbn; lia); reflexivity. }
  unfold energy in E. cbn in E. lra.
Qed.
Print Assumptions C114_screened_refuted.
