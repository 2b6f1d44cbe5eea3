From Coq Require Import Reals List Arith NArith ZArith Bool Lia Lra Sorted.
From Verif Require Import Base RBase RLin CBase OperatorsSpec FockSpec SectorModel MatvecModel MatvecProofs EspaceModel ProjModel ProjSpec ProjFinalProofs
  GfModel GfSpec GfProofs RateModel RateSpec RateProofs RateActiveProofs TransModel TransSpec TransProofs TransBuildProofs TransFinalProofs
  CotModel CotSpec CotProofs CotBuildProofs.
Import ListNotations.
Local Open Scope R_scope.

(** * Calls outside the Hilbert space *)
Section Edge.
Variables (n : nat) (es : espace RRing) (egs : R).
Hypothesis Hn : (0 < n)%nat.
Hypothesis HS : co_solved n es egs.

Lemma flip_out si sj p q : one_of si -> one_of sj -> si <> sj -> count si p q = 0%nat \/ (n <= count sj p q)%nat -> channel n p q es (zsp (si, sj)) = Err AttributeError.
Proof.
  intros Oi Oj NE H. unfold channel, zsp. cbn [fst snd].
  assert (A : project_add (Z.of_nat si) (Z.of_nat sj) n p q es = Err OutOfHilbertError).
  { destruct (Nat.lt_ge_cases (count sj p q) n) as [L|L]; [|now apply (add_none n es)]. destruct H as [H|H]; [|lia].
    rewrite add_tail. destruct (cdg_sector n p q sj Oj L) as (a & b & M & -> & _). unfold bind at 1. change (fst (zz a b)) with (Z.of_nat a). change (snd (zz a b)) with (Z.of_nat b).
    rewrite c_none; [reflexivity|auto|]. destruct Oi as [-> | ->], Oj as [-> | ->]; cbn in *; try congruence; lia. }
  assert (B : project_sub (Z.of_nat sj) (Z.of_nat si) n p q es = Err OutOfHilbertError).
  { destruct (Nat.eq_dec (count si p q) 0) as [L|L]; [now apply (sub_none n es)|]. destruct H as [H|H]; [lia|].
    rewrite sub_tail. destruct (c_sector p q si Oi ltac:(lia)) as (a & b & M & -> & _). unfold bind at 1. change (fst (zz a b)) with (Z.of_nat a). change (snd (zz a b)) with (Z.of_nat b).
    rewrite cdg_none; [reflexivity|auto|]. destruct Oi as [-> | ->], Oj as [-> | ->]; cbn in *; try congruence; lia. }
  rewrite A, B. reflexivity.
Qed.
Lemma ground_reach p q : is_ground es egs p q -> co_reach n es egs p q.
Proof.
  intros G. pose proof G as (s & m & H & _). pose proof (co_sector_of n es egs HS _ _ _ H) as (A & B & _). split; auto. split; auto. exists p, q. split; auto. exists 0%Z. split; auto. cbn [fst snd]. f_equal; lia.
Qed.
Lemma flip_reach p q c : is_ground es egs p q -> In c spins -> forall a b, zz a b = zadd2 (zz p q) (delta c) -> (a <= n)%nat -> (b <= n)%nat -> co_reach n es egs a b.
Proof.
  intros G Hc a b E La Lb. split; auto. split; auto. exists p, q. split; auto. fold (zz p q) (zz a b). rewrite E.
  cbn in Hc. destruct Hc as [<-|[<-|[<-|[<-|[]]]]]; unfold delta, zadd2, spin_flip; cbn [fst snd]; [exists 0%Z|exists (-1)%Z|exists 1%Z|exists 0%Z]; (split; [auto|f_equal; lia]).
Qed.
Lemma channel_exists p q c a b : is_ground es egs p q -> In c spins -> zz a b = zadd2 (zz p q) (delta c) -> (a <= n)%nat -> (b <= n)%nat -> exists l, channel n p q es (zsp c) = Ok l.
Proof.
  intros G Hc E La Lb. pose proof HS as (_ & _ & REACH & _). destruct (REACH _ _ (ground_reach p q G)) as (I & HI). destruct (REACH a b (flip_reach p q c G Hc a b E La Lb)) as (F & HF).
  destruct (channel_ok n es egs Hn HS c p q a b I F Hc (ground_reach p q G) E HI HF) as (g & -> & _). eauto.
Qed.
Theorem direct_edge p q d : is_ground es egs p q ->
  ((p = 0 \/ p = n \/ q = 0 \/ q = n)%nat -> project_sector n p q es d ispin_all = Err AttributeError) /\
  ((0 < p < n)%nat -> (0 < q < n)%nat -> exists d', project_sector n p q es d ispin_all = Ok d').
Proof.
  intros G. pose proof (ground_reach p q G) as (Lp & Lq & _). unfold project_sector.
  change ispin_all with [zsp (0, 0)%nat; zsp (0, 1)%nat; zsp (1, 0)%nat; zsp (1, 1)%nat]. cbn [mapM].
  destruct (channel_exists p q (0, 0)%nat p q G ltac:(cbn; tauto) ltac:(unfold zz, zadd2, delta; cbn [fst snd]; f_equal; lia) Lp Lq) as (l1 & ->).
  destruct (channel_exists p q (1, 1)%nat p q G ltac:(cbn; tauto) ltac:(unfold zz, zadd2, delta; cbn [fst snd]; f_equal; lia) Lp Lq) as (l4 & ->). cbn [bind]. split.
  - intros H. destruct (Nat.eq_dec p 0) as [P|P]; [rewrite flip_out; [reflexivity|now left|now right|lia|now left]|].
    destruct (Nat.eq_dec q n) as [Q|Q]; [rewrite flip_out; [reflexivity|now left|now right|lia|right; cbn; lia]|].
    destruct (channel_exists p q (0, 1)%nat (p - 1) (q + 1) G ltac:(cbn; tauto) ltac:(unfold zz, zadd2, delta; cbn [fst snd]; f_equal; lia) ltac:(lia) ltac:(lia)) as (l2 & ->). cbn [bind].
    rewrite flip_out; [reflexivity|now right|now left|lia|]. cbn [count]. lia.
  - intros P Q.
    destruct (channel_exists p q (0, 1)%nat (p - 1) (q + 1) G ltac:(cbn; tauto) ltac:(unfold zz, zadd2, delta; cbn [fst snd]; f_equal; lia) ltac:(lia) ltac:(lia)) as (l2 & ->).
    destruct (channel_exists p q (1, 0)%nat (p + 1) (q - 1) G ltac:(cbn; tauto) ltac:(unfold zz, zadd2, delta; cbn [fst snd]; f_equal; lia) ltac:(lia) ltac:(lia)) as (l3 & ->).
    cbn [bind]. eauto.
Qed.
End Edge.

(** * Screening *)
Section Screen.
Variables (n : nat) (es : espace RRing) (egs : R).
Hypothesis Hn : (0 < n)%nat.
Hypothesis HS : co_solved n es egs.

Lemma co_eig_at id E : state_energy es id E -> eig_at es id = Ok E.
Proof.
  intros (p & q & k & s & -> & H & L & ->). unfold eig_at. rewrite (es_get_In _ _ _ (proj1 HS) H). cbn [bind]. unfold energy, nvals in *.
  change R with (car RRing) in *. rewrite (nth_error_nth' (s_vals RRing s) (0 : car RRing) L). reflexivity.
Qed.
Lemma path_energies op s1 s2 g : exact_path n es op s1 s2 g -> exists EF EI, state_energy es (c_F g) EF /\ state_energy es (c_I g) EI /\ c_dE g = EF - EI.
Proof.
  intros (p & q & i & pj & qj & p' & q' & f & I & J & F & A1 & A2 & A3 & A4 & A5 & A6 & A7 & A8 & A9 & A10 & A11 & A12 & A13 & A14).
  exists (energy F f), (energy I i). split; [exists p', q', f, F; auto|]. split; [exists p, q, i, I; auto|exact A14].
Qed.
Lemma sigma_energies F I sp s : exact_sigma n es F I sp s -> exists EF EI, state_energy es F EF /\ state_energy es I EI /\ c_dE (base s) = EF - EI.
Proof.
  destruct sp as [si sj]. intros (p & q & i & -> & H). destruct s as [e|h|e h]; cbn [base].
  - destruct H as (<- & EI & X & _). rewrite <- EI. exact (path_energies _ _ _ _ X).
  - destruct H as (<- & EI & X & _). rewrite <- EI. exact (path_energies _ _ _ _ X).
  - destruct H as (<- & EI & _ & _ & X & _). rewrite <- EI. exact (path_energies _ _ _ _ X).
Qed.
Definition okdict (d : list (key2 * list sigma)) : Prop := forall F I l, In ((F, I), l) d -> l <> [] /\ Forall2 (exact_sigma n es F I) (channels F I) l.

Lemma co_screen_spec d c : okdict d ->
  exists d', screen d egs es c = Ok d' /\ (NoDup (map fst d) -> NoDup (map fst d')) /\
  forall F I l, In ((F, I), l) d' <-> In ((F, I), l) d /\ near es egs c F /\ near es egs c I /\ exists EF EI, state_energy es F EF /\ state_energy es I EI /\ Rabs (EF - EI) < c.
Proof.
  intros H. unfold screen.
  match goal with |- context[foldM ?f d []] => set (body := f) end.
  assert (G : forall m acc, okdict m -> exists r, foldM body m acc = Ok (acc ++ r) /\
    (NoDup (map fst m) -> NoDup (map fst r)) /\ (forall F I l, In ((F, I), l) r <-> In ((F, I), l) m /\ near es egs c F /\ near es egs c I /\ exists EF EI, state_energy es F EF /\ state_energy es I EI /\ Rabs (EF - EI) < c)).
  { induction m as [|[[F I] l] m IH]; intros acc Hm; cbn [foldM].
    - exists []. rewrite app_nil_r. split; [reflexivity|]. split; auto. intros F I l. split; [intros []|intros [[] _]].
    - destruct (Hm F I l (or_introl eq_refl)) as [NE FA]. destruct FA as [|sp s sps l X FA]; [congruence|]. destruct (sigma_energies _ _ _ _ X) as (EF & EI & SF & SI & DE).
      assert (UF : forall E, state_energy es F E -> E = EF) by (intros E S; apply co_eig_at in S; pose proof (co_eig_at _ _ SF); congruence).
      assert (UI : forall E, state_energy es I E -> E = EI) by (intros E S; apply co_eig_at in S; pose proof (co_eig_at _ _ SI); congruence).
      assert (NF : near es egs c F <-> Rabs (EF - egs) < c) by (split; [intros (E & S & L); apply UF in S; now subst|intros L; exists EF; auto]).
      assert (NI : near es egs c I <-> Rabs (EI - egs) < c) by (split; [intros (E & S & L); apply UI in S; now subst|intros L; exists EI; auto]).
      assert (ND : (exists EF EI, state_energy es F EF /\ state_energy es I EI /\ Rabs (EF - EI) < c) <-> Rabs (EF - EI) < c).
      { split; [intros (x & y & A & B & L); apply UF in A; apply UI in B; now subst|intros L; exists EF, EI; auto]. }
      assert (Hm' : okdict m) by (intros F' I' l' Q; apply Hm; now right).
      assert (SKIP : ~ (near es egs c F /\ near es egs c I /\ exists EF EI, state_energy es F EF /\ state_energy es I EI /\ Rabs (EF - EI) < c) -> exists r, foldM body m acc = Ok (acc ++ r) /\
        (NoDup (map fst (((F, I), s :: l) :: m)) -> NoDup (map fst r)) /\ (forall F' I' l', In ((F', I'), l') r <-> In ((F', I'), l') (((F, I), s :: l) :: m) /\ near es egs c F' /\ near es egs c I' /\ exists EF EI, state_energy es F' EF /\ state_energy es I' EI /\ Rabs (EF - EI) < c)).
      { intros NOT. destruct (IH acc Hm') as (r & E & N & S). exists r. split; [exact E|]. split; [intros Q; inversion Q; auto|]. intros F' I' l'. rewrite S. cbn [In]. split; [tauto|].
        intros [[Q|Q] P]; [|tauto]. injection Q as <- <- <-. contradiction. }
      unfold body at 1. cbn [fst snd]. rewrite (co_eig_at _ _ SF), (co_eig_at _ _ SI), DE. cbn [bind].
      destruct (Rltb (Rabs (EF - EI)) c) eqn:L1; [apply Rltb_spec in L1|cbn [bind]; apply SKIP; rewrite ND; intros (_ & _ & Q); apply Rltb_spec in Q; congruence].
      destruct (Rltb (Rabs (EF - egs)) c) eqn:L2; [apply Rltb_spec in L2|cbn [bind]; apply SKIP; rewrite NF; intros (Q & _ & _); apply Rltb_spec in Q; congruence].
      destruct (Rltb (Rabs (EI - egs)) c) eqn:L3; [apply Rltb_spec in L3|cbn [bind]; apply SKIP; rewrite NI; intros (_ & Q & _); apply Rltb_spec in Q; congruence].
      cbn [bind]. destruct (IH (acc ++ [((F, I), s :: l)]) Hm') as (r & -> & N & S). exists (((F, I), s :: l) :: r). split; [now rewrite <- app_assoc|]. split.
      + cbn [map fst]. intros Q. inversion Q as [|? ? Q1 Q2]; subst. constructor; auto. intros Q3. apply Q1. apply in_map_iff in Q3. destruct Q3 as ([[F' I'] l'] & E & J). cbn [fst] in E. injection E as -> ->.
        apply S in J. destruct J as [J _]. apply in_map_iff. exists ((F, I), l'). auto.
      + intros F' I' l'. cbn [In]. rewrite S. split; [|tauto]. intros [Q|Q]; [injection Q as <- <- <-; rewrite NF, NI, ND; tauto|tauto]. }
  destruct (G d [] H) as (r & E & S). exists r. auto.
Qed.

Lemma built_ok d : build_transition_elements n egs es None = Ok d -> okdict d.
Proof.
  destruct (co_build_ok n es egs Hn HS) as (d0 & E & FU & _). destruct (co_build_spec n es egs Hn HS) as (d1 & E1 & _ & _ & B & _).
  rewrite E1. intros Q. injection Q as <-. rewrite E1 in E. injection E as <-. intros F I l H. split; [apply (proj2 FU (F, I)); auto|]. now apply B.
Qed.
Lemma build_cut c d : build_transition_elements n egs es None = Ok d -> build_transition_elements n egs es (Some c) = screen d egs es c.
Proof.
  unfold build_transition_elements. destruct (ground_sectors egs es) as [ngs|]; cbn [bind]; [|discriminate].
  match goal with |- context[foldM ?f ?l []] => destruct (foldM f l []) as [d0|]; cbn [bind]; [|discriminate] end. intros E. now injection E as ->.
Qed.
Theorem co_build_screen c : exists d d', build_transition_elements n egs es None = Ok d /\ build_transition_elements n egs es (Some c) = Ok d' /\
  forall F I l, In ((F, I), l) d' <-> In ((F, I), l) d /\ near es egs c F /\ near es egs c I /\ exists EF EI, state_energy es F EF /\ state_energy es I EI /\ Rabs (EF - EI) < c.
Proof.
  destruct (co_build_spec n es egs Hn HS) as (d & E & _). destruct (co_screen_spec d c (built_ok d E)) as (d' & E' & _ & S). exists d, d'. split; [exact E|]. split; [|exact S]. now rewrite (build_cut c d E).
Qed.
Theorem co_paired cutoff d : build_transition_elements n egs es cutoff = Ok d -> NoDup (map fst d) /\ okdict d /\ (forall F I, In (F, I) (map fst d) -> In (I, F) (map fst d)).
Proof.
  destruct (co_build_spec n es egs Hn HS) as (d0 & E & N & _ & _ & P). destruct cutoff as [c|].
  - rewrite (build_cut c d0 E). destruct (co_screen_spec d0 c (built_ok d0 E)) as (d' & E' & N' & S). rewrite E'. intros Q. injection Q as <-. split; auto. split.
    + intros F I l H. apply S in H. now apply (built_ok d0 E).
    + intros F I H. apply in_map_iff in H. destruct H as ([k l] & Q & H). cbn [fst] in Q. subst k. apply S in H. destruct H as (H & A & B & x & y & C & D & L).
      assert (K : In (I, F) (map fst d0)) by (apply P; apply in_map_iff; exists ((F, I), l); auto). apply in_map_iff in K. destruct K as ([k l'] & Q & K). cbn [fst] in Q. subst k.
      apply in_map_iff. exists ((I, F), l'). split; auto. apply S. split; auto. split; auto. split; auto. exists y, x. split; auto. split; auto. now rewrite Rabs_minus_sym.
  - rewrite E. intros Q. injection Q as <-. split; auto. split; auto. now apply built_ok.
Qed.
End Screen.

(** * Detailed balance *)
Lemma Gfun_balance beta x : 0 < beta -> regular beta x -> Gfun beta x = exp (- beta * x) * Gfun beta (- x).
Proof.
  intros Hb [-> |[L U]].
  - rewrite Ropp_0, Rmult_0_r, exp_0, Rmult_1_l. reflexivity.
  - unfold Gfun. rewrite Rabs_Ropp.
    destruct (Rltb (beta * Rabs x) (1 / 10 ^ 18)) eqn:A; [apply Rltb_spec in A; lra|].
    assert (UX : beta * x <= beta * Rabs x) by (apply Rmult_le_compat_l; [lra|apply Rle_abs]).
    assert (UY : beta * - x <= beta * Rabs x) by (apply Rmult_le_compat_l; [lra|rewrite <- Rabs_Ropp; apply Rle_abs]).
    destruct (Rltb (10 ^ 3) (beta * x)) eqn:B; [apply Rltb_spec in B; lra|]. destruct (Rltb (10 ^ 3) (beta * - x)) eqn:C; [apply Rltb_spec in C; lra|].
    assert (NZ : beta * x <> 0).
    { intros Z. assert (x = 0) by (apply Rmult_integral in Z; destruct Z; lra). subst x. rewrite Rabs_R0, Rmult_0_r in L. assert (0 < 1 / 10 ^ 18) by (apply Rdiv_lt_0_compat; [lra|apply pow_lt; lra]). lra. }
    replace (beta * - x) with (- (beta * x)) by ring. replace (- beta * x) with (- (beta * x)) by ring. set (t := beta * x) in *. rewrite exp_Ropp. pose proof (exp_pos t) as EP.
    assert (NE : exp t - 1 <> 0) by (intros Q; apply NZ, exp_inv; rewrite exp_0; lra).
    field. split; [lra|]. split; [lra|]. intros Q. apply NE. lra.
Qed.

Section Balance.
Variables (n : nat) (es : espace RRing).
Hypothesis ND : NoDup (map fst es).

Lemma uniq k s s' : In (k, s) es -> In (k, s') es -> s = s'.
Proof. intros A B. pose proof (es_get_In _ _ _ ND A). pose proof (es_get_In _ _ _ ND B). congruence. Qed.
Lemma moved_det op s p q a b a' b' : moved op s p q a b -> moved op s p q a' b' -> a = a' /\ b = b'.
Proof. destruct s as [|[|s]]; cbn; [| |tauto]; intros [A B] [A' B']; destruct op; cbn in *; lia. Qed.
Lemma moved_opp op s p q a b : moved op s p q a b -> moved (opp_op op) s a b p q.
Proof. destruct s as [|[|s]]; cbn; [| |tauto]; intros [A B]; destruct op; cbn in *; lia. Qed.
Lemma amp_adj op s J I j i pos : amp n op s J I j i pos = amp n (opp_op op) s I J i j pos.
Proof. unfold amp. now rewrite (bracket_adj RRing). Qed.
Lemma opp_opp op : opp_op (opp_op op) = op.
Proof. now destruct op. Qed.

(** The reversed path has the same value at the mirrored point. *)
Lemma call_sym op s1 s2 g g' z z' a b : exact_path n es op s1 s2 g -> exact_path n es op s2 s1 g' -> c_F g' = c_I g -> c_I g' = c_F g ->
  z - z' = side op * c_dE g -> gf2_call g z a b = gf2_call g' z' b a.
Proof.
  intros (p & q & i & pj & qj & p' & q' & f & I & J & F & A1 & A2 & A3 & A4 & A5 & A6 & A7 & A8 & A9 & A10 & A11 & A12 & A13 & A14)
    (r & s & k & rj & sj & r' & s' & l & I' & J' & F' & B1 & B2 & B3 & B4 & B5 & B6 & B7 & B8 & B9 & B10 & B11 & B12 & B13 & B14) E1 E2 Z.
  rewrite A1, B2 in E1. rewrite A2, B1 in E2. injection E1 as -> -> ->. injection E2 as -> -> ->.
  apply moved_opp in A10. rewrite opp_opp in A10. destruct (moved_det _ _ _ _ _ _ _ _ A10 B9) as [-> ->].
  pose proof (uniq _ _ _ A4 B6). pose proof (uniq _ _ _ A5 B5). pose proof (uniq _ _ _ A6 B4). subst I' J' F'.
  unfold gf2_call.
  assert (V1 : c_vF g = c_vI g'). { rewrite A12, B11. apply map_ext. intros j. apply map_ext. intros pos. rewrite amp_adj, opp_opp. reflexivity. }
  assert (V2 : c_vI g = c_vF g'). { rewrite A11, B12. apply map_ext. intros j. apply map_ext. intros pos. rewrite amp_adj. reflexivity. }
  rewrite V1, V2. destruct (mapM (dotv a) (c_vI g')) as [x|e1] eqn:X; cbn [bind].
  - destruct (mapM (dotv b) (c_vF g')) as [y|]; cbn [bind]; [|reflexivity]. f_equal. rewrite A13, B13, !map_length. apply rsum_ext. intros j Hj. rewrite seq_length in Hj.
    rewrite !(nth_indep (map _ _) 0 (side op * (energy J 0 - energy I i))) by (rewrite map_length, seq_length; lia). rewrite (map_nth (fun j => side op * (energy J j - energy I i))).
    rewrite (nth_indep (map _ _) _ (side op * (energy J 0 - energy F f))) by (rewrite map_length, seq_length; lia). rewrite (map_nth (fun j => side op * (energy J j - energy F f))).
    rewrite seq_nth by lia. cbn [plus]. rewrite A14 in Z. replace (z' - side op * (energy J j - energy F f)) with (z - side op * (energy J j - energy I i)) by lra. ring.
  - assert (e1 = ValueError).
    { revert X. generalize (c_vI g'). intros L. revert e1. induction L as [|v L IH]; intros e1; cbn [mapM]; [discriminate|]. unfold dotv at 1. destruct (_ =? _)%nat; cbn [bind]; [|congruence].
      destruct (mapM (dotv a) L); cbn [bind]; [discriminate|]. intros Q. apply IH. exact Q. }
    subst e1. destruct (mapM (dotv b) (c_vF g')) as [y|e2] eqn:Y; cbn [bind]; [reflexivity|]. f_equal. symmetry. revert Y. generalize (c_vF g'). intros L. revert e2. induction L as [|v L IH]; intros e1; cbn [mapM]; [discriminate|]. unfold dotv at 1. destruct (_ =? _)%nat; cbn [bind]; [|congruence].
      destruct (mapM (dotv b) L); cbn [bind]; [discriminate|]. intros Q. apply IH. exact Q.
Qed.
Lemma path_dE op s1 s2 g g' : exact_path n es op s1 s2 g -> exact_path n es op s2 s1 g' -> c_F g' = c_I g -> c_I g' = c_F g -> c_dE g' = - c_dE g.
Proof.
  intros (p & q & i & pj & qj & p' & q' & f & I & J & F & A1 & A2 & A3 & A4 & A5 & A6 & A7 & A8 & A9 & A10 & A11 & A12 & A13 & A14)
    (r & s & k & rj & sj & r' & s' & l & I' & J' & F' & B1 & B2 & B3 & B4 & B5 & B6 & B7 & B8 & B9 & B10 & B11 & B12 & B13 & B14) E1 E2.
  rewrite A1, B2 in E1. rewrite A2, B1 in E2. injection E1 as -> -> ->. injection E2 as -> -> ->.
  pose proof (uniq _ _ _ A4 B6). pose proof (uniq _ _ _ A6 B4). subst. rewrite A14, B14. ring.
Qed.

(** Which parts are present is the same backwards. *)
Lemma path_counts op s1 s2 g p q i p' q' f : exact_path n es op s1 s2 g -> c_I g = [p; q; i] -> c_F g = [p'; q'; f] ->
  exists a b, moved op s1 p q a b /\ moved (opp_op op) s2 a b p' q'.
Proof.
  intros (r & s & k & rj & sj & r' & s' & l & I' & J' & F' & B1 & B2 & B3 & B4 & B5 & B6 & B7 & B8 & B9 & B10 & _) E1 E2. rewrite B1 in E1. rewrite B2 in E2.
  injection E1 as -> -> ->. injection E2 as -> -> ->. eauto.
Qed.
Definition same_shape (s s' : sigma) : Prop := match s, s' with SE _, SE _ | SH _, SH _ | SEH _ _, SEH _ _ => True | _, _ => False end.
Hypothesis SECS : forall p q s, In ([p; q], s) es -> is_sector RRing n p q s.
Lemma path_legal op s1 s2 g : exact_path n es op s1 s2 g -> exists p q i a b p' q' f, c_I g = [p; q; i] /\ c_F g = [p'; q'; f] /\ moved op s1 p q a b /\ moved (opp_op op) s2 a b p' q' /\
  (p <= n)%nat /\ (q <= n)%nat /\ (a <= n)%nat /\ (b <= n)%nat /\ (p' <= n)%nat /\ (q' <= n)%nat.
Proof.
  intros (r & s & k & rj & sj & r' & s' & l & I' & J' & F' & B1 & B2 & B3 & B4 & B5 & B6 & B7 & B8 & B9 & B10 & _).
  pose proof (SECS _ _ _ B4) as (? & ? & _). pose proof (SECS _ _ _ B5) as (? & ? & _). pose proof (SECS _ _ _ B6) as (? & ? & _).
  exists r, s, k, rj, sj, r', s', l. repeat split; auto.
Qed.
Lemma moved_one op s p q a b : moved op s p q a b -> one_of s.
Proof. destruct s as [|[|s]]; cbn; unfold one_of; auto. tauto. Qed.
Lemma path_facts op s1 s2 g p q i p' q' f : exact_path n es op s1 s2 g -> c_I g = [p; q; i] -> c_F g = [p'; q'; f] ->
  one_of s1 /\ one_of s2 /\ (p <= n)%nat /\ (q <= n)%nat /\ (p' <= n)%nat /\ (q' <= n)%nat /\
  match op with
  | OpCdg => (count s1 p q < n)%nat /\ (count s2 p' q' < n)%nat /\ (s1 = s2 -> p = p' /\ q = q') /\ (s1 <> s2 -> (0 < count s2 p q)%nat /\ (0 < count s1 p' q')%nat)
  | OpC => (0 < count s1 p q)%nat /\ (0 < count s2 p' q')%nat /\ (s1 = s2 -> p = p' /\ q = q') /\ (s1 <> s2 -> (count s2 p q < n)%nat /\ (count s1 p' q' < n)%nat)
  end.
Proof.
  intros X E1 E2. apply path_legal in X. destruct X as (r & s & k & a & b & r' & s' & l & Q1 & Q2 & M1 & M2 & L). rewrite Q1 in E1. rewrite Q2 in E2. injection E1 as -> -> ->. injection E2 as -> -> ->.
  pose proof (moved_one _ _ _ _ _ _ M1) as O1. pose proof (moved_one _ _ _ _ _ _ M2) as O2. split; [exact O1|]. split; [exact O2|].
  destruct O1 as [-> | ->], O2 as [-> | ->], op; cbn in *; lia.
Qed.
Lemma shape_rev F I si sj s s' : (0 < n)%nat -> exact_sigma n es F I (si, sj) s -> exact_sigma n es I F (sj, si) s' -> same_shape s s'.
Proof.
  intros Hn (p & q & i & EI & H) (p' & q' & f & EF & H'). subst F I.
  assert (NP : forall s1 s2 (m : nat), one_of s1 -> one_of s2 -> s1 = s2 \/ s1 <> s2) by (intros; lia).
  destruct s as [e|h|e h], s' as [e'|h'|e' h']; cbn [same_shape]; auto; exfalso.
  - destruct H as (Q1 & Q2 & X & C & D), H' as (Q1' & Q2' & X' & C' & D').
    pose proof (path_facts _ _ _ _ _ _ _ _ _ _ X Q2 Q1) as (O1 & O2 & FX). pose proof (path_facts _ _ _ _ _ _ _ _ _ _ X' Q2' Q1') as (_ & _ & FX').
    destruct O1 as [-> | ->], O2 as [-> | ->]; cbn [count] in *; lia.
  - destruct H as (Q1 & Q2 & X & C & D), H' as (_ & _ & Q1' & Q2' & _ & X').
    pose proof (path_facts _ _ _ _ _ _ _ _ _ _ X Q2 Q1) as (O1 & O2 & FX). pose proof (path_facts _ _ _ _ _ _ _ _ _ _ X' Q2' Q1') as (_ & _ & FX').
    destruct O1 as [-> | ->], O2 as [-> | ->]; cbn [count] in *; lia.
  - destruct H as (Q1 & Q2 & X & C & D), H' as (Q1' & Q2' & X' & C' & D').
    pose proof (path_facts _ _ _ _ _ _ _ _ _ _ X Q2 Q1) as (O1 & O2 & FX). pose proof (path_facts _ _ _ _ _ _ _ _ _ _ X' Q2' Q1') as (_ & _ & FX').
    destruct O1 as [-> | ->], O2 as [-> | ->]; cbn [count] in *; lia.
  - destruct H as (Q1 & Q2 & X & C & D), H' as (Q1' & Q2' & _ & _ & X' & _).
    pose proof (path_facts _ _ _ _ _ _ _ _ _ _ X Q2 Q1) as (O1 & O2 & FX). pose proof (path_facts _ _ _ _ _ _ _ _ _ _ X' Q2' Q1') as (_ & _ & FX').
    destruct O1 as [-> | ->], O2 as [-> | ->]; cbn [count] in *; lia.
  - destruct H as (_ & _ & Q1 & Q2 & _ & X), H' as (Q1' & Q2' & X' & C' & D').
    pose proof (path_facts _ _ _ _ _ _ _ _ _ _ X Q2 Q1) as (O1 & O2 & FX). pose proof (path_facts _ _ _ _ _ _ _ _ _ _ X' Q2' Q1') as (_ & _ & FX').
    destruct O1 as [-> | ->], O2 as [-> | ->]; cbn [count] in *; lia.
  - destruct H as (Q1 & Q2 & _ & _ & X & _), H' as (Q1' & Q2' & X' & C' & D').
    pose proof (path_facts _ _ _ _ _ _ _ _ _ _ X Q2 Q1) as (O1 & O2 & FX). pose proof (path_facts _ _ _ _ _ _ _ _ _ _ X' Q2' Q1') as (_ & _ & FX').
    destruct O1 as [-> | ->], O2 as [-> | ->]; cbn [count] in *; lia.
Qed.

(** Detailed balance of one process. *)
Theorem sigma_balance F I si sj s s' A ext inj beta mu me mi x : (0 < n)%nat -> exact_sigma n es F I (si, sj) s -> exact_sigma n es I F (sj, si) s' ->
  c_dE (base s) = 0 \/ electron_first s -> 0 < beta -> nth_error mu ext = Some me -> nth_error mu inj = Some mi -> regular beta (c_dE (base s) - me + mi) ->
  approximate s A ext inj beta mu = Ok x ->
  exists y, approximate s' A inj ext beta mu = Ok y /\ x = exp (- beta * (c_dE (base s) - me + mi)) * y.
Proof.
  intros Hn X X' HE Hb ME MI RG. pose proof (shape_rev _ _ _ _ _ _ Hn X X') as SH.
  assert (C : c_dE (base s') = - c_dE (base s) /\ sigma_call s (1 / 2 * (c_dE (base s) + fold_right Rplus 0 mu)) A ext inj = sigma_call s' (1 / 2 * (c_dE (base s') + fold_right Rplus 0 mu)) A inj ext).
  { destruct X as (p & q & i & -> & H), X' as (p' & q' & f & -> & H'). destruct s as [e|h|e h], s' as [e'|h'|e' h']; cbn [same_shape] in SH; try contradiction; cbn [base] in *; unfold sigma_call, lead.
    - destruct H as (Q1 & Q2 & X & _), H' as (Q1' & Q2' & X' & _).
      pose proof (path_dE _ _ _ _ _ X X' ltac:(congruence) ltac:(congruence)) as DE. split; [exact DE|].
      destruct (nth_error A ext) as [a|], (nth_error A inj) as [b|]; cbn [bind]; try reflexivity.
      rewrite (call_sym OpCdg sj si e e' _ (1 / 2 * (c_dE e' + fold_right Rplus 0 mu)) b a X X') by (try congruence; rewrite DE; cbn [side]; lra). reflexivity.
    - destruct HE as [Z|(e & Q)]; [|discriminate]. destruct H as (Q1 & Q2 & X & _), H' as (Q1' & Q2' & X' & _).
      pose proof (path_dE _ _ _ _ _ X X' ltac:(congruence) ltac:(congruence)) as DE. split; [exact DE|].
      destruct (nth_error A ext) as [a|], (nth_error A inj) as [b|]; cbn [bind]; try reflexivity.
      rewrite (call_sym OpC si sj h h' _ (1 / 2 * (c_dE h' + fold_right Rplus 0 mu)) a b X X') by (try congruence; rewrite DE, Z; cbn [side]; lra). reflexivity.
    - destruct HE as [Z|(e0 & Q)]; [|discriminate]. destruct H as (Q1 & Q2 & Q3 & Q4 & X & Y), H' as (Q1' & Q2' & Q3' & Q4' & X' & Y').
      pose proof (path_dE _ _ _ _ _ X X' ltac:(congruence) ltac:(congruence)) as DE. split; [exact DE|].
      destruct (nth_error A ext) as [a|], (nth_error A inj) as [b|]; cbn [bind]; try reflexivity.
      assert (DH : c_dE h = c_dE e).
      { destruct (path_energies _ _ _ _ _ _ X) as (x1 & x2 & S1 & S2 & ->). destruct (path_energies _ _ _ _ _ _ Y) as (y1 & y2 & T1 & T2 & ->). rewrite Q1 in S1. rewrite Q2 in S2. rewrite Q3 in T1. rewrite Q4 in T2.
        assert (U : forall id u v, state_energy es id u -> state_energy es id v -> u = v).
        { intros id u v (a1 & a2 & a3 & a4 & -> & a6 & a7 & ->) (b1 & b2 & b3 & b4 & E & b6 & b7 & ->). injection E as <- <- <-. now rewrite (uniq _ _ _ a6 b6). }
        rewrite (U _ _ _ S1 T1), (U _ _ _ S2 T2). reflexivity. }
      rewrite (call_sym OpCdg sj si e e' _ (1 / 2 * (c_dE e' + fold_right Rplus 0 mu)) b a X X') by (try congruence; rewrite DE; cbn [side]; lra).
      rewrite (call_sym OpC si sj h h' _ (1 / 2 * (c_dE e' + fold_right Rplus 0 mu)) a b Y Y') by (try congruence; rewrite DH, DE, Z; cbn [side]; lra). reflexivity. }
  destruct C as [DE CE]. unfold approximate, lead. rewrite ME, MI. cbn [bind]. rewrite CE. destruct (sigma_call s' _ A inj ext) as [c|]; cbn [bind]; [|discriminate].
  intros Q. injection Q as <-. eexists. split; [reflexivity|]. rewrite DE. replace (- c_dE (base s) - mi + me) with (- (c_dE (base s) - me + mi)) by ring.
  rewrite (Gfun_balance beta _ Hb RG). ring.
Qed.

End Balance.

(** * Rates between states of equal energy *)
Lemma channels_rev p q i p' q' f : channels [p; q; i] [p'; q'; f] = map (fun c => (snd c, fst c)) (channels [p'; q'; f] [p; q; i]).
Proof.
  unfold channels. destruct (Nat.eqb_spec p p'), (Nat.eqb_spec q q'), (Nat.eqb_spec p' p), (Nat.eqb_spec q' q); try lia; cbn [andb]; try reflexivity;
  destruct (Nat.eqb_spec (S p) p'), (Nat.eqb_spec q (S q')), (Nat.eqb_spec p (S p')), (Nat.eqb_spec (S q) q'); try lia; cbn [andb];
  destruct (Nat.eqb_spec (S p') p), (Nat.eqb_spec q' (S q)), (Nat.eqb_spec p' (S p)), (Nat.eqb_spec (S q') q); try lia; cbn [andb]; reflexivity.
Qed.

Section Rates.
Variables (n : nat) (es : espace RRing) (egs : R).
Hypothesis Hn : (0 < n)%nat.
Hypothesis HS : co_solved n es egs.
Let ND := proj1 HS.

Lemma state_energy_unique id u v : state_energy es id u -> state_energy es id v -> u = v.
Proof. intros A B. apply (co_eig_at n es egs HS) in A. apply (co_eig_at n es egs HS) in B. congruence. Qed.

Lemma call_scaled (c : R) (f g : sigma -> res R) l l' : Forall2 (fun s s' => (forall x, f s = Ok x -> exists y, g s' = Ok y /\ x = c * y) /\ (forall y, g s' = Ok y -> exists x, f s = Ok x)) l l' ->
  forall a b, a = c * b -> (forall x, foldM (fun acc s => do x <- f s; Ok (acc + x)) l a = Ok x -> exists y, foldM (fun acc s => do x <- g s; Ok (acc + x)) l' b = Ok y /\ x = c * y) /\
   (forall y, foldM (fun acc s => do x <- g s; Ok (acc + x)) l' b = Ok y -> exists x, foldM (fun acc s => do x <- f s; Ok (acc + x)) l a = Ok x).
Proof.
  induction 1 as [|s s' l l' [H1 H2] HF IH]; intros a b AB; cbn [foldM].
  - split; [intros x Q; injection Q as <-; eauto|eauto].
  - destruct (f s) as [x|] eqn:X; cbn [bind].
    + destruct (H1 x eq_refl) as (y & Y & E). rewrite Y. cbn [bind]. apply IH. rewrite AB, E. ring.
    + split; [discriminate|]. intros y. destruct (g s') as [z|]; cbn [bind]; [|discriminate]. destruct (H2 z eq_refl) as (x & Q). discriminate.
Qed.

Theorem rates_balance cutoff d F I E beta mu me mi A ext inj : build_transition_elements n egs es cutoff = Ok d -> state_energy es F E -> state_energy es I E ->
  0 < beta -> nth_error mu ext = Some me -> nth_error mu inj = Some mi -> regular beta (mi - me) ->
  rate_of (co_call A beta mu) d (ext, inj) F I = exp (- beta * (mi - me)) * rate_of (co_call A beta mu) d (inj, ext) I F.
Proof.
  intros HB EF EI Hb ME MI RG. destruct (co_paired n es egs Hn HS cutoff d HB) as (NDd & OK & SYM).
  destruct (in_dict_dec d F I) as [(l & Hl)|NO].
  - assert (K : In (I, F) (map fst d)) by (apply SYM; apply in_map_iff; exists ((F, I), l); auto). apply in_map_iff in K. destruct K as ([k l'] & Q & Hl'). cbn [fst] in Q. subst k.
    rewrite (rate_of_In _ _ _ _ _ _ NDd Hl), (rate_of_In _ _ _ _ _ _ NDd Hl'). destruct (OK _ _ _ Hl) as [_ FA]. destruct (OK _ _ _ Hl') as [_ FA'].
    assert (SH : exists p q i p' q' f, F = [p'; q'; f] /\ I = [p; q; i]).
    { destruct EF as (p' & q' & f & _ & -> & _), EI as (p & q & i & _ & -> & _). exists p, q, i, p', q', f. auto. }
    destruct SH as (p & q & i & p' & q' & f & -> & ->). rewrite channels_rev in FA'.
    assert (F2 : Forall2 (fun s s' => (forall x, approximate s A ext inj beta mu = Ok x -> exists y, approximate s' A inj ext beta mu = Ok y /\ x = exp (- beta * (mi - me)) * y) /\
        (forall y, approximate s' A inj ext beta mu = Ok y -> exists x, approximate s A ext inj beta mu = Ok x)) l l').
    { clear Hl Hl'. revert l' FA'. induction FA as [|[si sj] s cs l X FA IH]; intros l' FA'.
      - inversion FA'. constructor.
      - cbn [map fst snd] in FA'. inversion FA' as [|? s' ? l1 X' FA'' E1 E2]; subst. constructor.
        + assert (Z : c_dE (base s) = 0) by (destruct (sigma_energies n es _ _ _ _ X) as (u & v & U & V & ->); rewrite (state_energy_unique _ _ _ U EF), (state_energy_unique _ _ _ V EI); ring).
          assert (Z' : c_dE (base s') = 0) by (destruct (sigma_energies n es _ _ _ _ X') as (u & v & U & V & ->); rewrite (state_energy_unique _ _ _ U EI), (state_energy_unique _ _ _ V EF); ring).
          split.
          * intros x Hx. destruct (sigma_balance n es ND (co_sector_of n es egs HS) _ _ _ _ s s' A ext inj beta mu me mi x Hn X X' (or_introl Z) Hb ME MI) as (y & Y & E'); auto; [rewrite Z; replace (0 - me + mi) with (mi - me) by ring; exact RG|].
            exists y. split; auto. rewrite E', Z. f_equal. f_equal. ring.
          * intros y Hy. destruct (sigma_balance n es ND (co_sector_of n es egs HS) _ _ _ _ s' s A inj ext beta mu mi me y Hn X' X (or_introl Z') Hb MI ME) as (x & Y & _); auto; [|eauto].
            rewrite Z'. replace (0 - mi + me) with (- (mi - me)) by ring. destruct RG as [RG|RG]; [left; lra|right; now rewrite Rabs_Ropp].
        + apply IH; auto. }
    unfold co_call. cbn [fst snd].
    destruct (call_scaled (exp (- beta * (mi - me))) (fun s => approximate s A ext inj beta mu) (fun s => approximate s A inj ext beta mu) l l' F2 0 0 ltac:(ring)) as [C1 C2].
    destruct (foldM (fun acc s => do x <- approximate s A ext inj beta mu; Ok (acc + x)) l 0) as [x|].
    + destruct (C1 x eq_refl) as (y & -> & ->). reflexivity.
    + destruct (foldM (fun acc s => do x <- approximate s A inj ext beta mu; Ok (acc + x)) l' 0) as [y|]; [|ring]. destruct (C2 y eq_refl) as (x & Q). discriminate.
  - rewrite (rate_of_out _ _ _ _ _ NO), (rate_of_out _ _ _ I F); [ring|]. intros l Hl.
    assert (K : In (F, I) (map fst d)) by (apply SYM; apply in_map_iff; exists ((I, F), l); auto). apply in_map_iff in K. destruct K as ([k l'] & Q & Hl'). cbn [fst] in Q. subst k. exact (NO _ Hl').
Qed.

Theorem degenerate_rates cutoff d beta m A : build_transition_elements n egs es cutoff = Ok d -> 0 < beta -> exists ids W,
  co_rate_matrix d beta [m; m] A = Ok (length ids, W) /\ StronglySorted before ids /\ (forall x, In x ids <-> exists I l, In ((x, I), l) d) /\
  (forall f i E, (f < length ids)%nat -> (i < length ids)%nat -> state_energy es (nth f ids []) E -> state_energy es (nth i ids []) E -> W f i = W i f) /\
  ((exists E, forall x, In x ids -> state_energy es x E) -> stationary (length ids) W (fun _ => 1)).
Proof.
  intros HB Hb. destruct (co_paired n es egs Hn HS cutoff d HB) as (NDd & OK & SYM).
  destruct (rates_entries (list sigma) (nat * nat) (co_call A beta [m; m]) [(0, 0); (0, 1); (1, 0); (1, 1)]%nat d NDd) as (ids & W & EW & S & IN & OD & DG).
  exists ids, W. split; [exact EW|]. split; [exact S|]. split; [exact IN|].
  assert (SY : forall f i E, (f < length ids)%nat -> (i < length ids)%nat -> state_energy es (nth f ids []) E -> state_energy es (nth i ids []) E -> W f i = W i f).
  { intros f i E Hf Hi EF EI. destruct (Nat.eq_dec f i) as [->|N]; [reflexivity|]. rewrite !OD by auto. unfold lsum. cbn [bsum].
    assert (Q : forall a b, (a < 2)%nat -> (b < 2)%nat -> rate_of (co_call A beta [m; m]) d (a, b) (nth f ids []) (nth i ids []) = rate_of (co_call A beta [m; m]) d (b, a) (nth i ids []) (nth f ids [])).
    { intros a b Ha Hb'. rewrite (rates_balance cutoff d _ _ E beta [m; m] m m A a b HB EF EI Hb).
      - replace (- beta * (m - m)) with 0 by ring. rewrite exp_0. ring.
      - destruct a as [|[|]]; [reflexivity|reflexivity|lia].
      - destruct b as [|[|]]; [reflexivity|reflexivity|lia].
      - left. ring. }
    rewrite (Q 0 0)%nat, (Q 0 1)%nat, (Q 1 0)%nat, (Q 1 1)%nat by lia. match goal with |- ?x = ?y => change (@eq R x y) end. cbn [cadd c0 RRing]. ring. }
  split; [exact SY|]. intros (E & HE). apply balance_stationary; [exact (closed_conserves _ _ DG)|]. intros f i Hf Hi. rewrite !Rmult_1_r. apply (SY f i E); auto; apply HE, nth_In; auto.
Qed.
End Rates.
