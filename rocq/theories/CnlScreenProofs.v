(** Screening in cotnl.py. *)
From Coq Require Import Reals List Arith NArith ZArith Bool Lia Lra Sorted Permutation.
From Verif Require Import Base RBase RLin OperatorsSpec FockSpec LookupModel SectorModel LocalModel MatvecModel EspaceModel ProjModel ProjSpec
  GfModel GfSpec RateModel RateSpec RateProofs TransModel TransSpec TransProofs CotModel CotSpec CotBuildProofs CotFinalProofs TnlModel TnlSpec TnlProofs TnlMatProofs CnlSpec CnlProofs CnlRateProofs.
Import ListNotations.
Local Open Scope R_scope.

(** * Masks *)
Lemma combine_map {A B C} (f : A -> B) (g : A -> C) l : List.combine (map f l) (map g l) = map (fun a => (f a, g a)) l.
Proof. induction l as [|a l IH]; cbn; [reflexivity|]. now rewrite IH. Qed.
Lemma masked_map {A X} (b : A -> bool) (g : A -> X) l : masked (map b l) (map g l) = map g (filter b l).
Proof.
  unfold masked. rewrite combine_map. induction l as [|a l IH]; [reflexivity|]. cbn [map filter fst]. destruct (b a); cbn [map snd]; [f_equal|]; exact IH.
Qed.
Definition lsumR (l : list R) : R := fold_right Rplus 0 l.
Lemma rsum_list (m : nat) (f : nat -> R) : rsum m f = lsumR (map f (seq 0 m)).
Proof.
  induction m as [|m IH]; [reflexivity|]. rewrite rsum_S, seq_S, map_app, IH. unfold lsumR. rewrite fold_right_app. cbn [map fold_right].
  assert (G : forall l x, fold_right Rplus x l = fold_right Rplus 0 l + x) by (induction l as [|y l IHl]; intros x; cbn; [ring|]; rewrite IHl; ring). rewrite (G _ (f (0 + m)%nat + 0)), Nat.add_0_l. ring.
Qed.
Lemma lsumR_nth (l : list R) : lsumR l = rsum (length l) (fun k => nth k l 0).
Proof. induction l as [|x l IH]; [reflexivity|]. cbn [length]. rewrite rsum_S_l. cbn [nth lsumR fold_right]. f_equal. exact IH. Qed.
Lemma lsumR_filter (b : nat -> bool) (f : nat -> R) l : lsumR (map f (filter b l)) = lsumR (map (fun k => if b k then f k else 0) l).
Proof. unfold lsumR. induction l as [|a l IH]; [reflexivity|]. cbn [filter map fold_right]. destruct (b a); cbn [map fold_right]; rewrite IH; ring. Qed.
Lemma nth_map_list (g : nat -> R) l k : (k < length l)%nat -> nth k (map g l) 0 = g (nth k l 0%nat).
Proof. intros H. rewrite (nth_indep _ 0 (g 0%nat)) by (now rewrite map_length). apply map_nth. Qed.

Lemma rltb_heavy x : Rltb (1 / 10 ^ 10) (Rabs x) = heavyb x. Proof. reflexivity. Qed.
Lemma heavyb_spec x : heavyb x = true <-> heavy x. Proof. unfold heavyb, heavy. destruct (Rlt_dec _ _); split; congruence || lra. Qed.

(** A path with rows for the intermediate states [l]. *)
Definition part_more (n s' s : nat) (S M : sct RRing) (f i : nat) (l : list nat) : path :=
  mkpath Electron (map (fun j => namps n s' OpC S M f j) l) (map (fun j => namps n s OpCdg M S j i) l) (map (fun k => energy M k - energy S f) l) (energy S f - energy S i).
Definition part_less (n s' s : nat) (S L : sct RRing) (f i : nat) (l : list nat) : path :=
  mkpath Hole (map (fun j => namps n s OpCdg S L f j) l) (map (fun j => namps n s' OpC L S j i) l) (map (fun k => energy S i - energy L k) l) (energy S f - energy S i).
Lemma part_more_y n s' s S M f i l A ext inj ae ai : nth_error A ext = Some ae -> nth_error A inj = Some ai -> length ae = n -> length ai = n ->
  path_y (part_more n s' s S M f i l) A ext inj = Ok (map (fun k => coupled n s' OpC S M f k ai * coupled n s OpCdg M S k i ae) l).
Proof.
  intros Ee Ei Le Li. unfold path_y, lead. rewrite Ee, Ei. cbn [bind part_more p_kind p_vF p_vI p_E].
  rewrite (amp_rows_ok n) by (auto; intros; apply namps_length). cbn [bind]. rewrite (amp_rows_ok n) by (auto; intros; apply namps_length). cbn [bind]. f_equal. rewrite map_length.
  apply nth_ext with (d := 0) (d' := 0); [rewrite !map_length, seq_length; reflexivity|]. intros k Hk. rewrite map_length, seq_length in Hk.
  rewrite nth_map_seq by exact Hk. rewrite !nth_map_list by exact Hk. now rewrite !overlap_coupled by auto.
Qed.
Lemma part_less_y n s' s S L f i l A ext inj ae ai : nth_error A ext = Some ae -> nth_error A inj = Some ai -> length ae = n -> length ai = n ->
  path_y (part_less n s' s S L f i l) A ext inj = Ok (map (fun k => coupled n s OpCdg S L f k ae * coupled n s' OpC L S k i ai) l).
Proof.
  intros Ee Ei Le Li. unfold path_y, lead. rewrite Ee, Ei. cbn [bind part_less p_kind p_vF p_vI p_E].
  rewrite (amp_rows_ok n) by (auto; intros; apply namps_length). cbn [bind]. rewrite (amp_rows_ok n) by (auto; intros; apply namps_length). cbn [bind]. f_equal. rewrite map_length.
  apply nth_ext with (d := 0) (d' := 0); [rewrite !map_length, seq_length; reflexivity|]. intros k Hk. rewrite map_length, seq_length in Hk.
  rewrite nth_map_seq by exact Hk. rewrite !nth_map_list by exact Hk. now rewrite !overlap_coupled by auto.
Qed.
Lemma call_of_y p z A ext inj (c e : nat -> R) l : path_y p A ext inj = Ok (map c l) -> p_E p = map e l ->
  path_call p z A ext inj = Ok (lsumR (map (fun k => c k / (e k - z)) l)).
Proof.
  intros Y E. unfold path_call. rewrite Y. cbn [bind]. rewrite E, map_length. f_equal. rewrite lsumR_nth, map_length. apply rsum_ext. intros k Hk. now rewrite !nth_map_list by exact Hk.
Qed.
Definition hv_more n s' s S M f i := filter (fun k => heavyb (weight_more n s' s S M f i k)) (seq 0 (nvals M)).
Definition hv_less n s' s S L f i := filter (fun k => heavyb (weight_less n s' s S L f i k)) (seq 0 (nvals L)).
Lemma kept_more_call n s' s S M f i z A ext inj ae ai : nth_error A ext = Some ae -> nth_error A inj = Some ai -> length ae = n -> length ai = n ->
  path_call (part_more n s' s S M f i (hv_more n s' s S M f i)) z A ext inj = Ok (kept_more n s' s ae ai S M f i z).
Proof.
  intros Ee Ei Le Li. rewrite (call_of_y _ z A ext inj _ (fun k => energy M k - energy S f) _ (part_more_y n s' s S M f i _ A ext inj ae ai Ee Ei Le Li) eq_refl). f_equal. unfold hv_more, kept_more. rewrite rsum_list, lsumR_filter. reflexivity.
Qed.
Lemma kept_less_call n s' s S L f i z A ext inj ae ai : nth_error A ext = Some ae -> nth_error A inj = Some ai -> length ae = n -> length ai = n ->
  path_call (part_less n s' s S L f i (hv_less n s' s S L f i)) z A ext inj = Ok (kept_less n s' s ae ai S L f i z).
Proof.
  intros Ee Ei Le Li. rewrite (call_of_y _ z A ext inj _ (fun k => energy S i - energy L k) _ (part_less_y n s' s S L f i _ A ext inj ae ai Ee Ei Le Li) eq_refl). f_equal. unfold hv_less, kept_less. rewrite rsum_list, lsumR_filter. reflexivity.
Qed.
Lemma kept_more_none n s' s ae ai S M f i z : hv_more n s' s S M f i = [] -> kept_more n s' s ae ai S M f i z = 0.
Proof. intros H. unfold kept_more. rewrite rsum_list, <- (lsumR_filter (fun k => heavyb (weight_more n s' s S M f i k)) (fun k => coupled n s' OpC S M f k ai * coupled n s OpCdg M S k i ae / (energy M k - energy S f - z))). fold (hv_more n s' s S M f i). now rewrite H. Qed.
Lemma kept_less_none n s' s ae ai S L f i z : hv_less n s' s S L f i = [] -> kept_less n s' s ae ai S L f i z = 0.
Proof. intros H. unfold kept_less. rewrite rsum_list, <- (lsumR_filter (fun k => heavyb (weight_less n s' s S L f i k)) (fun k => coupled n s OpCdg S L f k ae * coupled n s' OpC L S k i ai / (energy S i - energy L k - z))). fold (hv_less n s' s S L f i). now rewrite H. Qed.
Lemma existsb_filter {X} (b : X -> bool) l : existsb (fun x => x) (map b l) = match filter b l with [] => false | _ => true end.
Proof. induction l as [|x l IH]; [reflexivity|]. cbn [map existsb filter]. destruct (b x); cbn [orb]; [reflexivity|exact IH]. Qed.
Lemma ones_length n : length (ones n) = n. Proof. apply repeat_length. Qed.
Lemma screen_more n s' s S M f i : screen_path n (more_path n s' s S M f i) =
  Ok (match hv_more n s' s S M f i with [] => None | l => Some (part_more n s' s S M f i l) end).
Proof.
  unfold screen_path. change (more_path n s' s S M f i) with (part_more n s' s S M f i (seq 0 (nvals M))).
  rewrite (part_more_y n s' s S M f i _ [repeat 1 n; repeat 1 n] 1 0 (ones n) (ones n) eq_refl eq_refl (ones_length n) (ones_length n)). cbn [bind]. rewrite map_map. f_equal.
  change (fun x : nat => Rltb (1 / 10 ^ 10) (Rabs (coupled n s' OpC S M f x (ones n) * coupled n s OpCdg M S x i (ones n)))) with (fun k => heavyb (weight_more n s' s S M f i k)).
  rewrite existsb_filter. cbn [part_more p_kind p_vF p_vI p_E p_dE]. rewrite !masked_map. fold (hv_more n s' s S M f i). destruct (hv_more n s' s S M f i); reflexivity.
Qed.
Lemma screen_less n s' s S L f i : screen_path n (less_path n s' s S L f i) =
  Ok (match hv_less n s' s S L f i with [] => None | l => Some (part_less n s' s S L f i l) end).
Proof.
  unfold screen_path. change (less_path n s' s S L f i) with (part_less n s' s S L f i (seq 0 (nvals L))).
  rewrite (part_less_y n s' s S L f i _ [repeat 1 n; repeat 1 n] 1 0 (ones n) (ones n) eq_refl eq_refl (ones_length n) (ones_length n)). cbn [bind]. rewrite map_map. f_equal.
  change (fun x : nat => Rltb (1 / 10 ^ 10) (Rabs (coupled n s OpCdg S L f x (ones n) * coupled n s' OpC L S x i (ones n)))) with (fun k => heavyb (weight_less n s' s S L f i k)).
  rewrite existsb_filter. cbn [part_less p_kind p_vF p_vI p_E p_dE]. rewrite !masked_map. fold (hv_less n s' s S L f i). destruct (hv_less n s' s S L f i); reflexivity.
Qed.

(** * One element *)
Definition kept_sig (n : nat) (es : espace RRing) (N f i : nat) (sp : nat * nat) (so : option nsigma) : Prop :=
  match so with
  | Some s => n_spins s = sp /\ (exists S, In ([N], S) es /\ n_dE s = energy S f - energy S i) /\
      forall A ext inj ae ai z, nth_error A ext = Some ae -> nth_error A inj = Some ai -> length ae = n -> length ai = n ->
        exists T, kept_order n es N (fst sp) (snd sp) ae ai f i z T /\ nsigma_call s z A ext inj = Ok (T ^ 2)
  | None => forall ae ai z, kept_order n es N (fst sp) (snd sp) ae ai f i z 0
  end.
Definition heavy_path (n : nat) (es : espace RRing) (N f i : nat) (sp : nat * nat) : Prop :=
  exists S k, In ([N], S) es /\
    ((exists M, (N + 1 < 2 * n)%nat /\ In ([N + 1]%nat, M) es /\ (k < nvals M)%nat /\ heavy (weight_more n (fst sp) (snd sp) S M f i k)) \/
     (exists L, (1 < N)%nat /\ In ([N - 1]%nat, L) es /\ (k < nvals L)%nat /\ heavy (weight_less n (fst sp) (snd sp) S L f i k))).
Lemma hv_In {g : nat -> R} {m} k : In k (filter (fun k => heavyb (g k)) (seq 0 m)) <-> (k < m)%nat /\ heavy (g k).
Proof. rewrite filter_In, in_seq, heavyb_spec. intuition lia. Qed.
Lemma hv_nil {g : nat -> R} {m} : filter (fun k => heavyb (g k)) (seq 0 m) = [] <-> forall k, (k < m)%nat -> ~ heavy (g k).
Proof.
  split.
  - intros H k Hk Hv. assert (I : In k (filter (fun k => heavyb (g k)) (seq 0 m))) by (apply hv_In; auto). rewrite H in I. destruct I.
  - intros H. destruct (filter _ _) as [|k l] eqn:E; [reflexivity|]. assert (I : In k (filter (fun k => heavyb (g k)) (seq 0 m))) by (rewrite E; now left). apply hv_In in I. destruct I as [A B]. exfalso. now apply (H k).
Qed.
Lemma screen_sig n es N I Mo Lo f i sp : nsolved n es -> used n es N I Mo Lo ->
  exists so, screen_sigma n (sig_of n N I Mo Lo f i sp) = Ok so /\ kept_sig n es N f i sp so /\ (so <> None <-> heavy_path n es N f i sp).
Proof.
  intros HS (HI & HM & HL). destruct sp as [s' s].
  set (po := match Mo with Some M => match hv_more n s' s I M f i with [] => None | l => Some (part_more n s' s I M f i l) end | None => None end).
  set (qo := match Lo with Some L => match hv_less n s' s I L f i with [] => None | l => Some (part_less n s' s I L f i l) end | None => None end).
  set (l := (match po with Some p => [p] | None => [] end) ++ match qo with Some p => [p] | None => [] end).
  assert (SC : screen_sigma n (sig_of n N I Mo Lo f i (s', s)) = Ok (match l with [] => None | l => Some (mknsigma (s', s) l (energy I f - energy I i)) end)).
  { unfold screen_sigma, sig_of, gf2_of. cbn [n_gf2 n_spins n_dE fst snd]. unfold l, po, qo. destruct Mo as [M|], Lo as [L|]; cbn [app mapM bind].
    - rewrite screen_more. cbn [bind]. rewrite screen_less. cbn [bind]. destruct (hv_more n s' s I M f i), (hv_less n s' s I L f i); reflexivity.
    - rewrite screen_more. cbn [bind]. destruct (hv_more n s' s I M f i); reflexivity.
    - rewrite screen_less. cbn [bind]. destruct (hv_less n s' s I L f i); reflexivity.
    - reflexivity. }
  set (kx := fun ae ai z => match Mo with Some M => kept_more n s' s ae ai I M f i z | None => 0 end). set (ky := fun ae ai z => match Lo with Some L => kept_less n s' s ae ai I L f i z | None => 0 end).
  assert (KO : forall ae ai z, kept_order n es N s' s ae ai f i z (kx ae ai z + ky ae ai z)).
  { intros ae ai z. exists I, (kx ae ai z), (ky ae ai z). split; [exact HI|]. split; [|split; [|reflexivity]].
    - unfold kx. destruct Mo as [M|]; [destruct HM as [HM1 HM2]; destruct (Nat.ltb_spec (N + 1) (2 * n)); [|lia]; exists M; auto|]. destruct (Nat.ltb_spec (N + 1) (2 * n)); [lia|reflexivity].
    - unfold ky. destruct Lo as [L|]; [destruct HL as [HL1 HL2]; destruct (Nat.ltb_spec 1 N); [|lia]; exists L; auto|]. destruct (Nat.ltb_spec 1 N); [lia|reflexivity]. }
  assert (P1 : match po with Some p => forall z A ext inj ae ai, nth_error A ext = Some ae -> nth_error A inj = Some ai -> length ae = n -> length ai = n -> path_call p z A ext inj = Ok (kx ae ai z) | None => forall ae ai z, kx ae ai z = 0 end).
  { unfold po, kx. destruct Mo as [M|]; [|reflexivity]. destruct (hv_more n s' s I M f i) as [|k0 l0] eqn:E; [intros; now apply kept_more_none|]. rewrite <- E. intros. now apply kept_more_call. }
  assert (P2 : match qo with Some p => forall z A ext inj ae ai, nth_error A ext = Some ae -> nth_error A inj = Some ai -> length ae = n -> length ai = n -> path_call p z A ext inj = Ok (ky ae ai z) | None => forall ae ai z, ky ae ai z = 0 end).
  { unfold qo, ky. destruct Lo as [L|]; [|reflexivity]. destruct (hv_less n s' s I L f i) as [|k0 l0] eqn:E; [intros; now apply kept_less_none|]. rewrite <- E. intros. now apply kept_less_call. }
  assert (H1 : po <> None <-> exists M k, (N + 1 < 2 * n)%nat /\ In ([N + 1]%nat, M) es /\ (k < nvals M)%nat /\ heavy (weight_more n s' s I M f i k)).
  { unfold po. destruct Mo as [M|]; [|split; [congruence|intros (M & k & A & _); lia]]. destruct HM as [HM1 HM2]. destruct (hv_more n s' s I M f i) as [|k0 l0] eqn:E; unfold hv_more in E.
    - split; [congruence|]. intros (M' & k & _ & HM' & Hk & Hv). pose proof (nst_unique n es HS _ _ _ HM2 HM'). subst M'. rewrite hv_nil in E. exfalso. now apply (E k).
    - split; [|discriminate]. intros _. assert (I0 : In k0 (filter (fun k => heavyb (weight_more n s' s I M f i k)) (seq 0 (nvals M)))) by (rewrite E; now left). apply hv_In in I0. exists M, k0. tauto. }
  assert (H2 : qo <> None <-> exists L k, (1 < N)%nat /\ In ([N - 1]%nat, L) es /\ (k < nvals L)%nat /\ heavy (weight_less n s' s I L f i k)).
  { unfold qo. destruct Lo as [L|]; [|split; [congruence|intros (M & k & A & _); lia]]. destruct HL as [HL1 HL2]. destruct (hv_less n s' s I L f i) as [|k0 l0] eqn:E; unfold hv_less in E.
    - split; [congruence|]. intros (M' & k & _ & HM' & Hk & Hv). pose proof (nst_unique n es HS _ _ _ HL2 HM'). subst M'. rewrite hv_nil in E. exfalso. now apply (E k).
    - split; [|discriminate]. intros _. assert (I0 : In k0 (filter (fun k => heavyb (weight_less n s' s I L f i k)) (seq 0 (nvals L)))) by (rewrite E; now left). apply hv_In in I0. exists L, k0. tauto. }
  eexists. split; [exact SC|]. clear SC. split.
  - unfold l, kept_sig. cbn [fst snd]. destruct po as [p|], qo as [q|]; cbn [app].
    + split; [reflexivity|]. split; [exists I; auto|]. intros A ext inj ae ai z Ee Ei Le Li. eexists. split; [apply KO|]. unfold nsigma_call. cbn [n_gf2 foldM]. rewrite (P1 z A ext inj ae ai), (P2 z A ext inj ae ai) by auto. cbn [bind]; f_equal; ring.
    + split; [reflexivity|]. split; [exists I; auto|]. intros A ext inj ae ai z Ee Ei Le Li. eexists. split; [apply KO|]. unfold nsigma_call. cbn [n_gf2 foldM]. rewrite (P1 z A ext inj ae ai), P2 by auto. cbn [bind]; f_equal; ring.
    + split; [reflexivity|]. split; [exists I; auto|]. intros A ext inj ae ai z Ee Ei Le Li. eexists. split; [apply KO|]. unfold nsigma_call. cbn [n_gf2 foldM]. rewrite (P2 z A ext inj ae ai), P1 by auto. cbn [bind]; f_equal; ring.
    + intros ae ai z. pose proof (KO ae ai z) as K. rewrite P1, P2, Rplus_0_r in K. exact K.
  - assert (Q : (match l with [] => None | _ => Some (mknsigma (s', s) l (energy I f - energy I i)) end) <> None <-> po <> None \/ qo <> None).
    { unfold l. destruct po, qo; cbn [app]; split; intros X; try congruence; try (left; discriminate); try (right; discriminate); try discriminate. destruct X; congruence. }
    eapply iff_trans; [exact Q|]. rewrite H1, H2. unfold heavy_path. cbn [fst snd]. split.
    + intros [(M & k & X)|(L & k & X)]; exists I, k; (split; [exact HI|]); [left; exists M|right; exists L]; exact X.
    + intros (S & k & HSI & X). pose proof (nst_unique n es HS _ _ _ HI HSI). subst S. destruct X as [(M & X)|(L & X)]; [left; exists M, k|right; exists L, k]; exact X.
Qed.

(** * The whole dictionary *)
Section Build.
Variables (n : nat) (es : espace RRing).
Hypothesis HS : nsolved n es.
Variable N : nat.
Hypothesis LK : links_stored n es N.
Theorem co_built : (exists lo, linked n N lo) -> exists I Mo Lo D, used n es N I Mo Lo /\ foldM (co_spins n N es) spin_pairs [] = Ok D /\ NoDup (map fst D) /\
  forall k l, In (k, l) D <-> exists f i, (f < nvals I)%nat /\ (i < nvals I)%nat /\ k = ([N; f], [N; i]) /\ l = map (sig_of n N I Mo Lo f i) spin_pairs.
Proof.
  intros K. destruct (used_exists n es N LK K) as (I & Mo & Lo & U).
  destruct (spins_foldM n es HS N LK I Mo Lo spin_pairs U K) with (done := @nil (nat * nat)) (D := @nil (key2 * list nsigma)) as (D & E & ND & V).
  - repeat constructor; cbn; lia.
  - constructor.
  - intros k. cbn. now left.
  - exists I, Mo, Lo, D. split; [exact U|]. split; [exact E|]. split; [exact ND|]. intros k l. rewrite <- (dpop_In _ _ _ ND). specialize (V k). split.
    + intros H. rewrite H in V. exact V.
    + intros (f & i & A & B & -> & ->). destruct (dpop D ([N; f], [N; i])) as [l'|].
      * destruct V as (f' & i' & _ & _ & Q & ->). injection Q as <- <-. reflexivity.
      * destruct V as [V|V]; [discriminate V|]. exfalso. now apply (V f i).
Qed.
Lemma filterM_ok {X} (f : X -> res bool) (b : X -> bool) l : (forall x, In x l -> f x = Ok (b x)) -> filterM f l = Ok (filter b l).
Proof. induction l as [|x l IH]; intros H; [reflexivity|]. cbn [filterM filter]. rewrite H by now left. cbn [bind]. rewrite IH by (intros; apply H; now right). reflexivity. Qed.
Lemma keep_value I Mo Lo f i e c : used n es N I Mo Lo -> (f < nvals I)%nat -> (i < nvals I)%nat ->
  keep_entry es (Some e) c (([N; f], [N; i]), map (sig_of n N I Mo Lo f i) spin_pairs) =
  Ok (Rltb (Rabs (energy I f - energy I i)) c && (Rltb (Rabs (energy I f - e)) c && Rltb (Rabs (energy I i - e)) c)).
Proof.
  intros U Hf Hi. unfold keep_entry. cbn [spin_pairs map snd fst sig_of n_dE]. destruct (Rltb (Rabs (energy I f - energy I i)) c); [|reflexivity]. cbn [andb].
  assert (X : forall k, (k < nvals I)%nat -> neig_at es [N; k] = Ok (energy I k)).
  { intros k Hk. unfold neig_at. rewrite (es_get_In _ _ _ (proj1 HS) (proj1 U)). cbn [bind]. unfold energy, nvals in *. destruct (nth_error (s_vals RRing I) k) eqn:E; [|apply nth_error_None in E; lia].
    f_equal. symmetry. now apply nth_error_nth. }
  unfold close_to. rewrite !X by auto. cbn [bind]. destruct (Rltb (Rabs (energy I f - e)) c); reflexivity.
Qed.
Lemma mapM_exists {A B} (f : A -> res B) (P : A -> B -> Prop) l : (forall a, In a l -> exists b, f a = Ok b /\ P a b) -> exists l', mapM f l = Ok l' /\ Forall2 P l l'.
Proof.
  induction l as [|a l IH]; intros H; [exists []; split; [reflexivity|constructor]|]. destruct (H a (or_introl eq_refl)) as (b & E & Hb). destruct IH as (l' & E' & F); [intros; apply H; now right|].
  exists (b :: l'). cbn [mapM]. rewrite E. cbn [bind]. rewrite E'. split; [reflexivity|now constructor].
Qed.
Lemma Forall2_back {A B} (P : A -> B -> Prop) l l' : Forall2 P l l' -> forall b, In b l' -> exists a, In a l /\ P a b.
Proof. induction 1 as [|x y l l' X F IH]; intros b [].  - subst. exists x. split; [now left|assumption]. - destruct (IH b) as (a & Ha & Q); [assumption|]. exists a. split; [now right|assumption]. Qed.
Definition full_keys : list (nat * nat) := [(0, 0); (0, 1); (1, 0); (1, 1)]%nat.
(** What is left of one entry. *)
Definition kept_entry (f i : nat) (l : list nsigma) : Prop := exists so, Forall2 (kept_sig n es N f i) full_keys so /\ l = somes so.
Theorem screened e c D I Mo Lo : used n es N I Mo Lo -> NoDup (map fst D) ->
  (forall k l, In (k, l) D <-> exists f i, (f < nvals I)%nat /\ (i < nvals I)%nat /\ k = ([N; f], [N; i]) /\ l = map (sig_of n N I Mo Lo f i) spin_pairs) -> (exists lo, linked n N lo) ->
  (exists f i, in_range es N e c f i) -> exists d', nscreen D (Some e) es c = Ok d' /\ NoDup (map fst d') /\
  (forall F J, (exists l, In ((F, J), l) d') <-> exists f i, F = [N; f] /\ J = [N; i] /\ in_range es N e c f i /\ connected n es N f i) /\
  (forall f i l, In (([N; f], [N; i]), l) d' -> kept_entry f i l).
Proof.
  intros U ND V K (f0 & i0 & R0). unfold nscreen.
  set (b := fun k : key2 => match fst k, snd k with [_; f], [_; i] => Rltb (Rabs (energy I f - energy I i)) c && (Rltb (Rabs (energy I f - e)) c && Rltb (Rabs (energy I i - e)) c) | _, _ => false end).
  rewrite (filterM_ok _ (fun x => b (fst x))) by (intros [k l] H; apply V in H; destruct H as (f & i & A & B & -> & ->); exact (keep_value I Mo Lo f i e c U A B)). cbn [bind].
  assert (FI : forall k l, In (k, l) (filter (fun x => b (fst x)) D) <-> exists f i, in_range es N e c f i /\ k = ([N; f], [N; i]) /\ l = map (sig_of n N I Mo Lo f i) spin_pairs).
  { intros k l. rewrite filter_In, V. cbn [fst]. split.
    - intros ((f & i & A & B & -> & ->) & Q). unfold b in Q. cbn [fst snd] in Q. apply andb_prop in Q. destruct Q as [Q1 Q]. apply andb_prop in Q. destruct Q as [Q2 Q3]. apply Rltb_spec in Q1, Q2, Q3.
      exists f, i. split; [|auto]. exists I. split; [apply U|]. auto.
    - intros (f & i & (S & HSI & A & B & Q1 & Q2 & Q3) & -> & ->). pose proof (nst_unique n es HS _ _ _ (proj1 U) HSI). subst S. split; [exists f, i; auto|]. unfold b. cbn [fst snd].
      apply Rltb_spec in Q1, Q2, Q3. now rewrite Q1, Q2, Q3. }
  destruct (filter (fun x => b (fst x)) D) as [|[k1 l1] D'] eqn:ED.
  { exfalso. assert (H : In (([N; f0], [N; i0]), map (sig_of n N I Mo Lo f0 i0) spin_pairs) []) by (apply FI; exists f0, i0; auto). destruct H. }
  rewrite <- ED in *. assert (H1 : In (k1, l1) (filter (fun x => b (fst x)) D)) by (rewrite ED; now left). apply FI in H1. destruct H1 as (f1 & i1 & R1 & -> & ->).
  cbn [map spin_pairs sig_of n_gf2].
  assert (SZ : exists p r, gf2_of n N (fst (0, 0)%nat) (snd (0, 0)%nat) I Mo Lo f1 i1 = p :: r /\ length (nth 0 (p_vF p) []) = n).
  { destruct U as (HI & HM & HL). unfold gf2_of. destruct Mo as [M|], Lo as [L|]; cbn [app].
    1,2: eexists; eexists; (split; [reflexivity|]); cbn [more_path p_vF]; unfold rows_F; destruct (nsector_of n es HS _ _ (proj2 HM)) as (_ & _ & _ & _ & P & _); destruct (nvals M); [lia|]; cbn [seq map nth]; apply namps_length.
    - eexists; eexists; (split; [reflexivity|]); cbn [less_path p_vF]; unfold rows_F; destruct (nsector_of n es HS _ _ (proj2 HL)) as (_ & _ & _ & _ & P & _); destruct (nvals L); [lia|]; cbn [seq map nth]; apply namps_length.
    - exfalso. destruct K as (lo & [[-> K]|[<- K]]); lia. }
  destruct SZ as (p & r & -> & ->).
  destruct (mapM_exists (fun e0 => do ss <- mapM (screen_sigma n) (snd e0); Ok (fst e0, somes ss))
    (fun a b => fst b = fst a /\ forall f i, fst a = ([N; f], [N; i]) -> snd a = map (sig_of n N I Mo Lo f i) spin_pairs ->
       exists so, Forall2 (fun sp s => kept_sig n es N f i sp s /\ (s <> None <-> heavy_path n es N f i sp)) full_keys so /\ snd b = somes so)
    (filter (fun x => b (fst x)) D)) as (L & EL & FL).
  { intros [k l] H. apply FI in H. destruct H as (f & i & RR & -> & ->). cbn [snd fst].
    destruct (mapM_exists (screen_sigma n) (fun sg so => forall sp, sg = sig_of n N I Mo Lo f i sp -> kept_sig n es N f i sp so /\ (so <> None <-> heavy_path n es N f i sp)) (map (sig_of n N I Mo Lo f i) spin_pairs)) as (so & Eso & Fso).
    { intros sg Hsg. apply in_map_iff in Hsg. destruct Hsg as (sp & <- & _). destruct (screen_sig n es N I Mo Lo f i sp HS U) as (so & E1 & E2 & E3). exists so. split; [exact E1|]. intros sp' Q. assert (sp' = sp) by (unfold sig_of in Q; injection Q; congruence). subst sp'. auto. }
    rewrite Eso. cbn [bind]. eexists. split; [reflexivity|]. cbn [fst snd]. split; [reflexivity|]. intros f' i' Q _. injection Q as <- <-. exists so. split; [|reflexivity].
    clear - Fso. unfold full_keys. cbn [spin_pairs map] in Fso.
    inversion_clear Fso as [|? s0 ? ? X0 F0]. inversion_clear F0 as [|? s1 ? ? X1 F1]. inversion_clear F1 as [|? s2 ? ? X2 F2]. inversion_clear F2 as [|? s3 ? ? X3 F3]. inversion_clear F3.
    repeat constructor; first [apply (X0 _ eq_refl)|apply (X1 _ eq_refl)|apply (X2 _ eq_refl)|apply (X3 _ eq_refl)]. }
  rewrite EL. cbn [bind]. eexists. split; [reflexivity|].
  assert (KEYS : map fst L = map fst (filter (fun x => b (fst x)) D)). { clear - FL. induction FL as [|x y l l' [Q _] F IH]; [reflexivity|]. cbn [map]. now rewrite Q, IH. }
  assert (NDF : NoDup (map fst (filter (fun x => b (fst x)) D))).
  { clear - ND. induction D as [|x D IH]; [constructor|]. cbn [map filter] in *. inversion_clear ND as [|? ? N0 ND']. destruct (b (fst x)); cbn [map]; [constructor; auto|auto].
    intros H. apply N0. apply in_map_iff in H. destruct H as (y & Q & H). apply filter_In in H. apply in_map_iff. exists y. tauto. }
  assert (LI : forall k l, In (k, l) L -> exists f i so, in_range es N e c f i /\ k = ([N; f], [N; i]) /\ Forall2 (fun sp s => kept_sig n es N f i sp s /\ (s <> None <-> heavy_path n es N f i sp)) full_keys so /\ l = somes so).
  { intros k l H. destruct (Forall2_back _ _ _ FL (k, l) H) as ([k0 l0] & H0 & Q & X). cbn [fst snd] in *. subst k0. apply FI in H0. destruct H0 as (f & i & RR & -> & ->).
    destruct (X f i eq_refl eq_refl) as (so & F & ->). exists f, i, so. auto. }
  assert (SOM : forall f i so, Forall2 (fun sp s => kept_sig n es N f i sp s /\ (s <> None <-> heavy_path n es N f i sp)) full_keys so -> (somes so <> [] <-> connected n es N f i)).
  { intros f i so F. unfold full_keys in F. inversion_clear F as [|? s0 ? ? X0 F0]. inversion_clear F0 as [|? s1 ? ? X1 F1]. inversion_clear F1 as [|? s2 ? ? X2 F2]. inversion_clear F2 as [|? s3 ? ? X3 F3]. inversion_clear F3.
    destruct X0 as [_ X0], X1 as [_ X1], X2 as [_ X2], X3 as [_ X3].
    assert (Q : somes [s0; s1; s2; s3] <> [] <-> s0 <> None \/ s1 <> None \/ s2 <> None \/ s3 <> None).
    { destruct s0; [cbn; intuition discriminate|]. destruct s1; [cbn; intuition discriminate|]. destruct s2; [cbn; intuition discriminate|]. destruct s3; cbn; intuition congruence. }
    rewrite Q, X0, X1, X2, X3. unfold heavy_path, connected. cbn [fst snd]. split.
    - intros [(S & k & HH)|[(S & k & HH)|[(S & k & HH)|(S & k & HH)]]]; [exists 0%nat, 0%nat|exists 0%nat, 1%nat|exists 1%nat, 0%nat|exists 1%nat, 1%nat]; exists S, k; (split; [lia|]); (split; [lia|]); exact HH.
    - intros (s' & s & S & k & A & B & HH). destruct s' as [|[|s']]; [| |lia]; (destruct s as [|[|s]]; [| |lia]); [left|right; left|right; right; left|right; right; right]; exists S, k; exact HH. }
  split; [|split].
  - clear - KEYS NDF. rewrite <- KEYS in NDF. clear KEYS. induction L as [|x L IH]; [constructor|]. cbn [map filter] in *. inversion_clear NDF as [|? ? N0 ND']. destruct (snd x); cbn [map]; [auto|constructor; auto].
    intros H. apply N0. apply in_map_iff in H. destruct H as (y & Q & H). apply filter_In in H. apply in_map_iff. exists y. tauto.
  - intros F J. split.
    + intros (l & H). apply filter_In in H. destruct H as [H Q]. cbn [snd] in Q. apply LI in H. destruct H as (f & i & so & RR & EK & FF & ->). injection EK as -> ->. exists f, i. repeat split; auto. apply (SOM f i so FF). destruct (somes so); [discriminate|discriminate].
    + intros (f & i & -> & -> & RR & CN). assert (H : In (([N; f], [N; i])) (map fst L)) by (rewrite KEYS; apply (in_map fst _ (([N; f], [N; i]), map (sig_of n N I Mo Lo f i) spin_pairs)); apply FI; exists f, i; auto).
      apply in_map_iff in H. destruct H as ([k l] & Q & H). cbn [fst] in Q. subst k. exists l. apply filter_In. split; [exact H|]. cbn [snd]. apply LI in H. destruct H as (f' & i' & so & _ & EK & FF & ->). injection EK as <- <-. apply (SOM f i so FF) in CN. destruct (somes so); [congruence|reflexivity].
  - intros f i l H. apply filter_In in H. destruct H as [H _]. apply LI in H. destruct H as (f' & i' & so & _ & EK & FF & ->). injection EK as <- <-. exists so. split; [|reflexivity].
    clear - FF. induction FF as [|? ? ? ? [X _] F IH]; constructor; auto.
Qed.
End Build.

Lemma linked_dec n N : (exists lo, linked n N lo) \/ ~ (exists lo, linked n N lo).
Proof.
  destruct (Nat.lt_ge_cases (N + 1) (2 * n)) as [L|L]; [left; exists N; left; auto|]. destruct (Nat.lt_ge_cases 1 N) as [L'|L']; [left; exists (N - 1)%nat; right; split; lia|].
  right. intros (lo & [[-> K]|[<- K]]); lia.
Qed.
Lemma choose_reference n es No N egs e : nsolved n es -> chosen es No N -> (No = None -> egs <> None) -> reference es No egs e -> choose es No egs = Ok (N, Some e).
Proof.
  intros HS HC HG HR. destruct No as [M|]; cbn in HC, HR.
  - subst M egs. reflexivity.
  - destruct HC as (E & C). destruct HR as (N1 & C1). destruct (lowest_unique _ _ _ _ _ C C1) as [<- <-]. destruct egs as [x|]; [|now contradiction HG]. assert (NE : es <> []) by (destruct C as (a & b & c & -> & _); destruct a; discriminate).
    destruct (choose_ok n es HS x NE) as (N' & E' & -> & C'). now destruct (lowest_unique _ _ _ _ _ C C') as [<- <-].
Qed.
Theorem co_screened n es No N egs e c : nsolved n es -> chosen es No N -> (No = None -> egs <> None) -> links_stored n es N -> reference es No egs e ->
  (exists lo, linked n N lo) -> (exists f i, in_range es N e c f i) ->
  exists d, co_elements n es No egs (Some c) = Ok d /\ NoDup (map fst d) /\
  (forall F I, (exists l, In ((F, I), l) d) <-> exists f i, F = [N; f] /\ I = [N; i] /\ in_range es N e c f i /\ connected n es N f i) /\
  (forall f i l, In (([N; f], [N; i]), l) d -> kept_entry n es N f i l).
Proof.
  intros HS HC HG LK HR K R. unfold co_elements. rewrite (choose_reference n es No N egs e HS HC HG HR). cbn [bind fst snd].
  destruct (co_built n es HS N LK K) as (I & Mo & Lo & D & U & -> & ND & V). cbn [bind].
  apply (screened n es HS N LK e c (ksort D) I Mo Lo U (ksort_NoDup D ND)); [|exact K|exact R]. intros k l. rewrite ksort_In. apply V.
Qed.
Theorem co_nothing n es No N egs e c : nsolved n es -> chosen es No N -> (No = None -> egs <> None) -> links_stored n es N -> reference es No egs e ->
  ~ ((exists lo, linked n N lo) /\ exists f i, in_range es N e c f i) -> co_elements n es No egs (Some c) = Err StopIteration.
Proof.
  intros HS HC HG LK HR K. unfold co_elements. rewrite (choose_reference n es No N egs e HS HC HG HR). cbn [bind fst snd].
  destruct (linked_dec n N) as [L|L].
  - destruct (co_built n es HS N LK L) as (I & Mo & Lo & D & U & -> & ND & V). cbn [bind]. unfold nscreen.
    rewrite (filterM_ok _ (fun _ => false)).
    + cbn [bind]. replace (filter (fun _ => false) (ksort D)) with (@nil (key2 * list nsigma)); [reflexivity|]. induction (ksort D); [reflexivity|assumption].
    + intros [k l] H. apply ksort_In, V in H. destruct H as (f & i & A & B & -> & ->). rewrite (keep_value n es HS N I Mo Lo f i e c U A B). f_equal.
      destruct (Rltb (Rabs (energy I f - energy I i)) c) eqn:Q1; [|reflexivity]. destruct (Rltb (Rabs (energy I f - e)) c) eqn:Q2; [|reflexivity]. destruct (Rltb (Rabs (energy I i - e)) c) eqn:Q3; [|reflexivity].
      exfalso. apply K. split; [exact L|]. apply Rltb_spec in Q1, Q2, Q3. exists f, i, I. split; [apply U|]. auto.
  - rewrite (none_linked n es N L). reflexivity.
Qed.
Lemma filterM_err {X} (f : X -> res bool) l x er : In x l -> f x = Err er -> (forall y, In y l -> f y = Err er \/ exists b, f y = Ok b) -> filterM f l = Err er.
Proof.
  induction l as [|y l IH]; intros Hx E H; [destruct Hx|]. cbn [filterM]. destruct (H y (or_introl eq_refl)) as [->|(b & Eb)]; [reflexivity|]. rewrite Eb. cbn [bind].
  destruct Hx as [->|Hx]; [congruence|]. rewrite IH; auto. intros; apply H; now right.
Qed.
Theorem co_no_reference n es N c : nsolved n es -> links_stored n es N -> (exists lo, linked n N lo) -> 0 < c -> co_elements n es (Some N) None (Some c) = Err TypeError.
Proof.
  intros HS LK K Hc. unfold co_elements. cbn [choose bind fst snd]. destruct (co_built n es HS N LK K) as (I & Mo & Lo & D & U & -> & ND & V). cbn [bind]. unfold nscreen.
  assert (X : forall f i, (f < nvals I)%nat -> (i < nvals I)%nat -> keep_entry es None c (([N; f], [N; i]), map (sig_of n N I Mo Lo f i) spin_pairs) = if Rltb (Rabs (energy I f - energy I i)) c then Err TypeError else Ok false).
  { intros f i Hf Hi. unfold keep_entry. cbn [spin_pairs map snd fst sig_of n_dE]. destruct (Rltb (Rabs (energy I f - energy I i)) c); [|reflexivity]. unfold close_to, neig_at.
    rewrite (es_get_In _ _ _ (proj1 HS) (proj1 U)). cbn [bind]. unfold nvals in Hf. destruct (nth_error (s_vals RRing I) f) eqn:E; [reflexivity|]. apply nth_error_None in E. lia. }
  assert (P : (0 < nvals I)%nat) by (destruct (nsector_of n es HS _ _ (proj1 U)) as (_ & _ & _ & _ & P & _); exact P).
  rewrite (filterM_err _ (ksort D) (([N; 0%nat], [N; 0%nat]), map (sig_of n N I Mo Lo 0 0) spin_pairs) TypeError); [reflexivity| | |].
  - apply ksort_In, V. exists 0%nat, 0%nat. auto.
  - rewrite X by assumption. replace (energy I 0 - energy I 0) with 0 by ring. rewrite Rabs_R0. apply Rltb_spec in Hc. now rewrite Hc.
  - intros [k l] H. apply ksort_In, V in H. destruct H as (f & i & A & B & -> & ->). rewrite (X f i A B). destruct (Rltb (Rabs (energy I f - energy I i)) c); eauto.
Qed.

(** * The rates of what is left *)
Lemma kept_value n es N f i sp s A ext inj ae ai beta mu me mi S : kept_sig n es N f i sp (Some s) -> In ([N], S) es -> nsolved n es ->
  nth_error A ext = Some ae -> nth_error A inj = Some ai -> length ae = n -> length ai = n -> nth_error mu ext = Some me -> nth_error mu inj = Some mi ->
  exists T, kept_order n es N (fst sp) (snd sp) ae ai f i (1 / 2 * (energy S f - energy S i + fold_right Rplus 0 mu)) T /\
  napproximate s A ext inj beta mu = Ok (Gfun beta (energy S f - energy S i - me + mi) * T ^ 2).
Proof.
  intros (_ & (S' & HI' & DE) & C) HI HS Ee Ei Le Li Me Mi. pose proof (nst_unique n es HS _ _ _ HI HI'). subst S'.
  destruct (C A ext inj ae ai (1 / 2 * (energy S f - energy S i + fold_right Rplus 0 mu)) Ee Ei Le Li) as (T & HT & CT). exists T. split; [exact HT|].
  unfold napproximate, lead. rewrite Me, Mi. cbn [bind]. rewrite DE, CT. reflexivity.
Qed.
Theorem kept_gamma n es N f i l A ext inj ae ai beta mu me mi S : nsolved n es -> In ([N], S) es -> kept_entry n es N f i l ->
  nth_error A ext = Some ae -> nth_error A inj = Some ai -> length ae = n -> length ai = n -> nth_error mu ext = Some me -> nth_error mu inj = Some mi ->
  exists X, kept_cross n es N ae ai f i (1 / 2 * (energy S f - energy S i + fold_right Rplus 0 mu)) X /\
  co_gamma napproximate A beta mu l (ext, inj) = Ok (Gfun beta (energy S f - energy S i - me + mi) * X).
Proof.
  intros HS HI (so & F & ->) Ee Ei Le Li Me Mi. set (z := 1 / 2 * (energy S f - energy S i + fold_right Rplus 0 mu)). set (g := Gfun beta (energy S f - energy S i - me + mi)).
  assert (STEP : forall sp o, kept_sig n es N f i sp o -> exists T, kept_order n es N (fst sp) (snd sp) ae ai f i z T /\
    forall l acc, foldM (fun acc s => do x <- napproximate s A ext inj beta mu; Ok (acc + x)) (somes (o :: l)) acc = foldM (fun acc s => do x <- napproximate s A ext inj beta mu; Ok (acc + x)) (somes l) (acc + g * T ^ 2)).
  { intros sp [s|] H.
    - destruct (kept_value n es N f i sp s A ext inj ae ai beta mu me mi S H HI HS Ee Ei Le Li Me Mi) as (T & HT & E). exists T. split; [exact HT|]. intros l acc. cbn [somes flat_map app foldM]. rewrite E. reflexivity.
    - exists 0. split; [apply H|]. intros l acc. cbn [somes flat_map app]. f_equal. ring. }
  unfold full_keys in F. inversion_clear F as [|? s0 ? ? X0 F0]. inversion_clear F0 as [|? s1 ? ? X1 F1]. inversion_clear F1 as [|? s2 ? ? X2 F2]. inversion_clear F2 as [|? s3 ? ? X3 F3]. inversion_clear F3.
  destruct (STEP _ _ X0) as (T0 & H0 & E0). destruct (STEP _ _ X1) as (T1 & H1 & E1). destruct (STEP _ _ X2) as (T2 & H2 & E2). destruct (STEP _ _ X3) as (T3 & H3 & E3).
  exists (T0 ^ 2 + T1 ^ 2 + T2 ^ 2 + T3 ^ 2). split; [exists T0, T1, T2, T3; auto|]. unfold co_gamma. cbn [fst snd]. rewrite E0, E1, E2, E3. cbn [somes flat_map foldM]. f_equal. ring.
Qed.
(** Nothing but negligible weights was dropped with an entry. *)
Theorem unconnected_zero n es N f i sp ae ai z T : nsolved n es -> (fst sp < 2)%nat -> (snd sp < 2)%nat -> ~ connected n es N f i -> kept_order n es N (fst sp) (snd sp) ae ai f i z T -> T = 0.
Proof.
  intros HS A B K (S & x & y & HI & HM & HL & ->).
  assert (X : x = 0). { destruct (Nat.ltb_spec (N + 1) (2 * n)) as [L|L]; [|exact HM]. destruct HM as (M & HM & ->). unfold kept_more. apply rsum_0. intros k Hk. destruct (heavyb (weight_more n (fst sp) (snd sp) S M f i k)) eqn:Q; [|reflexivity].
    exfalso. apply K. exists (fst sp), (snd sp), S, k. apply heavyb_spec in Q. repeat split; auto. left. exists M. auto. }
  assert (Y : y = 0). { destruct (Nat.ltb_spec 1 N) as [L|L]; [|exact HL]. destruct HL as (M & HL & ->). unfold kept_less. apply rsum_0. intros k Hk. destruct (heavyb (weight_less n (fst sp) (snd sp) S M f i k)) eqn:Q; [|reflexivity].
    exfalso. apply K. exists (fst sp), (snd sp), S, k. apply heavyb_spec in Q. repeat split; auto. right. exists M. auto. }
  rewrite X, Y. ring.
Qed.
Lemma co_ok_range n es No N egs e c d : nsolved n es -> chosen es No N -> (No = None -> egs <> None) -> links_stored n es N -> reference es No egs e ->
  co_elements n es No egs (Some c) = Ok d -> (exists lo, linked n N lo) /\ exists f i, in_range es N e c f i.
Proof.
  intros HS HC HG LK HR. unfold co_elements. rewrite (choose_reference n es No N egs e HS HC HG HR). cbn [bind fst snd].
  destruct (linked_dec n N) as [L|L]; [|rewrite (none_linked n es N L); discriminate].
  destruct (co_built n es HS N LK L) as (I & Mo & Lo & D & U & -> & ND & V). cbn [bind]. unfold nscreen.
  set (b := fun k : key2 => match fst k, snd k with [_; f], [_; i] => Rltb (Rabs (energy I f - energy I i)) c && (Rltb (Rabs (energy I f - e)) c && Rltb (Rabs (energy I i - e)) c) | _, _ => false end).
  rewrite (filterM_ok _ (fun x => b (fst x))) by (intros [k l] H; apply ksort_In, V in H; destruct H as (f & i & A & B & -> & ->); exact (keep_value n es HS N I Mo Lo f i e c U A B)). cbn [bind].
  destruct (filter (fun x => b (fst x)) (ksort D)) as [|[k l] D'] eqn:ED; [discriminate|]. intros _. split; [exact L|].
  assert (H : In (k, l) (filter (fun x => b (fst x)) (ksort D))) by (rewrite ED; now left). apply filter_In in H. destruct H as [H Q]. apply ksort_In, V in H. destruct H as (f & i & A & B & -> & _).
  unfold b in Q. cbn [fst snd] in Q. apply andb_prop in Q. destruct Q as [Q1 Q]. apply andb_prop in Q. destruct Q as [Q2 Q3]. apply Rltb_spec in Q1, Q2, Q3.
  exists f, i, I. split; [apply U|]. auto.
Qed.
