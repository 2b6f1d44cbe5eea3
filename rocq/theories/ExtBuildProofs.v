(** The elements extracted from the dictionary of cotnl.build_transition_elements. *)
From Coq Require Import Reals List Arith NArith ZArith Bool Lia Lra Sorted Permutation.
From Verif Require Import Base RBase RLin OperatorsSpec FockSpec LookupModel SectorModel LocalModel MatvecModel EspaceModel ProjModel ProjSpec
  GfModel GfSpec RateModel RateSpec RateProofs RateDictProofs TransModel TransSpec TransProofs CotModel CotSpec TnlModel TnlSpec TnlProofs TnlMatProofs CnlSpec CnlProofs CnlScreenProofs ExtModel ExtSpec ExtProofs.
Import ListNotations.
Local Open Scope R_scope.

Lemma flat_none {X Y} (g : X -> list Y) l : (forall y, In y l -> g y = []) -> flat_map g l = [].
Proof. induction l as [|a l IH]; intros H; cbn [flat_map]; [reflexivity|]. rewrite H by now left. apply IH. intros; apply H. now right. Qed.
Lemma flat_single {X Y} (g : X -> list Y) l x : NoDup l -> In x l -> (forall y, In y l -> y <> x -> g y = []) -> flat_map g l = g x.
Proof.
  induction l as [|a l IH]; intros ND H O; [destruct H|]. inversion ND as [|? ? N ND']; subst. cbn [flat_map].
  pose proof (flat_none g) as OUT.
  destruct H as [<-|H].
  - rewrite OUT; [apply app_nil_r|]. intros y Hy. apply O; [now right|]. intros ->. contradiction.
  - rewrite (O a) by (try (now left); intros ->; contradiction). apply IH; auto. intros y Hy. apply O. now right.
Qed.

Section Build.
Variables (n : nat) (es : espace RRing) (N : nat).
Hypothesis HS : nsolved n es.
Variables (I : sct RRing) (Mo Lo : option (sct RRing)).
Hypothesis U : used n es N I Mo Lo.

(** The four kinds of elements for the state [x] of the sector. *)
Definition el_in (M : sct RRing) (s x j : nat) : gfel := mkgfel Electron [N + 1; j]%nat [N; x] (namps n s OpCdg M I j x) (energy M j - energy I x).
Definition el_out (M : sct RRing) (s x j : nat) : gfel := mkgfel Hole [N; x] [N + 1; j]%nat (namps n s OpC I M x j) (energy M j - energy I x).
Definition hl_in (L : sct RRing) (s x j : nat) : gfel := mkgfel Hole [N - 1; j]%nat [N; x] (namps n s OpC L I j x) (energy I x - energy L j).
Definition hl_out (L : sct RRing) (s x j : nat) : gfel := mkgfel Electron [N; x] [N - 1; j]%nat (namps n s OpCdg I L x j) (energy I x - energy L j).
Definition up_emits (x s' s : nat) : list labelled := match Mo with Some M => flat_map (fun j => [(s, el_in M s x j); (s', el_out M s' x j)]) (seq 0 (nvals M)) | None => [] end.
Definition dw_emits (x s' s : nat) : list labelled := match Lo with Some L => flat_map (fun j => [(s, hl_in L s' x j); (s', hl_out L s x j)]) (seq 0 (nvals L)) | None => [] end.
Definition state_emits (x : nat) : list labelled := flat_map (fun sp => up_emits x (fst sp) (snd sp) ++ dw_emits x (fst sp) (snd sp)) spin_pairs.
Lemma flat_ext {X Y} (f g : X -> list Y) l : (forall x, In x l -> f x = g x) -> flat_map f l = flat_map g l.
Proof. induction l as [|x l IH]; intros H; cbn [flat_map]; [reflexivity|]. rewrite H by now left. f_equal. apply IH. intros; apply H. now right. Qed.
Lemma nth_seq_map {X} (g : nat -> X) m k d : (k < m)%nat -> nth k (map g (seq 0 m)) d = g k.
Proof. intros H. rewrite (nth_indep _ d (g 0%nat)) by (now rewrite map_length, seq_length). rewrite map_nth, seq_nth by auto. reflexivity. Qed.
Lemma sigma_state x sp : sigma_emits N x x (sig_of n N I Mo Lo x x sp) = up_emits x (fst sp) (snd sp) ++ dw_emits x (fst sp) (snd sp).
Proof.
  unfold sigma_emits, sig_of, gf2_of, up_emits, dw_emits. cbn [n_gf2 n_spins]. rewrite flat_map_app. f_equal.
  - destruct Mo as [M|]; [|reflexivity]. cbn [flat_map]. rewrite app_nil_r. unfold path_emits, more_path, rows_I, rows_F. cbn [p_vI]. rewrite map_length, seq_length.
    apply flat_ext. intros j Hj. apply in_seq in Hj. unfold row_emits. cbn [p_kind p_vI p_vF p_E]. rewrite !nth_seq_map by lia. reflexivity.
  - destruct Lo as [L|]; [|reflexivity]. cbn [flat_map]. rewrite app_nil_r. unfold path_emits, less_path, rows_I, rows_F. cbn [p_vI]. rewrite map_length, seq_length.
    apply flat_ext. intros j Hj. apply in_seq in Hj. unfold row_emits. cbn [p_kind p_vI p_vF p_E]. rewrite !nth_seq_map by lia. reflexivity.
Qed.
Lemma sig_regular f i sp p : In p (n_gf2 (sig_of n N I Mo Lo f i sp)) -> regular p.
Proof.
  unfold sig_of, gf2_of, regular. cbn [n_gf2]. intros H. apply in_app_iff in H. destruct H as [H|H].
  - destruct Mo as [M|]; [|destruct H]. destruct H as [<-|[]]. unfold more_path, rows_F, rows_I. cbn [p_vF p_vI p_E]. now rewrite !map_length.
  - destruct Lo as [L|]; [|destruct H]. destruct H as [<-|[]]. unfold less_path, rows_F, rows_I. cbn [p_vF p_vI p_E]. now rewrite !map_length.
Qed.

Variable D : list (key2 * list nsigma).
Hypothesis ND : NoDup (map fst D).
Hypothesis HD : forall k l, In (k, l) D <-> exists f i, (f < nvals I)%nat /\ (i < nvals I)%nat /\ k = ([N; f], [N; i]) /\ l = map (sig_of n N I Mo Lo f i) spin_pairs.
Lemma D_regular e : In e D -> regular_entry e.
Proof.
  destruct e as [k l]. intros H. apply HD in H. destruct H as (f & i & _ & _ & -> & ->). split; [exists N, f, N, i; reflexivity|]. cbn [snd]. intros s p Hs. apply in_map_iff in Hs. destruct Hs as (sp & <- & _). apply sig_regular.
Qed.
Lemma entry_state e : In e D -> (exists x, (x < nvals I)%nat /\ fst e = ([N; x], [N; x]) /\ entry_emits e = state_emits x) \/ ((forall x, fst e <> ([N; x], [N; x])) /\ entry_emits e = []).
Proof.
  destruct e as [k l]. intros H. apply HD in H. destruct H as (f & i & A & B & -> & ->). cbn [fst entry_emits]. destruct (Nat.eqb_spec i f) as [->|NE].
  - left. exists f. split; [exact A|]. split; [reflexivity|]. unfold state_emits, spin_pairs. cbn [map flat_map]. now rewrite !sigma_state.
  - right. split; [|reflexivity]. intros x Q. injection Q as -> ->. congruence.
Qed.
(** The state that a key belongs to. *)
Lemma sel_state k x : (x < nvals I)%nat -> (forall y e, In e (state_emits y) -> ekey e = k -> y = x) -> sel k (flat_map entry_emits D) = sel k (state_emits x).
Proof.
  intros Hx O. rewrite sel_flat. assert (HE : In (([N; x], [N; x]), map (sig_of n N I Mo Lo x x) spin_pairs) D) by (apply HD; exists x, x; auto).
  rewrite (flat_single _ D _ (NoDup_map_inv _ _ ND) HE).
  - destruct (entry_state _ HE) as [(y & _ & Q & ->)|[Q _]]; [|exfalso; now apply (Q x)]. cbn [fst] in Q. injection Q as <-. reflexivity.
  - intros e He NE. destruct (entry_state _ He) as [(y & _ & Q & E)|[_ ->]]; [|reflexivity]. rewrite E. unfold sel.
    destruct (filter (fun e0 => key_eqb (ekey e0) k) (state_emits y)) as [|z r] eqn:F; [reflexivity|]. exfalso. assert (Z : In z (filter (fun e0 => key_eqb (ekey e0) k) (state_emits y))) by (rewrite F; now left).
    apply filter_In in Z. destruct Z as [Z1 Z2]. destruct (key_eqb_spec (ekey z) k) as [K|]; [|discriminate]. pose proof (O y z Z1 K). subst y. apply NE.
    destruct e as [ke le]. cbn [fst] in Q. subst ke. f_equal. apply HD in He. destruct He as (f & i & _ & _ & Q & ->). injection Q as <- <-. reflexivity.
Qed.
Lemma up_In x s' s e : In e (up_emits x s' s) -> exists M j, Mo = Some M /\ (j < nvals M)%nat /\ (e = (s, el_in M s x j) \/ e = (s', el_out M s' x j)).
Proof.
  unfold up_emits. destruct Mo as [M|]; [|intros []]. intros H. apply in_flat_map in H. destruct H as (j & Hj & H). apply in_seq in Hj. exists M, j. split; [reflexivity|]. split; [lia|].
  destruct H as [<-|[<-|[]]]; auto.
Qed.
Lemma dw_In x s' s e : In e (dw_emits x s' s) -> exists L j, Lo = Some L /\ (j < nvals L)%nat /\ (e = (s, hl_in L s' x j) \/ e = (s', hl_out L s x j)).
Proof.
  unfold dw_emits. destruct Lo as [L|]; [|intros []]. intros H. apply in_flat_map in H. destruct H as (j & Hj & H). apply in_seq in Hj. exists L, j. split; [reflexivity|]. split; [lia|].
  destruct H as [<-|[<-|[]]]; auto.
Qed.
Lemma dw_pos L : Lo = Some L -> (1 < N)%nat.
Proof. intros Q. destruct U as (_ & _ & H). rewrite Q in H. tauto. Qed.
Lemma state_key y e : In e (state_emits y) ->
  (exists M j, Mo = Some M /\ (j < nvals M)%nat /\ (ekey e = ([N + 1; j]%nat, [N; y]) \/ ekey e = ([N; y], [N + 1; j]%nat))) \/
  (exists L j, Lo = Some L /\ (j < nvals L)%nat /\ (ekey e = ([N - 1; j]%nat, [N; y]) \/ ekey e = ([N; y], [N - 1; j]%nat))).
Proof.
  unfold state_emits. intros H. apply in_flat_map in H. destruct H as ([s' s] & _ & H). cbn [fst snd] in H. apply in_app_iff in H. destruct H as [H|H].
  - left. apply up_In in H. destruct H as (M & j & A & B & [->| ->]); exists M, j; auto.
  - right. apply dw_In in H. destruct H as (L & j & A & B & [->| ->]); exists L, j; auto.
Qed.
Ltac lab H := unfold ekey in H; cbn [fst snd el_in el_out hl_in hl_out g_F g_I] in H; injection H; intros; lia.
Lemma owner k x j M' : (k = ([N + M'; j]%nat, [N; x]) \/ k = ([N; x], [N + M'; j]%nat)) -> M' = 1%nat -> forall y e, In e (state_emits y) -> ekey e = k -> y = x.
Proof.
  intros K -> y e H Q. apply state_key in H. destruct H as [(M & j' & _ & _ & H)|(L & j' & HL & _ & H)].
  - destruct K as [->| ->], H as [H|H]; rewrite Q in H; injection H; intros; lia.
  - pose proof (dw_pos L HL). destruct K as [->| ->], H as [H|H]; rewrite Q in H; injection H; intros; lia.
Qed.
Lemma owner_dw L k x j : Lo = Some L -> (k = ([N - 1; j]%nat, [N; x]) \/ k = ([N; x], [N - 1; j]%nat)) -> forall y e, In e (state_emits y) -> ekey e = k -> y = x.
Proof.
  intros HL K y e H Q. pose proof (dw_pos L HL). apply state_key in H. destruct H as [(M & j' & _ & _ & H)|(L' & j' & _ & _ & H)];
    destruct K as [->| ->], H as [H|H]; rewrite Q in H; injection H; intros; lia.
Qed.
Lemma sel_none k l : (forall e, In e l -> ekey e <> k) -> sel k l = [].
Proof.
  induction l as [|e l IH]; intros H; cbn [sel filter]; [reflexivity|]. destruct (key_eqb_spec (ekey e) k) as [Q|_]; [exfalso; exact (H e (or_introl eq_refl) Q)|]. apply IH. intros; apply H. now right.
Qed.
(** One pair of spins: one element for each of the four kinds of keys. *)
Lemma up_sel M x j s' s : Mo = Some M -> (j < nvals M)%nat ->
  sel ([N + 1; j]%nat, [N; x]) (up_emits x s' s ++ dw_emits x s' s) = [(s, el_in M s x j)] /\ sel ([N; x], [N + 1; j]%nat) (up_emits x s' s ++ dw_emits x s' s) = [(s', el_out M s' x j)].
Proof.
  intros HM Hj.
  assert (DW : forall k, (k = ([N + 1; j]%nat, [N; x]) \/ k = ([N; x], [N + 1; j]%nat)) -> sel k (dw_emits x s' s) = []).
  { intros k K. apply sel_none. intros e He Q. apply dw_In in He. destruct He as (L & j' & HL & _ & E). pose proof (dw_pos L HL).
    destruct K as [->| ->], E as [->| ->]; lab Q. }
  rewrite !sel_app, !DW by auto. rewrite !app_nil_r. unfold up_emits. rewrite HM. rewrite !sel_flat. assert (J : In j (seq 0 (nvals M))) by (apply in_seq; lia).
  split; rewrite (flat_single _ _ j (seq_NoDup _ _) J); try (intros y _ NE; apply sel_none; intros e [<-|[<-|[]]] Q; lab Q).
  - cbn [sel filter]. destruct (key_eqb_spec (ekey (s, el_in M s x j)) ([N + 1; j]%nat, [N; x])) as [_|Q]; [|exfalso; now apply Q].
    destruct (key_eqb_spec (ekey (s', el_out M s' x j)) ([N + 1; j]%nat, [N; x])) as [Q|_]; [lab Q|reflexivity].
  - cbn [sel filter]. destruct (key_eqb_spec (ekey (s, el_in M s x j)) ([N; x], [N + 1; j]%nat)) as [Q|_]; [lab Q|].
    destruct (key_eqb_spec (ekey (s', el_out M s' x j)) ([N; x], [N + 1; j]%nat)) as [_|Q]; [reflexivity|exfalso; now apply Q].
Qed.
Lemma dw_sel L x j s' s : Lo = Some L -> (j < nvals L)%nat ->
  sel ([N - 1; j]%nat, [N; x]) (up_emits x s' s ++ dw_emits x s' s) = [(s, hl_in L s' x j)] /\ sel ([N; x], [N - 1; j]%nat) (up_emits x s' s ++ dw_emits x s' s) = [(s', hl_out L s x j)].
Proof.
  intros HL Hj. pose proof (dw_pos L HL) as P.
  assert (UP : forall k, (k = ([N - 1; j]%nat, [N; x]) \/ k = ([N; x], [N - 1; j]%nat)) -> sel k (up_emits x s' s) = []).
  { intros k K. apply sel_none. intros e He Q. apply up_In in He. destruct He as (M & j' & HM & _ & E). destruct K as [->| ->], E as [->| ->]; lab Q. }
  rewrite !sel_app, !UP by auto. cbn [app]. unfold dw_emits. rewrite HL. rewrite !sel_flat. assert (J : In j (seq 0 (nvals L))) by (apply in_seq; lia).
  split; rewrite (flat_single _ _ j (seq_NoDup _ _) J); try (intros y _ NE; apply sel_none; intros e [<-|[<-|[]]] Q; lab Q).
  - cbn [sel filter]. destruct (key_eqb_spec (ekey (s, hl_in L s' x j)) ([N - 1; j]%nat, [N; x])) as [_|Q]; [|exfalso; now apply Q].
    destruct (key_eqb_spec (ekey (s', hl_out L s x j)) ([N - 1; j]%nat, [N; x])) as [Q|_]; [lab Q|reflexivity].
  - cbn [sel filter]. destruct (key_eqb_spec (ekey (s, hl_in L s' x j)) ([N; x], [N - 1; j]%nat)) as [Q|_]; [lab Q|].
    destruct (key_eqb_spec (ekey (s', hl_out L s x j)) ([N; x], [N - 1; j]%nat)) as [_|Q]; [reflexivity|exfalso; now apply Q].
Qed.
Lemma sel_pairs k x : sel k (state_emits x) = flat_map (fun sp => sel k (up_emits x (fst sp) (snd sp) ++ dw_emits x (fst sp) (snd sp))) spin_pairs.
Proof. apply sel_flat. Qed.
Lemma exact_in M s x j : Mo = Some M -> (x < nvals I)%nat -> (j < nvals M)%nat -> exact_nel n es s (el_in M s x j).
Proof.
  intros HM Hx Hj. destruct U as (HI & H & _). rewrite HM in H. exists N, x, (N + 1)%nat, j, I, M, OpCdg. repeat split; try assumption; try apply H. cbn. lia.
Qed.
Lemma exact_out M s x j : Mo = Some M -> (x < nvals I)%nat -> (j < nvals M)%nat -> exact_nel n es s (el_out M s x j).
Proof.
  intros HM Hx Hj. destruct U as (HI & H & _). rewrite HM in H. exists (N + 1)%nat, j, N, x, M, I, OpC. repeat split; try assumption; try apply H. cbn. lia.
Qed.
Lemma exact_hin L s x j : Lo = Some L -> (x < nvals I)%nat -> (j < nvals L)%nat -> exact_nel n es s (hl_in L s x j).
Proof.
  intros HL Hx Hj. destruct U as (HI & _ & H). rewrite HL in H. exists N, x, (N - 1)%nat, j, I, L, OpC. repeat split; try assumption; try apply H. cbn. lia.
Qed.
Lemma exact_hout L s x j : Lo = Some L -> (x < nvals I)%nat -> (j < nvals L)%nat -> exact_nel n es s (hl_out L s x j).
Proof.
  intros HL Hx Hj. destruct U as (HI & _ & H). rewrite HL in H. exists (N - 1)%nat, j, N, x, L, I, OpCdg. repeat split; try assumption; try apply H. cbn. lia.
Qed.
Theorem extracted : exists X, extract_sequential D = Ok X /\ NoDup (map fst X) /\ (forall F J, (exists l, In ((F, J), l) X) <-> considered n es N F J) /\
  forall F J l, In ((F, J), l) X -> exists g0 g1, exact_nel n es 0 g0 /\ exact_nel n es 1 g1 /\ g_F g0 = F /\ g_I g0 = J /\ g_F g1 = F /\ g_I g1 = J /\
    (upper N F J -> twice l g0 g1) /\ (~ upper N F J -> mixed l g0 g1).
Proof.
  destruct (extract_ok D D_regular) as (X & E & NX & P & Q). exists X. split; [exact E|]. split; [exact NX|].
  assert (VAL : forall F J, considered n es N F J -> exists l g0 g1, sel (F, J) (flat_map entry_emits D) = l /\ l <> [] /\ exact_nel n es 0 g0 /\ exact_nel n es 1 g1 /\ g_F g0 = F /\ g_I g0 = J /\ g_F g1 = F /\ g_I g1 = J /\
    (upper N F J -> twice l g0 g1) /\ (~ upper N F J -> mixed l g0 g1)).
  { intros F J (lo & a & b & L & SA & SB & K). pose proof U as (HI & UM & UL). destruct L as [[-> L]|[L1 L2]].
    - destruct Mo as [M|] eqn:HM; [|lia]. destruct UM as [_ UM]. rewrite Nat.add_1_r in UM. apply (is_state_iff n es HS _ _ _ UM) in SA. apply (is_state_iff n es HS _ _ _ HI) in SB.
      rewrite <- Nat.add_1_r in K. assert (UP : upper N F J) by (exists a, b; rewrite <- Nat.add_1_r; exact K). rewrite <- HM in *.
      rewrite (sel_state (F, J) b SB) by (apply (owner (F, J) b a 1); [destruct K as [[-> ->]|[-> ->]]; auto|reflexivity]). rewrite sel_pairs. unfold spin_pairs.
      destruct K as [[-> ->]|[-> ->]]; cbn [flat_map fst snd].
      + rewrite !(fun s s' => proj1 (up_sel M b a s s' HM SA)). eexists; exists (el_in M 0 b a), (el_in M 1 b a). split; [reflexivity|]. split; [discriminate|]. split; [now apply exact_in|]. split; [now apply exact_in|].
        repeat (split; [reflexivity|]). split; [|tauto]. intros _. unfold twice. cbn [app]. apply perm_skip. apply perm_swap.
      + rewrite !(fun s s' => proj2 (up_sel M b a s s' HM SA)). eexists; exists (el_out M 0 b a), (el_out M 1 b a). split; [reflexivity|]. split; [discriminate|]. split; [now apply exact_out|]. split; [now apply exact_out|].
        repeat (split; [reflexivity|]). split; [|tauto]. intros _. unfold twice. cbn [app]. reflexivity.
    - destruct Lo as [L|] eqn:HL; [|lia]. destruct UL as [_ UL]. replace (N - 1)%nat with lo in UL by lia. apply (is_state_iff n es HS _ _ _ UL) in SB. rewrite L1 in SA. apply (is_state_iff n es HS _ _ _ HI) in SA.
      assert (NU : ~ upper N F J). { intros (a' & b' & V). destruct K as [[-> ->]|[-> ->]], V as [[V1 V2]|[V1 V2]]; injection V1; injection V2; intros; lia. }
      rewrite L1 in K. replace lo with (N - 1)%nat in K by lia. rewrite <- HL in *.
      rewrite (sel_state (F, J) a SA) by (apply (owner_dw L (F, J) a b HL); destruct K as [[-> ->]|[-> ->]]; auto). rewrite sel_pairs. unfold spin_pairs.
      destruct K as [[-> ->]|[-> ->]]; cbn [flat_map fst snd].
      + rewrite !(fun s s' => proj2 (dw_sel L a b s s' HL SB)). eexists; exists (hl_out L 0 a b), (hl_out L 1 a b). split; [reflexivity|]. split; [discriminate|]. split; [now apply exact_hout|]. split; [now apply exact_hout|].
        repeat (split; [reflexivity|]). split; [tauto|]. intros _. unfold mixed. cbn [app]. apply perm_skip. apply perm_swap.
      + rewrite !(fun s s' => proj1 (dw_sel L a b s s' HL SB)). eexists; exists (hl_in L 0 a b), (hl_in L 1 a b). split; [reflexivity|]. split; [discriminate|]. split; [now apply exact_hin|]. split; [now apply exact_hin|].
        repeat (split; [reflexivity|]). split; [tauto|]. intros _. unfold mixed. cbn [app]. reflexivity. }
  assert (CON : forall F J, sel (F, J) (flat_map entry_emits D) <> [] -> considered n es N F J).
  { intros F J H. destruct (sel (F, J) (flat_map entry_emits D)) as [|e r] eqn:EQ; [congruence|]. assert (HE : In e (sel (F, J) (flat_map entry_emits D))) by (rewrite EQ; now left).
    apply filter_In in HE. destruct HE as [HE K]. destruct (key_eqb_spec (ekey e) (F, J)) as [K'|]; [|discriminate]. apply in_flat_map in HE. destruct HE as (en & Hen & HE).
    destruct (entry_state en Hen) as [(x & Hx & _ & QE)|[_ QE]]; rewrite QE in HE; [|destruct HE]. pose proof U as (HI & UM & UL). apply state_key in HE. rewrite K' in HE.
    destruct HE as [(M & j & HM & Hj & V)|(L & j & HL & Hj & V)].
    - rewrite HM in UM. exists N, j, x. split; [left; split; [reflexivity|apply UM]|]. rewrite Nat.add_1_r in *. split; [exists M; split; [apply UM|exact Hj]|]. split; [exists I; auto|].
      destruct V as [V|V]; injection V as -> ->; auto.
    - rewrite HL in UL. destruct UL as [UL1 UL2]. exists (N - 1)%nat, x, j. replace (S (N - 1)) with N by lia. split; [right; split; lia|]. split; [exists I; auto|]. split; [exists L; auto|].
      destruct V as [V|V]; injection V as -> ->; auto. }
  split.
  - intros F J. split.
    + intros (l & H). apply CON. destruct (P _ _ H) as [NE PM]. intros Z. rewrite Z in PM. apply Permutation_sym, Permutation_nil in PM. congruence.
    + intros C. apply Q. destruct (VAL F J C) as (l & g0 & g1 & -> & NE & _). exact NE.
  - intros F J l H. destruct (P _ _ H) as [NE PM].
    assert (C : considered n es N F J). { apply CON. intros Z. rewrite Z in PM. apply Permutation_sym, Permutation_nil in PM. congruence. }
    destruct (VAL F J C) as (l' & g0 & g1 & EL & _ & X0 & X1 & A1 & A2 & A3 & A4 & T & M). rewrite EL in PM. exists g0, g1. repeat (split; [assumption|]). split.
    + intros V. unfold twice. rewrite PM. now apply T.
    + intros V. unfold mixed. rewrite PM. now apply M.
Qed.
End Build.

Theorem extracted_full n es No N egs : nsolved n es -> chosen es No N -> (No = None -> egs <> None) -> links_stored n es N ->
  exists d X, co_elements n es No egs None = Ok d /\ extract_sequential d = Ok X /\ NoDup (map fst X) /\ (forall F J, (exists l, In ((F, J), l) X) <-> considered n es N F J) /\
  forall F J l, In ((F, J), l) X -> exists g0 g1, exact_nel n es 0 g0 /\ exact_nel n es 1 g1 /\ g_F g0 = F /\ g_I g0 = J /\ g_F g1 = F /\ g_I g1 = J /\
    (upper N F J -> twice l g0 g1) /\ (~ upper N F J -> mixed l g0 g1).
Proof.
  intros HS HC HG LK. destruct (choose_chosen n es No N egs HS HC HG) as (e & CH). unfold co_elements. rewrite CH. cbn [bind fst].
  destruct (linked_dec n N) as [K|K].
  - destruct (co_built n es HS N LK K) as (I & Mo & Lo & D & U & -> & ND & HD). cbn [bind]. exists (ksort D).
    destruct (extracted n es N HS I Mo Lo U (ksort D) (ksort_NoDup D ND)) as (X & EX); [|exists X; split; [reflexivity|exact EX]].
    intros k l. rewrite ksort_In. apply HD.
  - rewrite (none_linked n es N K). cbn [bind ksort fold_right]. exists [], []. split; [reflexivity|]. split; [reflexivity|]. split; [constructor|]. split.
    + intros F J. split; [intros (l & [])|]. intros (lo & a & b & L & _). exfalso. apply K. eauto.
    + intros F J l [].
Qed.
