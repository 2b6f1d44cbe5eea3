(** Second-order tunnelling elements of cotnl.py. *)
From Coq Require Import Reals List Arith NArith ZArith Bool Lia Lra Sorted Permutation.
From Verif Require Import Base RBase RLin OperatorsSpec FockSpec LookupModel SectorModel LocalModel MatvecModel EspaceModel ProjModel ProjSpec
  GfModel GfSpec RateModel RateSpec RateProofs TransModel TransSpec TransProofs CotModel CotSpec CotBuildProofs CotFinalProofs TnlModel TnlSpec TnlProofs TnlMatProofs CnlSpec.
Import ListNotations.
Local Open Scope R_scope.

Lemma mapM_map_in {A B} (f : A -> res B) (g : A -> B) l : (forall a, In a l -> f a = Ok (g a)) -> mapM f l = Ok (map g l).
Proof. induction l as [|a l IH]; intros H; cbn [mapM map]; auto. rewrite H by now left. cbn [bind]. rewrite IH by (intros; apply H; now right). reflexivity. Qed.

(** The rows of a path: one per intermediate state, with the amplitudes of all sites. *)
Definition rows_F (n s : nat) (op : fop) (S J : sct RRing) (f : nat) : list (list R) := map (fun j => namps n s op S J f j) (seq 0 (nvals J)).
Definition rows_I (n s : nat) (op : fop) (J S : sct RRing) (i : nat) : list (list R) := map (fun j => namps n s op J S j i) (seq 0 (nvals J)).
Definition more_path (n s' s : nat) (S M : sct RRing) (f i : nat) : path :=
  mkpath Electron (rows_F n s' OpC S M f) (rows_I n s OpCdg M S i) (map (fun k => energy M k - energy S f) (seq 0 (nvals M))) (energy S f - energy S i).
Definition less_path (n s' s : nat) (S L : sct RRing) (f i : nat) : path :=
  mkpath Hole (rows_F n s OpCdg S L f) (rows_I n s' OpC L S i) (map (fun k => energy S i - energy L k) (seq 0 (nvals L))) (energy S f - energy S i).

Lemma pairs_ok n NI NJ op1 op2 s1 s2 I J : nsector n NI I -> nsector n NJ J -> neighbour op2 NI NJ -> neighbour op1 NJ NI -> (s1 < 2)%nat -> (s2 < 2)%nat ->
  exists v w, excite_pairs (s1, s2) (op1, op2) n I J = Ok (v, w) /\
  (forall f, (f < nvals I)%nat -> row_of v f (nvals J) = rows_F n s1 op1 I J f) /\ (forall i, (i < nvals I)%nat -> col_of w i (nvals J) = rows_I n s2 op2 J I i).
Proof.
  intros SI SJ H2 H1 L1 L2. destruct (excite_ok n NI NJ op2 s2 I J SI SJ H2 L2) as (w & E2 & V2). destruct (excite_ok n NJ NI op1 s1 J I SJ SI H1 L1) as (v & E1 & V1).
  unfold excite_states in E1, E2. unfold excite_pairs. cbn [fst snd]. rewrite E2. cbn [bind]. rewrite E1. cbn [bind]. exists v, w. split; [reflexivity|]. split.
  - intros f Hf. unfold row_of, rows_F. apply map_ext_in. intros j Hj. apply in_seq in Hj. apply V1; [exact Hf|lia].
  - intros i Hi. unfold col_of, rows_I. apply map_ext_in. intros j Hj. apply in_seq in Hj. apply V2; [lia|exact Hi].
Qed.
Lemma vals_map {B} (s : sct RRing) (g : R -> B) : map g (s_vals RRing s) = map (fun k => g (energy s k)) (seq 0 (nvals s)).
Proof.
  unfold energy, nvals. change (car RRing) with R. induction (s_vals RRing s) as [|x l IH]; [reflexivity|]. cbn [length seq map nth]. f_equal. rewrite IH, <- seq_shift, map_map. reflexivity.
Qed.

Section Elements.
Variables (n : nat) (es : espace RRing).
Hypothesis HS : nsolved n es.
Notation nsec := (nsector_of n es HS).

(** All pairs of states of the sector, each with its path. *)
Definition square (N : nat) (S : sct RRing) (g : nat -> nat -> path) : list (key2 * path) :=
  map (fun fi : nat * nat => (([N; fst fi], [N; snd fi]), g (fst fi) (snd fi))) (ndindex (nvals S) (nvals S)).
Lemma square_NoDup N S g : NoDup (map fst (square N S g)).
Proof.
  unfold square. rewrite map_map. cbn [fst]. apply FinFun.Injective_map_NoDup; [|apply NoDup_ndindex]. intros [j i] [j' i'] Q. cbn [fst snd] in Q. injection Q as -> ->. reflexivity.
Qed.
Lemma ndindex_In a b x y : In (x, y) (ndindex a b) <-> (x < a)%nat /\ (y < b)%nat.
Proof.
  unfold ndindex. rewrite in_flat_map. split.
  - intros (k & Hk & H). apply in_map_iff in H. destruct H as (j & Q & Hj). injection Q as -> ->. apply in_seq in Hk, Hj. lia.
  - intros [A B]. exists x. split; [apply in_seq; lia|]. apply in_map_iff. exists y. split; [reflexivity|apply in_seq; lia].
Qed.
Lemma square_In N S g k p : In (k, p) (square N S g) <-> exists f i, (f < nvals S)%nat /\ (i < nvals S)%nat /\ k = ([N; f], [N; i]) /\ p = g f i.
Proof.
  unfold square. rewrite in_map_iff. split.
  - intros ([f i] & Q & H). injection Q as <- <-. apply ndindex_In in H. exists f, i. tauto.
  - intros (f & i & A & B & -> & ->). exists (f, i). split; [reflexivity|]. apply ndindex_In. auto.
Qed.
Lemma square_dpop N S g k : match dpop (square N S g) k with
  | Some p => exists f i, (f < nvals S)%nat /\ (i < nvals S)%nat /\ k = ([N; f], [N; i]) /\ p = g f i
  | None => forall f i, (f < nvals S)%nat -> (i < nvals S)%nat -> k <> ([N; f], [N; i]) end.
Proof.
  destruct (dpop (square N S g) k) as [p|] eqn:E.
  - apply (dpop_In _ _ _ (square_NoDup N S g)) in E. now apply square_In in E.
  - intros f i Hf Hi ->. apply dpop_None in E. apply E. apply (in_map fst _ (([N; f], [N; i]), g f i)). apply square_In. exists f, i. auto.
Qed.

Lemma more_ok s' s N I M : (s' < 2)%nat -> (s < 2)%nat -> In ([N], I) es -> In ([N + 1]%nat, M) es ->
  pair_electron (s', s) n N es = Ok (square N I (more_path n s' s I M)).
Proof.
  intros L1 L2 HI HM. unfold pair_electron. rewrite (es_get_In _ _ _ (proj1 HS) HI). cbn [bind]. rewrite (es_get_In _ _ _ (proj1 HS) HM). cbn [bind].
  destruct (pairs_ok n N (N + 1) OpC OpCdg s' s I M (nsec _ _ HI) (nsec _ _ HM)) as (v & w & -> & VF & VI); [cbn; lia|cbn; lia|auto|auto|].
  cbn [bind fst snd]. unfold square. f_equal. apply map_ext_in. intros [f i] H. apply ndindex_In in H. cbn [fst snd]. unfold more_path. f_equal. f_equal; [now apply VF|now apply VI|].
  exact (vals_map M (fun e => e - energy I f)).
Qed.
Lemma less_ok s' s N I L : (s' < 2)%nat -> (s < 2)%nat -> (0 < N)%nat -> In ([N], I) es -> In ([N - 1]%nat, L) es ->
  pair_hole (s, s') n N es = Ok (square N I (less_path n s' s I L)).
Proof.
  intros L1 L2 HN HI HL. unfold pair_hole. rewrite (es_get_In _ _ _ (proj1 HS) HI). cbn [bind]. rewrite (es_get_In _ _ _ (proj1 HS) HL). cbn [bind].
  destruct (pairs_ok n N (N - 1) OpCdg OpC s s' I L (nsec _ _ HI) (nsec _ _ HL)) as (v & w & -> & VF & VI); [cbn; lia|cbn; lia|auto|auto|].
  cbn [bind fst snd]. unfold square. f_equal. apply map_ext_in. intros [f i] H. apply ndindex_In in H. cbn [fst snd]. unfold less_path. f_equal. f_equal; [now apply VF|now apply VI|].
  exact (vals_map L (fun e => energy I i - e)).
Qed.

(** * One entry *)
Definition gf2_of (N s' s : nat) (I : sct RRing) (Mo Lo : option (sct RRing)) (f i : nat) : list path :=
  match Mo with Some M => [more_path n s' s I M f i] | None => [] end ++ match Lo with Some L => [less_path n s' s I L f i] | None => [] end.
Definition sig_of (N : nat) (I : sct RRing) (Mo Lo : option (sct RRing)) (f i : nat) (sp : nat * nat) : nsigma :=
  mknsigma sp (gf2_of N (fst sp) (snd sp) I Mo Lo f i) (energy I f - energy I i).

Definition sig_list (N : nat) (I : sct RRing) (Mo Lo : option (sct RRing)) (sp : nat * nat) : list (key2 * nsigma) :=
  map (fun fi : nat * nat => (([N; fst fi], [N; snd fi]), sig_of N I Mo Lo (fst fi) (snd fi) sp)) (ndindex (nvals I) (nvals I)).
Lemma kunion_same {V} (a b : list (key2 * V)) : (forall k, In k (map fst b) -> In k (map fst a)) -> kunion a b = map fst a.
Proof.
  intros H. unfold kunion. rewrite <- (app_nil_r (map fst a)) at 2. f_equal. induction (map fst b) as [|k l IH]; [reflexivity|]. cbn [filter].
  assert (X : existsb (fun e : key2 * V => key_eqb (fst e) k) a = true).
  { specialize (H k (or_introl eq_refl)). apply in_map_iff in H. destruct H as (e & <- & He). apply existsb_exists. exists e. split; [exact He|]. destruct (key_eqb_spec (fst e) (fst e)); congruence. }
  rewrite X. cbn [negb]. apply IH. intros k' Hk'. apply H. now right.
Qed.
Lemma square_keys N I g : map fst (square N I g) = map (fun fi : nat * nat => ([N; fst fi], [N; snd fi])) (ndindex (nvals I) (nvals I)).
Proof. unfold square. rewrite map_map. reflexivity. Qed.
Lemma square_get N I g f i : (f < nvals I)%nat -> (i < nvals I)%nat -> dpop (square N I g) ([N; f], [N; i]) = Some (g f i).
Proof. intros A B. apply dpop_In; [apply square_NoDup|]. apply square_In. exists f, i. auto. Qed.
Lemma mapM_map2 {A B C} (f : B -> res C) (h : A -> B) l : mapM f (map h l) = mapM (fun a => f (h a)) l.
Proof. induction l as [|a l IH]; cbn [map mapM]; [reflexivity|]. destruct (f (h a)); cbn [bind]; [|reflexivity]. now rewrite IH. Qed.

Variable N : nat.
Hypothesis LK : links_stored n es N.
(** The sectors that are used. *)
Definition used (I : sct RRing) (Mo Lo : option (sct RRing)) : Prop :=
  In ([N], I) es /\
  match Mo with Some M => (N + 1 < 2 * n)%nat /\ In ([N + 1]%nat, M) es | None => (2 * n <= N + 1)%nat end /\
  match Lo with Some L => (1 < N)%nat /\ In ([N - 1]%nat, L) es | None => (N <= 1)%nat end.
Lemma spins_ok I Mo Lo D s' s : used I Mo Lo -> (exists lo, linked n N lo) -> (s' < 2)%nat -> (s < 2)%nat ->
  co_spins n N es D (s', s) = Ok (dappend_all D (sig_list N I Mo Lo (s', s))).
Proof.
  intros (HI & HM & HL) (lo & K) L1 L2. unfold co_spins. cbn [fst snd].
  assert (EQ : exists a b, (if (N + 1 <? 2 * n)%nat then pair_electron (s', s) n N es else Ok []) = Ok a /\ (if (1 <? N)%nat then pair_hole (s, s') n N es else Ok []) = Ok b /\
    kunion a b = map (fun fi : nat * nat => ([N; fst fi], [N; snd fi])) (ndindex (nvals I) (nvals I)) /\
    forall f i, (f < nvals I)%nat -> (i < nvals I)%nat ->
      dpop a ([N; f], [N; i]) = match Mo with Some M => Some (more_path n s' s I M f i) | None => None end /\
      dpop b ([N; f], [N; i]) = match Lo with Some L => Some (less_path n s' s I L f i) | None => None end).
  { destruct Mo as [M|], Lo as [L|].
    - destruct HM as [HM1 HM2], HL as [HL1 HL2]. destruct (Nat.ltb_spec (N + 1) (2 * n)); [|lia]. destruct (Nat.ltb_spec 1 N); [|lia].
      exists (square N I (more_path n s' s I M)), (square N I (less_path n s' s I L)). split; [now apply more_ok|]. split; [apply less_ok; auto; lia|].
      split; [rewrite kunion_same; [apply square_keys|]; intros k; now rewrite !square_keys|]. intros f i A B. now rewrite !square_get.
    - destruct HM as [HM1 HM2]. destruct (Nat.ltb_spec (N + 1) (2 * n)); [|lia]. destruct (Nat.ltb_spec 1 N); [lia|].
      exists (square N I (more_path n s' s I M)), []. split; [now apply more_ok|]. split; [reflexivity|].
      split; [rewrite kunion_same; [apply square_keys|]; intros k []|]. intros f i A B. now rewrite !square_get.
    - destruct HL as [HL1 HL2]. destruct (Nat.ltb_spec (N + 1) (2 * n)); [lia|]. destruct (Nat.ltb_spec 1 N); [|lia].
      exists [], (square N I (less_path n s' s I L)). split; [reflexivity|]. split; [apply less_ok; auto; lia|].
      split; [|intros f i A B; now rewrite !square_get]. unfold kunion. cbn [map app existsb negb]. rewrite <- (square_keys N I (less_path n s' s I L)).
      induction (map fst (square N I (less_path n s' s I L))) as [|x l IH]; [reflexivity|]. cbn [filter]. now rewrite IH.
    - destruct K as [[-> K]|[<- K]]; lia. }
  destruct EQ as (a & b & -> & -> & KU & GET). cbn [bind]. rewrite KU, mapM_map2.
  rewrite (mapM_map_in _ (fun fi : nat * nat => (([N; fst fi], [N; snd fi]), sig_of N I Mo Lo (fst fi) (snd fi) (s', s)))); [reflexivity|].
  intros [f i] H. apply ndindex_In in H. destruct H as [A B]. cbn [fst snd]. destruct (GET f i A B) as [-> ->]. unfold sig_of, gf2_of. cbn [fst snd].
  destruct Mo as [M|], Lo as [L|]; cbn [mk_nsigma app bind]; try reflexivity. exfalso. destruct K as [[-> K]|[<- K]]; lia.
Qed.
Lemma sig_list_NoDup I Mo Lo sp : NoDup (map fst (sig_list N I Mo Lo sp)).
Proof.
  unfold sig_list. rewrite map_map. cbn [fst]. apply FinFun.Injective_map_NoDup; [|apply NoDup_ndindex]. intros [j i] [j' i'] Q. cbn [fst snd] in Q. injection Q as -> ->. reflexivity.
Qed.
Lemma sig_list_get I Mo Lo sp k : match dpop (sig_list N I Mo Lo sp) k with
  | Some x => exists f i, (f < nvals I)%nat /\ (i < nvals I)%nat /\ k = ([N; f], [N; i]) /\ x = sig_of N I Mo Lo f i sp
  | None => forall f i, (f < nvals I)%nat -> (i < nvals I)%nat -> k <> ([N; f], [N; i]) end.
Proof.
  destruct (dpop (sig_list N I Mo Lo sp) k) as [x|] eqn:E.
  - apply (dpop_In _ _ _ (sig_list_NoDup I Mo Lo sp)) in E. unfold sig_list in E. apply in_map_iff in E. destruct E as ([f i] & Q & H). injection Q as <- <-. apply ndindex_In in H. exists f, i. tauto.
  - intros f i Hf Hi ->. apply dpop_None in E. apply E. unfold sig_list. rewrite map_map. cbn [fst]. apply in_map_iff. exists (f, i). split; [reflexivity|]. apply ndindex_In. auto.
Qed.
Lemma spins_foldM I Mo Lo sps : used I Mo Lo -> (exists lo, linked n N lo) -> Forall (fun sp : nat * nat => (fst sp < 2 /\ snd sp < 2)%nat) sps -> forall done D,
  NoDup (map fst D) ->
  (forall k, match dpop D k with
    | Some l => exists f i, (f < nvals I)%nat /\ (i < nvals I)%nat /\ k = ([N; f], [N; i]) /\ l = map (sig_of N I Mo Lo f i) done
    | None => done = [] \/ forall f i, (f < nvals I)%nat -> (i < nvals I)%nat -> k <> ([N; f], [N; i]) end) ->
  exists D', foldM (co_spins n N es) sps D = Ok D' /\ NoDup (map fst D') /\
  (forall k, match dpop D' k with
    | Some l => exists f i, (f < nvals I)%nat /\ (i < nvals I)%nat /\ k = ([N; f], [N; i]) /\ l = map (sig_of N I Mo Lo f i) (done ++ sps)
    | None => done ++ sps = [] \/ forall f i, (f < nvals I)%nat -> (i < nvals I)%nat -> k <> ([N; f], [N; i]) end).
Proof.
  intros U K F. induction F as [|[s' s] sps [L1 L2] F IH]; intros done D ND H; cbn [foldM].
  - exists D. rewrite app_nil_r. auto.
  - cbn [fst snd] in L1, L2. rewrite (spins_ok I Mo Lo D s' s U K L1 L2). cbn [bind].
    destruct (IH (done ++ [(s', s)]) (dappend_all D (sig_list N I Mo Lo (s', s)))) as (D' & E & ND' & H').
    + now apply dappend_all_NoDup.
    + intros k. rewrite dpop_append_all by apply sig_list_NoDup. pose proof (sig_list_get I Mo Lo (s', s) k) as SG. specialize (H k). destruct (dpop (sig_list N I Mo Lo (s', s)) k) as [x|].
      * destruct SG as (f & i & A & B & -> & ->). exists f, i. repeat split; auto. rewrite map_app. cbn [map]. destruct (dpop D ([N; f], [N; i])) as [l|].
        -- destruct H as (f' & i' & _ & _ & Q & ->). injection Q as -> ->. reflexivity.
        -- destruct H as [-> |H]; [reflexivity|]. exfalso. now apply (H f i).
      * destruct (dpop D k) as [l|]; [|right; exact SG]. destruct H as (f & i & A & B & -> & _). exfalso. now apply (SG f i).
    + exists D'. rewrite <- app_assoc in H'. auto.
Qed.
Lemma used_exists : (exists lo, linked n N lo) -> exists I Mo Lo, used I Mo Lo.
Proof.
  intros (lo & K). assert (S : stored es N) by (destruct K as [[-> K]|[<- K]]; [apply (LK N); now left|apply (LK lo); now right]). destruct S as (I & HI).
  assert (X : exists Mo, match Mo with Some M => (N + 1 < 2 * n)%nat /\ In ([N + 1]%nat, M) es | None => (2 * n <= N + 1)%nat end).
  { destruct (Nat.lt_ge_cases (N + 1) (2 * n)) as [L|L]; [|now exists None]. destruct (LK N) as [_ (M & HM)]; [left; auto|]. exists (Some M). rewrite Nat.add_1_r in *. auto. }
  assert (Y : exists Lo, match Lo with Some L => (1 < N)%nat /\ In ([N - 1]%nat, L) es | None => (N <= 1)%nat end).
  { destruct (Nat.lt_ge_cases 1 N) as [L|L]; [|now exists None]. destruct (LK (N - 1)%nat) as [(M & HM) _]; [right; split; lia|]. exists (Some M). auto. }
  destruct X as (Mo & X), Y as (Lo & Y). exists I, Mo, Lo. repeat split; auto.
Qed.
Lemma none_linked : ~ (exists lo, linked n N lo) -> foldM (co_spins n N es) spin_pairs [] = Ok [].
Proof.
  intros K. assert (A : (N + 1 <? 2 * n)%nat = false) by (apply Nat.ltb_ge; destruct (Nat.lt_ge_cases (N + 1) (2 * n)); [exfalso; apply K; exists N; left; auto|assumption]).
  assert (B : (1 <? N)%nat = false) by (apply Nat.ltb_ge; destruct (Nat.lt_ge_cases 1 N); [exfalso; apply K; exists (N - 1)%nat; right; split; lia|assumption]).
  unfold spin_pairs, co_spins. cbn [foldM]. rewrite A, B. reflexivity.
Qed.
End Elements.

(** * Values *)
Lemma overlap_coupled n spin op J I j i a : length a = n -> overlap (namps n spin op J I j i) a = coupled n spin op J I j i a.
Proof.
  intros L. unfold overlap, coupled, namps. rewrite map_length, seq_length. apply rsum_ext. intros p Hp.
  rewrite (nth_indep _ 0 (namp n op (0 + spin * n) J I j i)) by (rewrite map_length, seq_length; exact Hp). rewrite (map_nth (fun pos => namp n op (pos + spin * n) J I j i)), seq_nth by exact Hp. rewrite Nat.add_0_l. apply Rmult_comm.
Qed.
Lemma amp_rows_ok n a l (g : nat -> list R) : length a = n -> (forall j, length (g j) = n) -> amp_rows a (map g l) = Ok (map (fun j => overlap (g j) a) l).
Proof.
  intros L H. unfold amp_rows. rewrite mapM_map2. apply mapM_map_in. intros j _. apply dotv_overlap. split; [now rewrite H|reflexivity].
Qed.
Lemma namps_length n spin op J I j i : length (namps n spin op J I j i) = n.
Proof. unfold namps. now rewrite map_length, seq_length. Qed.
Lemma nth_map_seq (g : nat -> R) m k : (k < m)%nat -> nth k (map g (seq 0 m)) 0 = g k.
Proof. intros H. rewrite (nth_indep _ 0 (g O)) by (rewrite map_length, seq_length; exact H). now rewrite map_nth, seq_nth. Qed.
Lemma more_call n s' s S M f i z A ext inj ae ai : nth_error A ext = Some ae -> nth_error A inj = Some ai -> length ae = n -> length ai = n ->
  path_call (more_path n s' s S M f i) z A ext inj = Ok (via_more n s' s ae ai S M f i z).
Proof.
  intros Ee Ei Le Li. unfold path_call, path_y, lead. rewrite Ee, Ei. cbn [bind more_path p_kind p_vF p_vI p_E]. unfold rows_F, rows_I.
  rewrite (amp_rows_ok n) by (auto; intros; apply namps_length). cbn [bind]. rewrite (amp_rows_ok n) by (auto; intros; apply namps_length). cbn [bind].
  f_equal. rewrite map_length, seq_length. unfold via_more. apply rsum_ext. intros k Hk. rewrite !nth_map_seq by auto. rewrite !overlap_coupled by auto. reflexivity.
Qed.
Lemma less_call n s' s S L f i z A ext inj ae ai : nth_error A ext = Some ae -> nth_error A inj = Some ai -> length ae = n -> length ai = n ->
  path_call (less_path n s' s S L f i) z A ext inj = Ok (via_less n s' s ae ai S L f i z).
Proof.
  intros Ee Ei Le Li. unfold path_call, path_y, lead. rewrite Ee, Ei. cbn [bind less_path p_kind p_vF p_vI p_E]. unfold rows_F, rows_I.
  rewrite (amp_rows_ok n) by (auto; intros; apply namps_length). cbn [bind]. rewrite (amp_rows_ok n) by (auto; intros; apply namps_length). cbn [bind].
  f_equal. rewrite map_length, seq_length. unfold via_less. apply rsum_ext. intros k Hk. rewrite !nth_map_seq by auto. rewrite !overlap_coupled by auto. reflexivity.
Qed.
Lemma sig_call n es N I Mo Lo f i sp z A ext inj ae ai : used n es N I Mo Lo -> nth_error A ext = Some ae -> nth_error A inj = Some ai -> length ae = n -> length ai = n ->
  exists T, second_order n es N (fst sp) (snd sp) ae ai f i z T /\ nsigma_call (sig_of n N I Mo Lo f i sp) z A ext inj = Ok (T ^ 2).
Proof.
  intros (HI & HM & HL) Ee Ei Le Li. unfold nsigma_call, sig_of, gf2_of. cbn [n_gf2].
  set (x := match Mo with Some M => via_more n (fst sp) (snd sp) ae ai I M f i z | None => 0 end). set (y := match Lo with Some L => via_less n (fst sp) (snd sp) ae ai I L f i z | None => 0 end).
  exists (x + y). split.
  - exists I, x, y. split; [exact HI|]. split; [|split; [|reflexivity]].
    + destruct Mo as [M|]; [destruct HM as [HM1 HM2]; destruct (Nat.ltb_spec (N + 1) (2 * n)); [|lia]; exists M; auto|]. destruct (Nat.ltb_spec (N + 1) (2 * n)); [lia|reflexivity].
    + destruct Lo as [L|]; [destruct HL as [HL1 HL2]; destruct (Nat.ltb_spec 1 N); [|lia]; exists L; auto|]. destruct (Nat.ltb_spec 1 N); [lia|reflexivity].
  - unfold x, y. destruct Mo as [M|], Lo as [L|]; cbn [app foldM].
    + rewrite (more_call n _ _ I M f i z A ext inj ae ai Ee Ei Le Li). cbn [bind]. rewrite (less_call n _ _ I L f i z A ext inj ae ai Ee Ei Le Li). cbn [bind]; f_equal; ring.
    + rewrite (more_call n _ _ I M f i z A ext inj ae ai Ee Ei Le Li). cbn [bind]; f_equal; ring.
    + rewrite (less_call n _ _ I L f i z A ext inj ae ai Ee Ei Le Li). cbn [bind]; f_equal; ring.
    + cbn [bind]; f_equal; ring.
Qed.

(** A stored element for the process with spins [sp]. *)
Definition exact_sig (n : nat) (es : espace RRing) (N f i : nat) (sp : nat * nat) (s : nsigma) : Prop :=
  n_spins s = sp /\ (exists S, In ([N], S) es /\ n_dE s = energy S f - energy S i) /\
  forall A ext inj ae ai z, nth_error A ext = Some ae -> nth_error A inj = Some ai -> length ae = n -> length ai = n ->
    exists T, second_order n es N (fst sp) (snd sp) ae ai f i z T /\ nsigma_call s z A ext inj = Ok (T ^ 2).

Theorem co_elements_full n es No N egs : nsolved n es -> chosen es No N -> (No = None -> egs <> None) -> links_stored n es N ->
  exists d, co_elements n es No egs None = Ok d /\ StronglySorted kbefore (map fst d) /\ NoDup (map fst d) /\
  (forall F I, (exists l, In ((F, I), l) d) <-> (exists lo, linked n N lo) /\ exists f i, F = [N; f] /\ I = [N; i] /\ is_state es N f /\ is_state es N i) /\
  (forall f i l, In (([N; f], [N; i]), l) d -> Forall2 (exact_sig n es N f i) [(0, 0); (0, 1); (1, 0); (1, 1)]%nat l).
Proof.
  intros HS HC HG LK. destruct (choose_chosen n es No N egs HS HC HG) as (e & CH). unfold co_elements. rewrite CH. cbn [bind fst].
  assert (DEC : (exists lo, linked n N lo) \/ ~ (exists lo, linked n N lo)).
  { destruct (Nat.lt_ge_cases (N + 1) (2 * n)) as [L|L]; [left; exists N; left; auto|]. destruct (Nat.lt_ge_cases 1 N) as [L'|L']; [left; exists (N - 1)%nat; right; split; lia|].
    right. intros (lo & [[-> K]|[<- K]]); lia. }
  destruct DEC as [K|K].
  - destruct (used_exists n es N LK K) as (I & Mo & Lo & U).
    destruct (spins_foldM n es HS N LK I Mo Lo spin_pairs U K) with (done := @nil (nat * nat)) (D := @nil (key2 * list nsigma)) as (D & E & ND & V).
    + repeat constructor; cbn; lia.
    + constructor.
    + intros k. cbn. now left.
    + rewrite E. cbn [bind]. exists (ksort D). split; [reflexivity|]. split; [now apply ksort_sorted|]. pose proof (ksort_NoDup D ND) as ND'. split; [exact ND'|]. split.
      * intros F J. split.
        -- intros (l & H). apply ksort_In, (dpop_In _ _ _ ND) in H. specialize (V (F, J)). rewrite H in V. destruct V as (f & i & A & B & Q & _). injection Q as -> ->.
           split; [exact K|]. exists f, i. repeat split; auto; exists I; (split; [apply U|assumption]).
        -- intros (_ & f & i & -> & -> & SF & SI). apply (is_state_iff n es HS N I _ (proj1 U)) in SF, SI. specialize (V ([N; f], [N; i])). destruct (dpop D ([N; f], [N; i])) as [l|] eqn:Q.
           ++ exists l. apply ksort_In. now apply (dpop_In _ _ _ ND).
           ++ destruct V as [V|V]; [discriminate V|]. exfalso. now apply (V f i).
      * intros f i l H. apply ksort_In, (dpop_In _ _ _ ND) in H. specialize (V ([N; f], [N; i])). rewrite H in V. destruct V as (f' & i' & A & B & Q & ->). injection Q as <- <-.
        assert (X : forall sp, exact_sig n es N f i sp (sig_of n N I Mo Lo f i sp)).
        { intros sp. split; [reflexivity|]. split; [exists I; split; [apply U|reflexivity]|]. intros AA ext inj ae ai z Ee Ei Le Li. now apply sig_call. }
        cbn [app spin_pairs map]. repeat constructor; apply X.
  - rewrite (none_linked n es N K). cbn [bind ksort fold_right]. exists []. split; [reflexivity|]. split; [constructor|]. split; [constructor|]. split.
    + intros F I. split; [intros (l & [])|]. intros [K' _]. contradiction.
    + intros f i l [].
Qed.

(** * Reversal *)
Lemma coupled_adj n spin op J I j i a : coupled n spin op J I j i a = coupled n spin (opp_op op) I J i j a.
Proof. unfold coupled. apply rsum_ext. intros p _. f_equal. apply namp_adj. Qed.
Theorem second_order_reversed n es N s' s ae ai f i z T : nsolved n es -> second_order n es N s' s ae ai f i z T ->
  forall S, In ([N], S) es -> second_order n es N s s' ai ae i f (z + (energy S f - energy S i)) T.
Proof.
  intros HS (S0 & x & y & HI & HM & HL & ->) S HS'. pose proof (nst_unique n es HS _ _ _ HI HS'). subst S0. exists S, x, y. split; [exact HI|]. split; [|split; [|reflexivity]].
  - destruct (Nat.ltb_spec (N + 1) (2 * n)); [|exact HM]. destruct HM as (M & HM & ->). exists M. split; [exact HM|]. unfold via_more. apply rsum_ext. intros k _.
    rewrite (coupled_adj n s' OpC S M), (coupled_adj n s OpCdg M S). cbn [opp_op]. unfold Rdiv. rewrite (Rmult_comm (coupled n s' OpCdg M S k f ai)). f_equal. f_equal. ring.
  - destruct (Nat.ltb_spec 1 N); [|exact HL]. destruct HL as (L & HL & ->). exists L. split; [exact HL|]. unfold via_less. apply rsum_ext. intros k _.
    rewrite (coupled_adj n s OpCdg S L), (coupled_adj n s' OpC L S). cbn [opp_op]. unfold Rdiv. rewrite (Rmult_comm (coupled n s OpC L S k f ae)). f_equal. f_equal. ring.
Qed.
Lemma second_order_fun n es N s' s ae ai f i z T T' : nsolved n es -> second_order n es N s' s ae ai f i z T -> second_order n es N s' s ae ai f i z T' -> T = T'.
Proof.
  intros HS (S & x & y & HI & HM & HL & ->) (S' & x' & y' & HI' & HM' & HL' & ->). pose proof (nst_unique n es HS _ _ _ HI HI'). subst S'. f_equal.
  - destruct (Nat.ltb_spec (N + 1) (2 * n)); [|congruence]. destruct HM as (M & HM & ->), HM' as (M' & HM'' & ->). now rewrite (nst_unique n es HS _ _ _ HM HM'').
  - destruct (Nat.ltb_spec 1 N); [|congruence]. destruct HL as (L & HL & ->), HL' as (L' & HL'' & ->). now rewrite (nst_unique n es HS _ _ _ HL HL'').
Qed.
