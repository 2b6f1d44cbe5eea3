(** Proofs about the exchange and pair-hopping builders. *)
From Coq Require Import List Arith NArith ZArith Lia Bool Ring.
From Verif Require Import Base OperatorsModel OperatorsSpec OperatorsProofs LookupModel LookupSpec
  LookupProofs SectorModel SectorSpec SectorProofs FockSpec FockProofs LocalModel HoppingModel
  CsrSpec CsrProofs HoppingProofs NonLocalModel NonLocalSpec NonLocalFock.
Import ListNotations.

(** ** Words and particle number *)

Definition crs (l : list ladder_op) : nat :=
  length (filter (fun o => match o with Cr _ => true | An _ => false end) l).
Definition ans (l : list ladder_op) : nat :=
  length (filter (fun o => match o with Cr _ => false | An _ => true end) l).

Lemma word_popcount n l s z t : (s < 2 ^ N.of_nat n)%N -> Forall (op_lt n) l ->
  word n l s = Some (z, t) -> popcount t + ans l = popcount s + crs l.
Proof.
  intros Hs Hl. revert z t. induction Hl as [|o l Ho Hl IH]; intros z t; cbn [word].
  - intros E; inversion E; subst. reflexivity.
  - destruct (word n l s) as [[z1 u]|] eqn:Ew; [|discriminate].
    destruct (app1 n o u) as [[z2 v]|] eqn:E; [|discriminate]. intros E'; inversion E'; subst.
    assert (Hu := word_lt n l s z1 u Hs Hl Ew). specialize (IH _ _ eq_refl).
    pose proof (app1_toggles _ _ _ _ _ E) as T.
    destruct o as [i|i]; cbn in Ho, T; destruct (popcount_toggle u t i n Hu Ho T) as [_ P];
      unfold crs, ans in *; cbn [filter length]; cbn [app1] in E; destruct (occ u i) eqn:O;
      try discriminate.
    + lia.
    + assert (0 < popcount u).
      { apply popcount_pos. destruct (N.eq_dec u 0) as [->|]; [|lia]. rewrite occ_0 in O. discriminate. }
      lia.
Qed.

Lemma word_in_sector n l s z t p : in_sector n p s -> Forall (op_lt n) l -> crs l = ans l ->
  word n l s = Some (z, t) -> in_sector n p t.
Proof.
  intros [Hs Hp] Hl Hc E. split; [eapply word_lt; eauto|].
  pose proof (word_popcount n l s z t Hs Hl E). lia.
Qed.

Lemma exch_word_lt n i j s s' : i < n -> j < n -> s <= 1 -> s' <= 1 ->
  Forall (op_lt (2 * n)) (exch_word n i j s s').
Proof.
  intros. unfold exch_word. repeat constructor; cbn;
    destruct s as [|[|]]; destruct s' as [|[|]]; lia.
Qed.
Lemma pair_word_lt n i j s : i < n -> j < n -> s <= 1 ->
  Forall (op_lt (2 * n)) (pair_word n i j s).
Proof.
  intros. unfold pair_word. repeat constructor; cbn; destruct s as [|[|]]; lia.
Qed.

(** ** The N-symmetric builder *)

Lemma foldM_acc {A B} (f : list A -> B -> res (list A)) (g : B -> list A) l : forall acc,
  (forall acc b, In b l -> f acc b = Ok (acc ++ g b)) ->
  foldM f l acc = Ok (acc ++ flat_map g l).
Proof.
  induction l as [|b l IH]; intros acc H; cbn [foldM flat_map].
  - now rewrite app_nil_r.
  - rewrite H by now left. cbn [bind]. rewrite IH, app_assoc; auto. intros; apply H; now right.
Qed.

Section NL.
Variable K : CRing.
Variable big : K -> bool.
Variable half : K.
Local Open Scope cr_scope.
Add Ring Kring : (cth K).

Lemma compress_spec n J : compress K big n J =
  Ok (count_nnz_offdiag K big n J, mk K (count_nnz_offdiag K big n J) n n (Trows K big n J) []).
Proof. unfold compress. now rewrite nnz_offdiag_spec. Qed.

Lemma for_row_Trow {B} n J nnz i (f : B -> nat -> res K -> res B) st : (i < n)%nat ->
  for_row K (mk K nnz n n (Trows K big n J) []) i f st =
  foldM (fun st e => f st (Z.to_nat (fst e)) (Ok (snd e))) (Trow K big n J i) st.
Proof. intros H. unfold for_row. now rewrite (foldM_Trow K big n J nnz (fun st j v => f st (Z.to_nat j) v)). Qed.

Lemma c_lt s i n z t : (s < 2^32)%N -> c s i n = Ok (z, t) -> (t < 2^32)%N.
Proof.
  intros Hs. rewrite c_closed by auto. destruct (occ s i); [|discriminate].
  intros E; inversion E. apply flip_lt.
Qed.
Lemma cdg_lt s i n z t : (s < 2^32)%N -> cdg s i n = Ok (z, t) -> (t < 2^32)%N.
Proof.
  intros Hs. rewrite cdg_closed by auto. destruct ((i <? 32)%nat && negb (occ s i)); [|discriminate].
  intros E; inversion E. apply flip_lt.
Qed.

Definition qentry (n : nat) (states : list N) (s : N) (W : list ladder_op) (v : K) : list (Z * K) :=
  match word (2 * n) W s with
  | None => []
  | Some (z, f) => [(idx states f, z2k z * v * half)]
  end.

Lemma quad_spec n states s a1 a2 c3 c4 v acc : (s < 2^32)%N ->
  (a1 < 32 -> a2 < 32 -> c3 < 32 -> c4 < 32 ->
  quad K half n states s a1 a2 c3 c4 (Ok v) acc =
  Ok (acc ++ qentry n states s [Cr c4; Cr c3; An a2; An a1] v))%nat.
Proof.
  intros Hs H1 H2 H3 H4. unfold quad, qentry. cbn [word].
  rewrite app1_c by auto.
  destruct (c s a1 (2 * n)) as [[z0 s0]|] eqn:E0; cbn [bind to_opt fst snd]; [|now rewrite app_nil_r].
  assert (L0 := c_lt _ _ _ _ _ Hs E0). rewrite app1_c by auto.
  destruct (c s0 a2 (2 * n)) as [[z1 s1]|] eqn:E1; cbn [bind to_opt fst snd]; [|now rewrite app_nil_r].
  assert (L1 := c_lt _ _ _ _ _ L0 E1). rewrite app1_cdg by auto.
  destruct (cdg s1 c3 (2 * n)) as [[z2 s2]|] eqn:E2; cbn [bind to_opt fst snd]; [|now rewrite app_nil_r].
  assert (L2 := cdg_lt _ _ _ _ _ L1 E2). rewrite app1_cdg by auto.
  destruct (cdg s2 c4 (2 * n)) as [[z3 s3]|] eqn:E3; cbn [bind to_opt fst snd]; [|now rewrite app_nil_r].
  rewrite binsearch_idx. cbn [bind].
  replace (z0 * z1 * z2 * z3)%Z with (z3 * (z2 * (z1 * (z0 * 1))))%Z by ring. reflexivity.
Qed.

Definition sgs : list (nat * nat) := [(0, 0); (0, 1); (1, 0); (1, 1)]%nat.
Definition nx_entries (n : nat) (J : nat -> nat -> K) (states : list N) (s : N) (i : nat) : list (Z * K) :=
  flat_map (fun e => flat_map (fun sg => qentry n states s (exch_word n i (Z.to_nat (fst e)) (fst sg) (snd sg)) (snd e)) sgs)
           (Trow K big n J i).
Definition np_entries (n : nat) (J : nat -> nat -> K) (states : list N) (s : N) (i : nat) : list (Z * K) :=
  flat_map (fun e => flat_map (fun sg => qentry n states s (pair_word n i (Z.to_nat (fst e)) sg) (snd e)) [0; 1]%nat)
           (Trow K big n J i).

Lemma n_exch_spec n J nnz states s acc i : (i < n)%nat -> (2 * n <= 32)%nat -> (s < 2^32)%N ->
  n_exch K half n (mk K nnz n n (Trows K big n J) []) states s acc i =
  Ok (acc ++ nx_entries n J states s i).
Proof.
  intros Hi Hn Hs. unfold n_exch. rewrite for_row_Trow by auto. unfold nx_entries.
  apply foldM_acc. intros acc' e He. apply Trow_In in He. destruct He as [j [Hj [_ [_ ->]]]].
  cbn [fst snd]. rewrite Nat2Z.id. apply foldM_acc. intros acc'' [sg gm] Hsg. cbn [fst snd].
  apply quad_spec; auto; destruct Hsg as [H|[H|[H|[H|[]]]]]; inversion H; lia.
Qed.

Lemma n_pair_spec n J nnz states s acc i : (i < n)%nat -> (2 * n <= 32)%nat -> (s < 2^32)%N ->
  n_pair K half n (mk K nnz n n (Trows K big n J) []) states s acc i =
  Ok (acc ++ np_entries n J states s i).
Proof.
  intros Hi Hn Hs. unfold n_pair. rewrite for_row_Trow by auto. unfold np_entries.
  apply foldM_acc. intros acc' e He. apply Trow_In in He. destruct He as [j [Hj [_ [_ ->]]]].
  cbn [fst snd]. rewrite Nat2Z.id. cbn [foldM flat_map].
  rewrite !quad_spec by (auto; lia). cbn [bind]. rewrite quad_spec by (auto; lia). cbn [bind].
  rewrite app_nil_r, <- app_assoc. reflexivity.
Qed.

Definition n_row_entries (n : nat) (Jx Jp : option (nat -> nat -> K)) (states : list N) (s : N) : list (Z * K) :=
  match Jx with None => [] | Some J => flat_map (nx_entries n J states s) (seq 0 n) end ++
  match Jp with None => [] | Some J => flat_map (np_entries n J states s) (seq 0 n) end.

Definition copt (n : nat) (J : option (nat -> nat -> K)) : nat * option (csr K) :=
  match J with
  | None => (0%nat, None)
  | Some J => (count_nnz_offdiag K big n J, Some (mk K (count_nnz_offdiag K big n J) n n (Trows K big n J) []))
  end.

Lemma compress_opt_spec n J : compress_opt K big n J = Ok (copt n J).
Proof. destruct J; cbn; auto. rewrite compress_spec. reflexivity. Qed.

Lemma last_psums {A} (rows : list (list A)) : last (psums 0 rows) 0%nat = length (concat rows).
Proof.
  induction rows as [|r rows _] using rev_ind; [reflexivity|].
  rewrite psums_app, last_last, concat_app, app_length. cbn. rewrite app_nil_r. reflexivity.
Qed.

Lemma n_row_spec n Jx Jp states rows s : (2 * n <= 32)%nat -> (s < 2^32)%N ->
  n_row K half n (snd (copt n Jx)) (snd (copt n Jp)) states (concat rows, psums 0 rows) s =
  Ok (concat (rows ++ [n_row_entries n Jx Jp states s]), psums 0 (rows ++ [n_row_entries n Jx Jp states s])).
Proof.
  intros Hn Hs. unfold n_row.
  assert (E1 : match snd (copt n Jx) with
           | None => Ok (concat rows)
           | Some Jx => foldM (n_exch K half n Jx states s) (seq 0 n) (concat rows)
           end = Ok (concat rows ++ match Jx with None => [] | Some J => flat_map (nx_entries n J states s) (seq 0 n) end)).
  { destruct Jx as [J|]; cbn [copt snd]; [|now rewrite app_nil_r].
    apply foldM_acc. intros acc i Hi. apply in_seq in Hi. apply n_exch_spec; auto; lia. }
  rewrite E1. cbn [bind].
  set (acc := concat rows ++ _).
  assert (E2 : match snd (copt n Jp) with
           | None => Ok acc
           | Some Jp => foldM (n_pair K half n Jp states s) (seq 0 n) acc
           end = Ok (acc ++ match Jp with None => [] | Some J => flat_map (np_entries n J states s) (seq 0 n) end)).
  { destruct Jp as [J|]; cbn [copt snd]; [|now rewrite app_nil_r].
    apply foldM_acc. intros acc' i Hi. apply in_seq in Hi. apply n_pair_spec; auto; lia. }
  rewrite E2. cbn [bind]. unfold acc. rewrite <- app_assoc. fold (n_row_entries n Jx Jp states s).
  rewrite concat_app, psums_app, last_psums. cbn [concat]. rewrite app_nil_r, app_length.
  do 5 f_equal. lia.
Qed.

Lemma build_nl_n_spec n Jx Jp states : (2 * n <= 32)%nat -> (Jx <> None \/ Jp <> None) ->
  states <> [] -> (forall s, In s states -> (s < 2^32)%N) ->
  build_nl_n K big half n Jx Jp states =
  Ok (sp_of K (length states) (length states) (map (n_row_entries n Jx Jp states) states)).
Proof.
  intros Hn HJ Hne Hs. unfold build_nl_n.
  assert (G : forall l rows, (forall s, In s l -> (s < 2^32)%N) ->
    foldM (n_row K half n (snd (copt n Jx)) (snd (copt n Jp)) states) l (concat rows, psums 0 rows) =
    Ok (concat (rows ++ map (n_row_entries n Jx Jp states) l), psums 0 (rows ++ map (n_row_entries n Jx Jp states) l))).
  { induction l as [|s l IH]; intros rows Hl; cbn [foldM map]; [now rewrite app_nil_r|].
    rewrite n_row_spec by (auto; apply Hl; now left). cbn [bind].
    rewrite IH by (intros; apply Hl; now right). rewrite <- app_assoc. reflexivity. }
  specialize (G states [] Hs). cbn [concat psums app] in G.
  rewrite !compress_opt_spec. cbn [bind].
  destruct Jx, Jp; try (destruct HJ; congruence); destruct states; try congruence;
    rewrite G; reflexivity.
Qed.

(** Column sums of the appended entries. *)
Lemma qentry_sum n p s W v b sb : (2 * n <= 32)%nat -> in_sector (2 * n) p s ->
  Forall (op_lt (2 * n)) W -> crs W = ans W -> nth_error (cand (2 * n) p) b = Some sb ->
  bsum (fun e => if Z.eqb (fst e) (Z.of_nat b) then snd e else 0) (qentry n (cand (2 * n) p) s W v) =
  v * half * z2k (elem (2 * n) W sb s).
Proof.
  intros Hn Hs HW Hc Hb. unfold qentry, elem.
  destruct (word (2 * n) W s) as [[z f]|] eqn:E; cbn [bsum fst snd]; [|cbn; ring].
  assert (Hf := word_in_sector _ _ _ _ _ _ Hs HW Hc E).
  destruct (idx_cand (2 * n) p f Hf) as [k [_ [Hk ->]]].
  destruct (Z.eqb_spec (Z.of_nat k) (Z.of_nat b)) as [Ez|Ez].
  - assert (k = b) by lia. subst k. assert (f = sb) by congruence. subst. rewrite N.eqb_refl. ring.
  - destruct (N.eqb_spec f sb) as [->|]; [|cbn; ring].
    exfalso. apply Ez. f_equal. apply (increasing_nth_inj (cand (2 * n) p) k b sb); auto using cand_increasing.
Qed.

Lemma nsum_distr n m (f g : nat -> nat -> K) :
  nsum n (fun i => nsum m (fun j => f i j)) + nsum n (fun i => nsum m (fun j => g i j)) =
  nsum n (fun i => nsum m (fun j => f i j + g i j)).
Proof. rewrite <- nsum_add. apply nsum_ext. intros. now rewrite nsum_add. Qed.

Lemma nx_sum n p J s b sb : (2 * n <= 32)%nat -> in_sector (2 * n) p s ->
  nth_error (cand (2 * n) p) b = Some sb ->
  bsum (fun e => if Z.eqb (fst e) (Z.of_nat b) then snd e else 0)
    (flat_map (nx_entries n J (cand (2 * n) p) s) (seq 0 n)) =
  exch_same K half n (offdiag K big J) sb s + exch_opp K half n (offdiag K big J) sb s.
Proof.
  intros Hn Hs Hb. rewrite bsum_flat_map.
  assert (R : exch_same K half n (offdiag K big J) sb s + exch_opp K half n (offdiag K big J) sb s =
    nsum n (fun i => nsum n (fun j => offdiag K big J i j * half *
     (z2k (elem (2 * n) (exch_word n i j 0 0) sb s) + z2k (elem (2 * n) (exch_word n i j 0 1) sb s) +
      z2k (elem (2 * n) (exch_word n i j 1 0) sb s) + z2k (elem (2 * n) (exch_word n i j 1 1) sb s))))).
  { unfold exch_same, exch_opp, coupling. rewrite !nsum_distr.
    rewrite <- !nsum_scal_l. rewrite <- nsum_add. apply nsum_ext. intros i Hi.
    rewrite <- !nsum_scal_l, <- nsum_add. apply nsum_ext. intros j Hj. ring. }
  rewrite R. unfold nsum at 1. apply bsum_ext. intros i Hi. apply in_seq in Hi.
  unfold nx_entries. rewrite bsum_flat_map.
  rewrite <- (bsum_Trow K big n J i (fun j x => x * half *
     (z2k (elem (2 * n) (exch_word n i j 0 0) sb s) + z2k (elem (2 * n) (exch_word n i j 0 1) sb s) +
      z2k (elem (2 * n) (exch_word n i j 1 0) sb s) + z2k (elem (2 * n) (exch_word n i j 1 1) sb s))))
    by (intros; ring).
  apply bsum_ext. intros e He. apply Trow_In in He. destruct He as [j [Hj [_ [_ ->]]]].
  cbn [fst snd]. rewrite Nat2Z.id. rewrite bsum_flat_map. unfold sgs. cbn [bsum fst snd].
  rewrite !(qentry_sum n p s _ _ b sb) by (auto; apply exch_word_lt; lia). ring.
Qed.

Lemma np_sum n p J s b sb : (2 * n <= 32)%nat -> in_sector (2 * n) p s ->
  nth_error (cand (2 * n) p) b = Some sb ->
  bsum (fun e => if Z.eqb (fst e) (Z.of_nat b) then snd e else 0)
    (flat_map (np_entries n J (cand (2 * n) p) s) (seq 0 n)) =
  pair_hop K half n (offdiag K big J) sb s.
Proof.
  intros Hn Hs Hb. rewrite bsum_flat_map.
  assert (R : pair_hop K half n (offdiag K big J) sb s =
    nsum n (fun i => nsum n (fun j => offdiag K big J i j * half *
     (z2k (elem (2 * n) (pair_word n i j 0) sb s) + z2k (elem (2 * n) (pair_word n i j 1) sb s))))).
  { unfold pair_hop, coupling. rewrite !nsum_distr.
    rewrite <- !nsum_scal_l. apply nsum_ext. intros i Hi.
    rewrite <- !nsum_scal_l. apply nsum_ext. intros j Hj. ring. }
  rewrite R. unfold nsum at 1. apply bsum_ext. intros i Hi. apply in_seq in Hi.
  unfold np_entries. rewrite bsum_flat_map.
  rewrite <- (bsum_Trow K big n J i (fun j x => x * half *
     (z2k (elem (2 * n) (pair_word n i j 0) sb s) + z2k (elem (2 * n) (pair_word n i j 1) sb s))))
    by (intros; ring).
  apply bsum_ext. intros e He. apply Trow_In in He. destruct He as [j [Hj [_ [_ ->]]]].
  cbn [fst snd]. rewrite Nat2Z.id. rewrite bsum_flat_map. cbn [bsum].
  rewrite !(qentry_sum n p s _ _ b sb) by (auto; apply pair_word_lt; lia). ring.
Qed.

Lemma coupling_0 n W t s : coupling K n (fun _ _ => 0) W t s = 0.
Proof. unfold coupling. apply nsum_0. intros. apply nsum_0. intros. ring. Qed.

Lemma qentry_cols n p s W v e : in_sector (2 * n) p s ->
  Forall (op_lt (2 * n)) W -> crs W = ans W ->
  In e (qentry n (cand (2 * n) p) s W v) -> (0 <= fst e < Z.of_nat (length (cand (2 * n) p)))%Z.
Proof.
  intros Hs HW Hc. unfold qentry. destruct (word (2 * n) W s) as [[z f]|] eqn:E; [|intros []].
  intros [<-|[]]. cbn [fst]. assert (Hf := word_in_sector _ _ _ _ _ _ Hs HW Hc E).
  destruct (idx_cand (2 * n) p f Hf) as [k [Hk [_ ->]]]. lia.
Qed.

Lemma n_builder n p Jx Jp states vec : (2 * n <= 32)%nat -> (p <= 2 * n)%nat ->
  (Jx <> None \/ Jp <> None) -> generate_states (2 * n) p = Ok states ->
  exists sp, build_ham_non_local K big half n Jx Jp (StN states) vec = Ok (sp, vec, false) /\
    sp_wf K sp /\ m_rows K sp = length states /\ m_cols K sp = length states /\
    forall a b sa sb, nth_error states a = Some sa -> nth_error states b = Some sb ->
      sp_get K sp a b =
      documented K half n (opt_offdiag K big Jx) (opt_offdiag K big Jp) sb sa.
Proof.
  intros Hn Hp HJ Hg. rewrite generate_states_cand in Hg by lia.
  assert (Est : states = cand (2 * n) p) by congruence. subst states. clear Hg.
  assert (Hlt : forall s, In s (cand (2 * n) p) -> (s < 2^32)%N).
  { intros s Hs. apply cand_In in Hs. now apply (sector_lt32 (2 * n) p). }
  assert (Hne : cand (2 * n) p <> []) by (destruct (cand_nonempty (2 * n) p Hp) as [? [? ->]]; discriminate).
  eexists. unfold build_ham_non_local.
  rewrite (build_nl_n_spec n Jx Jp (cand (2 * n) p) Hn HJ Hne Hlt). cbn [bind].
  split; [reflexivity|]. split.
  { apply sp_of_wf; [now rewrite map_length|]. intros row e Hr He.
    apply in_map_iff in Hr. destruct Hr as [s [<- Hs]]. apply cand_In in Hs.
    unfold n_row_entries in He. apply in_app_iff in He. destruct He as [He|He].
    - destruct Jx as [J|]; [|destruct He]. apply in_flat_map in He. destruct He as [i [Hi He]].
      apply in_seq in Hi. apply in_flat_map in He. destruct He as [e' [He' He]].
      apply Trow_In in He'. destruct He' as [j [Hj [_ [_ ->]]]]. cbn [fst snd] in He. rewrite Nat2Z.id in He.
      apply in_flat_map in He. destruct He as [[s1 s2] [Hsg He]].
      apply (qentry_cols n p s _ _ e Hs) in He; [exact He| |reflexivity]. apply exch_word_lt; try lia;
        destruct Hsg as [H|[H|[H|[H|[]]]]]; inversion H; cbn; lia.
    - destruct Jp as [J|]; [|destruct He]. apply in_flat_map in He. destruct He as [i [Hi He]].
      apply in_seq in Hi. apply in_flat_map in He. destruct He as [e' [He' He]].
      apply Trow_In in He'. destruct He' as [j [Hj [_ [_ ->]]]]. cbn [fst snd] in He. rewrite Nat2Z.id in He.
      apply in_flat_map in He. destruct He as [s1 [Hsg He]].
      apply (qentry_cols n p s _ _ e Hs) in He; [exact He| |reflexivity]. apply pair_word_lt; try lia.
      destruct Hsg as [H|[H|[]]]; lia. }
  split; [reflexivity|]. split; [reflexivity|].
  intros a b sa sb Ha Hb.
  rewrite (sp_get_rows K _ _ _ a (n_row_entries n Jx Jp (cand (2 * n) p) sa)) by now rewrite nth_error_map, Ha.
  assert (Hsa : in_sector (2 * n) p sa) by (apply cand_In; eapply nth_error_In; eauto).
  unfold n_row_entries. rewrite bsum_app. unfold documented. f_equal.
  - destruct Jx as [J|]; cbn [opt_offdiag].
    + now apply nx_sum.
    + cbn [bsum]. unfold exch_same, exch_opp. rewrite !coupling_0. ring.
  - destruct Jp as [J|]; cbn [opt_offdiag].
    + now apply np_sum.
    + cbn [bsum]. unfold pair_hop. rewrite !coupling_0. ring.
Qed.

End NL.
