(** Sequential elements between sectors labelled by the number of electrons. *)
From Coq Require Import Reals List Arith NArith ZArith Bool Lia Lra Sorted Permutation.
From Verif Require Import Base RBase RLin OperatorsModel OperatorsSpec OperatorsProofs LookupModel SectorModel SectorSpec SectorProofs FockSpec FockProofs LocalModel MatvecModel MatvecProofs EspaceModel
  ProjModel ProjSpec ProjProofs ProjFinalProofs GfModel GfSpec RateModel RateSpec RateProofs TransModel TransSpec TransProofs CotModel CotBuildProofs TnlModel TnlSpec.
Import ListNotations.
Local Open Scope R_scope.

(** * Projection *)
Lemma row_at_ok d k : (k < d)%nat -> row_at d (Z.of_nat k) = Ok k.
Proof.
  intros H. unfold row_at. destruct (Z.ltb_spec (Z.of_nat k) 0); [lia|]. destruct (Z.leb_spec 0 (Z.of_nat k)); [|lia]. destruct (Z.ltb_spec (Z.of_nat k) (Z.of_nat d)); [|lia]. cbn [andb]. now rewrite Nat2Z.id.
Qed.
Theorem project_ok n NI NJ op spin pos I J : nsector n NI I -> nsector n NJ J -> neighbour op NI NJ -> (spin < 2)%nat -> (pos < n)%nat ->
  exists v, project spin pos op n I J = Ok v /\ forall j i, (j < nvals J)%nat -> (i < nvals I)%nat -> nth i (nth j v []) 0 = namp n op (pos + spin * n) J I j i.
Proof.
  intros (P1 & P3 & SI & GI & _ & cI & VI & LI & _) (Q1 & _ & SJ & GJ & _ & cJ & VJ & LJ & _) Hnb Hs Hp.
  assert (Hpos : (pos + spin * n < 2 * n)%nat) by (destruct spin as [|[|?]]; lia).
  unfold project. rewrite SI, SJ. cbn beta zeta.
  pose proof (cols_vec RRing I cI) as CI. pose proof (cols_vec RRing J cJ) as CJ. unfold cols_of in *. rewrite VI in *. rewrite VJ in *. specialize (CI eq_refl). specialize (CJ eq_refl).
  edestruct (exact_fold RRing (2 * n) NI NJ (pos + spin * n) op (nst I) (nst J) P1 Q1 P3 Hpos Hnb GI GJ cJ cI (length (s_vals RRing J)) (length (s_vals RRing I)) 1%nat
    (fun k _ => k) (fun i _ => i)) as (v & E & _ & H); [exact LJ|exact LI| | |].
  3: { exists v. split; [exact E|]. intros j i Hj Hi. etransitivity; [exact (H j i Hj Hi)|]. rewrite CI, CJ. unfold acc_val, namp.
       rewrite (nsum_ext RRing (length (nst I)) _ (fun b => nsum (K := RRing) (length (nst J)) (fun a => (nth a (vec RRing J j) 0 * z2k (K := RRing) (elem (2 * n) [lad op (pos + spin * n)] (nth a (nst J) 0%N) (nth b (nst I) 0%N)) * nth b (vec RRing I i) 0)%R))).
       - exact (nsum_swap RRing (length (nst I)) (length (nst J)) (fun b a => (nth a (vec RRing J j) 0 * z2k (K := RRing) (elem (2 * n) [lad op (pos + spin * n)] (nth a (nst J) 0%N) (nth b (nst I) 0%N)) * nth b (vec RRing I i) 0)%R)).
       - intros b _. rewrite nsum_S, (nsum_0 RRing 0) by (intros; lia). unfold e1. match goal with |- cadd RRing (c0 RRing) ?x = _ => change (0 + x = x) end. ring. }
  - intros v i s Hi C. cbn beta iota. rewrite (check_occ op s (pos + spin * n) (2 * n)) in C.
    destruct (states_facts (2 * n) NI (nst I) P1 P3 GI) as [_ F]. assert (Hb : in_sector (2 * n) NI s) by (apply F; eapply nth_error_In; eauto).
    rewrite (app1_apply op s (pos + spin * n) (2 * n) (lt32 s (2 * n) P3 (proj1 Hb)) ltac:(lia)) in C.
    destruct (apply_op op s (pos + spin * n) (2 * n)) as [[sg t]|]; [discriminate C|reflexivity].
  - intros v i s sg t k Hi C A B Hk. cbn beta iota. rewrite A, B. cbn [bind]. rewrite row_at_ok by auto. reflexivity.
Qed.

Lemma excite_ok n NI NJ op spin I J : nsector n NI I -> nsector n NJ J -> neighbour op NI NJ -> (spin < 2)%nat ->
  exists vs, excite_states spin op n I J = Ok vs /\
  forall j i, (j < nvals J)%nat -> (i < nvals I)%nat -> map (fun v : list (list R) => nth i (nth j v []) 0) vs = namps n spin op J I j i.
Proof.
  intros HI HJ Hn Hs.
  destruct (mapM_exists (fun j => project spin j op n I J) (fun pos v => forall j i, (j < nvals J)%nat -> (i < nvals I)%nat -> nth i (nth j v []) 0 = namp n op (pos + spin * n) J I j i) (seq 0 n)) as (vs & E & F).
  { intros pos Hp. apply in_seq in Hp. apply (project_ok n NI NJ); auto. lia. }
  exists vs. split; [exact E|]. intros j i Hj Hi. unfold namps. apply (Forall2_map _ _ _ _ _ F). intros a b _ P. now apply P.
Qed.

(** * Dictionaries *)
Lemma dpop_In {V} (d : list (key2 * V)) k v : NoDup (map fst d) -> (dpop d k = Some v <-> In (k, v) d).
Proof.
  unfold dpop. induction d as [|[k' v'] d IH]; cbn [find fst map In]; intros ND; [split; [discriminate|intros []]|]. inversion ND as [|? ? N ND']; subst.
  destruct (key_eqb_spec k' k) as [->|NE]; cbn [snd].
  - split; [intros E; injection E as ->; now left|]. intros [E|H]; [congruence|]. exfalso. apply N, in_map_iff. exists (k, v). auto.
  - rewrite IH by auto. split; [now right|]. intros [E|H]; [congruence|auto].
Qed.
Lemma dpop_None {V} (d : list (key2 * V)) k : dpop d k = None <-> ~ In k (map fst d).
Proof.
  unfold dpop. induction d as [|[k' v'] d IH]; cbn [find fst map In]; [tauto|]. destruct (key_eqb_spec k' k) as [->|NE]; cbn [snd]; [split; [discriminate|tauto]|].
  rewrite IH. tauto.
Qed.
Lemma dpop_put {V} (d : list (key2 * V)) k v k' : dpop (dput d k v) k' = if key_eqb k k' then Some v else dpop d k'.
Proof.
  unfold dpop. induction d as [|[k0 v0] d IH]; cbn [dput find fst]; [destruct (key_eqb k k'); reflexivity|].
  destruct (key_eqb_spec k0 k) as [->|NE]; cbn [find fst].
  - destruct (key_eqb k k'); reflexivity.
  - destruct (key_eqb_spec k0 k') as [->|NE']; [destruct (key_eqb_spec k k'); [congruence|reflexivity]|exact IH].
Qed.
Lemma dpop_cons {V} (d : list (key2 * V)) k v k' : dpop ((k, v) :: d) k' = if key_eqb k k' then Some v else dpop d k'.
Proof. unfold dpop. cbn [find fst]. destruct (key_eqb k k'); reflexivity. Qed.
Lemma dupdate_NoDup {V} (d' d : list (key2 * V)) : NoDup (map fst d) -> NoDup (map fst (dupdate d d')).
Proof. unfold dupdate. revert d. induction d' as [|e d' IH]; intros d H; cbn [fold_left]; auto. apply IH. now apply dput_NoDup. Qed.
Lemma dpop_update {V} (d' d : list (key2 * V)) k : NoDup (map fst d') -> dpop (dupdate d d') k = match dpop d' k with Some v => Some v | None => dpop d k end.
Proof.
  unfold dupdate. revert d. induction d' as [|[k0 v0] d' IH]; intros d ND; cbn [fold_left]; [reflexivity|]. cbn [map fst] in ND. inversion ND as [|? ? N ND']; subst.
  rewrite IH by auto. cbn [fst snd]. rewrite dpop_put, dpop_cons. destruct (key_eqb_spec k0 k) as [->|]; [|reflexivity].
  now rewrite (proj2 (dpop_None d' k) N).
Qed.
Lemma dappend_keys {V} (d : list (key2 * list V)) k v x : In x (map fst (dappend d k v)) <-> x = k \/ In x (map fst d).
Proof. induction d as [|[k' l] d IH]; cbn [dappend map fst In]; [intuition|]. destruct (key_eqb_spec k' k) as [->|]; cbn [map fst In]; [|rewrite IH]; intuition. Qed.
Lemma dappend_NoDup {V} (d : list (key2 * list V)) k v : NoDup (map fst d) -> NoDup (map fst (dappend d k v)).
Proof.
  induction d as [|[k' l] d IH]; cbn [dappend map fst]; intros H; [constructor; auto; constructor|]. inversion H as [|? ? N H']; subst.
  destruct (key_eqb_spec k' k) as [->|NE]; cbn [map fst]; constructor; auto. rewrite dappend_keys. intros [->|?]; auto.
Qed.
Lemma dpop_append {V} (d : list (key2 * list V)) k v k' : dpop (dappend d k v) k' =
  if key_eqb k k' then Some (match dpop d k with Some l => l | None => [] end ++ [v]) else dpop d k'.
Proof.
  induction d as [|[k0 l] d IH]; cbn [dappend]; [rewrite dpop_cons; reflexivity|]. destruct (key_eqb_spec k0 k) as [->|NE].
  - rewrite !dpop_cons. destruct (key_eqb_spec k k); [|congruence]. destruct (key_eqb k k'); reflexivity.
  - rewrite !dpop_cons, IH. destruct (key_eqb_spec k0 k); [congruence|]. destruct (key_eqb_spec k0 k') as [->|]; [destruct (key_eqb_spec k k'); [congruence|reflexivity]|reflexivity].
Qed.
Lemma dappend_all_NoDup {V} (d : list (key2 * V)) : forall D, NoDup (map fst D) -> NoDup (map fst (dappend_all D d)).
Proof. unfold dappend_all. induction d as [|e d IH]; intros D H; cbn [fold_left]; auto. apply IH. now apply dappend_NoDup. Qed.
Lemma dpop_append_all {V} (d : list (key2 * V)) k : NoDup (map fst d) -> forall D, dpop (dappend_all D d) k =
  match dpop d k with Some v => Some (match dpop D k with Some l => l | None => [] end ++ [v]) | None => dpop D k end.
Proof.
  unfold dappend_all. induction d as [|[k0 v0] d IH]; intros ND D; cbn [fold_left]; [reflexivity|]. cbn [map fst] in ND. inversion ND as [|? ? N ND']; subst.
  rewrite IH by auto. cbn [fst snd]. rewrite dpop_append, dpop_cons. destruct (key_eqb_spec k0 k) as [->|]; [|reflexivity].
  now rewrite (proj2 (dpop_None d k) N).
Qed.

(** ** Sorting *)
Lemma klex_spec a b : match klex a b with Lt => kbefore a b | Eq => a = b | Gt => kbefore b a end.
Proof.
  destruct a as [a1 a2], b as [b1 b2]. unfold klex, kbefore. cbn [fst snd]. pose proof (lex_spec a1 b1). pose proof (lex_spec a2 b2).
  destruct (lex a1 b1); [subst|now left|now left]. destruct (lex a2 b2); [now subst|now right|now right].
Qed.
Lemma kbefore_trans a b c : kbefore a b -> kbefore b c -> kbefore a c.
Proof.
  destruct a as [a1 a2], b as [b1 b2], c as [c1 c2]. unfold kbefore. cbn [fst snd]. intros [H|[-> H]] [G|[-> G]]; [left; eapply before_trans; eauto|now left|now left|right; split; auto; eapply before_trans; eauto].
Qed.
Lemma kinsert_perm {V} (x : key2 * V) l : Permutation (x :: l) (kinsert x l).
Proof.
  induction l as [|y l IH]; cbn [kinsert]; [apply Permutation_refl|]. destruct (klex (fst x) (fst y)); try apply Permutation_refl.
  eapply Permutation_trans; [apply perm_swap|]. now apply perm_skip.
Qed.
Lemma ksort_perm {V} (l : list (key2 * V)) : Permutation l (ksort l).
Proof. induction l as [|x l IH]; cbn [ksort fold_right]; [apply Permutation_refl|]. eapply Permutation_trans; [apply perm_skip, IH|apply kinsert_perm]. Qed.
Lemma kinsert_sorted {V} (x : key2 * V) l : ~ In (fst x) (map fst l) -> StronglySorted kbefore (map fst l) -> StronglySorted kbefore (map fst (kinsert x l)).
Proof.
  induction l as [|y l IH]; cbn [kinsert map In]; intros N S; [constructor; constructor|]. inversion S as [|? ? S' F]; subst. pose proof (klex_spec (fst x) (fst y)) as K.
  destruct (klex (fst x) (fst y)); cbn [map].
  - exfalso. apply N. now left.
  - constructor; auto. constructor; auto. rewrite Forall_forall in *. intros z Hz. eapply kbefore_trans; eauto.
  - constructor; [apply IH; auto; intros ?; apply N; now right|]. rewrite Forall_forall in *. intros z Hz.
    apply (Permutation_in _ (Permutation_sym (Permutation_map fst (kinsert_perm x l)))) in Hz. destruct Hz as [<-|Hz]; auto.
Qed.
Lemma ksort_sorted {V} (l : list (key2 * V)) : NoDup (map fst l) -> StronglySorted kbefore (map fst (ksort l)).
Proof.
  induction l as [|x l IH]; cbn [ksort fold_right map]; intros ND; [constructor|]. inversion ND as [|? ? N ND']; subst. apply kinsert_sorted; auto.
  intros H. apply N. exact (Permutation_in _ (Permutation_sym (Permutation_map fst (ksort_perm l))) H).
Qed.
Lemma ksort_NoDup {V} (l : list (key2 * V)) : NoDup (map fst l) -> NoDup (map fst (ksort l)).
Proof. intros H. exact (Permutation_NoDup (Permutation_map fst (ksort_perm l)) H). Qed.
Lemma ksort_In {V} (l : list (key2 * V)) e : In e (ksort l) <-> In e l.
Proof. split; apply Permutation_in; [apply Permutation_sym|]; apply ksort_perm. Qed.

(** * The chosen number of electrons *)
Lemma fold_min l : forall x, (In (fold_left Rmin l x) (x :: l)) /\ forall y, In y (x :: l) -> fold_left Rmin l x <= y.
Proof.
  induction l as [|z l IH]; intros x; cbn [fold_left]; [split; [now left|intros y [<-|[]]; lra]|]. destruct (IH (Rmin x z)) as [A B]. split.
  - destruct A as [A|A]; [|right; now right]. rewrite <- A. unfold Rmin. destruct (Rle_dec x z); [now left|right; now left].
  - intros y [<-|[<-|H]]; [eapply Rle_trans; [apply B; now left|apply Rmin_l]|eapply Rle_trans; [apply B; now left|apply Rmin_r]|apply B; now right].
Qed.
Lemma rmin_ok l : l <> [] -> exists m, rmin l = Ok m /\ In m l /\ forall y, In y l -> m <= y.
Proof. destruct l as [|x l]; [congruence|]. intros _. exists (fold_left Rmin l x). split; [reflexivity|]. apply fold_min. Qed.

Section Elements.
Variables (n : nat) (es : espace RRing).
Hypothesis HS : nsolved n es.
Lemma nst_unique k s t : In (k, s) es -> In (k, t) es -> s = t.
Proof. intros A B. apply (es_get_In _ _ _ (proj1 HS)) in A, B. congruence. Qed.
Lemma nsector_of N s : In ([N], s) es -> nsector n N s.
Proof. intros H. destruct (proj2 HS _ _ H) as (M & E & S). injection E as <-. exact S. Qed.

Theorem choose_ok egs : es <> [] -> exists N E, choose es None (Some egs) = Ok (N, Some E) /\ lowest es N E.
Proof.
  intros NE. unfold choose.
  assert (G : forall l pre acc, es = pre ++ l ->
    match acc with
    | (None, None) => pre = []
    | (Some N, Some E) => exists es1 s es2, pre = es1 ++ ([N], s) :: es2 /\ In E (s_vals RRing s) /\
        (forall k t x, In (k, t) pre -> In x (s_vals RRing t) -> E <= x) /\ (forall k t x, In (k, t) es1 -> In x (s_vals RRing t) -> E < x)
    | _ => False
    end -> exists r, foldM choose_step l acc = Ok r /\
    match r with
    | (None, None) => es = []
    | (Some N, Some E) => lowest es N E
    | _ => False
    end).
  { induction l as [|[k s] l IH]; intros pre acc Es P; cbn [foldM].
    - exists acc. split; [reflexivity|]. rewrite app_nil_r in Es. subst pre. destruct acc as [[?|] [?|]]; exact P.
    - assert (Hin : In (k, s) es) by (rewrite Es; apply in_or_app; right; now left). destruct (proj2 HS _ _ Hin) as (N & -> & SN).
      destruct (rmin_ok (s_vals RRing s)) as (m & Em & Im & Lm); [destruct SN as (_ & _ & _ & _ & V & _); unfold nvals in V; destruct (s_vals RRing s); [simpl in V; lia|discriminate]|].
      unfold choose_step. cbn [snd fst]. rewrite Em. cbn [bind]. 
      assert (Es' : es = (pre ++ [([N], s)]) ++ l) by (rewrite <- app_assoc; exact Es).
      destruct acc as [[N0|] [E0|]]; cbn [fst snd below] in *; try tauto.
      + destruct P as (es1 & t & es2 & Ep & IE & L1 & L2). destruct (Rltb m E0) eqn:LT; [apply Rltb_spec in LT|assert (GE : E0 <= m) by (destruct (Rle_or_lt E0 m) as [|Q]; auto; apply Rltb_spec in Q; congruence)]; cbn [bind].
        * apply (IH _ (Some N, Some m) Es'). exists pre, s, []. split; [reflexivity|]. split; [exact Im|]. split.
          -- intros k' t' x Hx Ix. apply in_app_or in Hx. destruct Hx as [Hx|[Q|[]]]; [specialize (L1 _ _ _ Hx Ix); lra|]. injection Q as <- <-. now apply Lm.
          -- intros k' t' x Hx Ix. specialize (L1 _ _ _ Hx Ix). lra.
        * apply (IH _ (Some N0, Some E0) Es'). exists es1, t, (es2 ++ [([N], s)]). split; [rewrite Ep, <- app_assoc; reflexivity|]. split; [exact IE|]. split; [|exact L2].
          intros k' t' x Hx Ix. apply in_app_or in Hx. destruct Hx as [Hx|[Q|[]]]; [eauto|]. injection Q as <- <-. specialize (Lm _ Ix). lra.
      + subst pre. apply (IH _ (Some N, Some m) Es'). exists [], s, []. split; [reflexivity|]. split; [exact Im|]. split; [|intros ? ? ? []].
        intros k' t' x [Q|[]] Ix. injection Q as <- <-. now apply Lm. }
  destruct (G es [] (None, None) eq_refl eq_refl) as (r & Er & P).
  match goal with |- context[foldM choose_step es ?a] => replace (foldM choose_step es a) with (Ok r) by (symmetry; exact Er) end. cbn [bind]. destruct r as [[N|] [E|]]; cbn [fst snd] in *; try tauto. exists N, E. auto.
Qed.

(** * Elements between two neighbouring sectors *)
Lemma nelements_keys kind NJ NI nJ nI vs E : map fst (nelements kind NJ NI nJ nI vs E) = map (fun ji : nat * nat => ([NJ; fst ji], [NI; snd ji])) (ndindex nJ nI).
Proof. unfold nelements. rewrite map_map. apply map_ext. intros [j i]. reflexivity. Qed.
Lemma nelements_NoDup kind NJ NI nJ nI vs E : NoDup (map fst (nelements kind NJ NI nJ nI vs E)).
Proof. rewrite nelements_keys. apply FinFun.Injective_map_NoDup; [|apply NoDup_ndindex]. intros [j i] [j' i'] Q. cbn [fst snd] in Q. injection Q as -> ->. reflexivity. Qed.
Lemma nelements_In kind NJ NI nJ nI vs E k g : In (k, g) (nelements kind NJ NI nJ nI vs E) <->
  exists j i, (j < nJ)%nat /\ (i < nI)%nat /\ k = ([NJ; j], [NI; i]) /\ g = mkgfel kind [NJ; j] [NI; i] (map (fun v : list (list R) => nth i (nth j v []) 0) vs) (E j i).
Proof.
  unfold nelements. rewrite in_map_iff. split.
  - intros ([j i] & Q & H). apply in_ndindex in H. injection Q as <- <-. exists j, i. tauto.
  - intros (j & i & A & B & -> & ->). exists (j, i). split; auto. apply in_ndindex. auto.
Qed.

(** One direction. *)
Definition oneway (spin NI NJ : nat) (d : list (key2 * gfel)) : Prop :=
  NoDup (map fst d) /\ (forall k g, In (k, g) d -> k = (g_F g, g_I g) /\ exact_nel n es spin g) /\
  forall k, In k (map fst d) <-> exists j i, is_state es NJ j /\ is_state es NI i /\ k = ([NJ; j], [NI; i]).
Lemma is_state_iff N s k : In ([N], s) es -> (is_state es N k <-> (k < nvals s)%nat).
Proof. intros H. split; [intros (t & Ht & L); now rewrite (nst_unique _ _ _ H Ht)|intros L; exists s; auto]. Qed.
Lemma oneway_of kind op spin NI NJ I J vs E : In ([NI], I) es -> In ([NJ], J) es -> neighbour op NI NJ ->
  (forall j i, (j < nvals J)%nat -> (i < nvals I)%nat -> map (fun v : list (list R) => nth i (nth j v []) 0) vs = namps n spin op J I j i) ->
  match op with OpCdg => kind = Electron /\ (forall j i, E j i = energy J j - energy I i) | OpC => kind = Hole /\ forall j i, E j i = energy I i - energy J j end ->
  oneway spin NI NJ (nelements kind NJ NI (nvals J) (nvals I) vs E).
Proof.
  intros HI HJ Hn Hv Hk. split; [apply nelements_NoDup|]. split.
  - intros k g H. apply nelements_In in H. destruct H as (j & i & Hj & Hi & -> & ->). split; [reflexivity|].
    exists NI, i, NJ, j, I, J, op. cbn [g_I g_F g_v g_kind g_E]. repeat split; auto. destruct op; destruct Hk as [-> Hk]; auto.
  - intros k. rewrite nelements_keys, in_map_iff. split.
    + intros ([j i] & <- & H). apply in_ndindex in H. exists j, i. rewrite (is_state_iff _ _ _ HI), (is_state_iff _ _ _ HJ). cbn [fst snd]. tauto.
    + intros (j & i & Hj & Hi & ->). rewrite (is_state_iff _ _ _ HI) in Hi. rewrite (is_state_iff _ _ _ HJ) in Hj. exists (j, i). split; [reflexivity|]. apply in_ndindex. auto.
Qed.
Lemma electron_ok spin N : (spin < 2)%nat -> stored es N -> stored es (S N) -> exists d, excite_electron spin n N es = Ok d /\ oneway spin N (S N) d.
Proof.
  intros Hs (I & HI) (J & HJ). unfold excite_electron. rewrite Nat.add_1_r. rewrite (es_get_In _ _ _ (proj1 HS) HI). cbn [bind]. rewrite (es_get_In _ _ _ (proj1 HS) HJ). cbn [bind].
  destruct (excite_ok n N (S N) OpCdg spin I J (nsector_of _ _ HI) (nsector_of _ _ HJ) eq_refl Hs) as (vs & -> & Hv). cbn [bind]. eexists. split; [reflexivity|].
  apply (oneway_of Electron OpCdg); auto. reflexivity.
Qed.
Lemma hole_ok spin N : (spin < 2)%nat -> stored es N -> stored es (S N) -> exists d, excite_hole spin n (S N) es = Ok d /\ oneway spin (S N) N d.
Proof.
  intros Hs (J & HJ) (I & HI). unfold excite_hole. replace (S N - 1)%nat with N by lia. rewrite (es_get_In _ _ _ (proj1 HS) HI). cbn [bind]. rewrite (es_get_In _ _ _ (proj1 HS) HJ). cbn [bind].
  destruct (excite_ok n (S N) N OpC spin I J (nsector_of _ _ HI) (nsector_of _ _ HJ) eq_refl Hs) as (vs & -> & Hv). cbn [bind]. eexists. split; [reflexivity|].
  apply (oneway_of Hole OpC); auto; [reflexivity|]. split; [reflexivity|]. intros; unfold energy; ring.
Qed.
(** Both directions. *)
Definition twoway (spin lo : nat) (d : list (key2 * gfel)) : Prop :=
  NoDup (map fst d) /\ (forall k g, In (k, g) d -> k = (g_F g, g_I g) /\ exact_nel n es spin g) /\
  forall k, In k (map fst d) <-> exists a b, is_state es (S lo) a /\ is_state es lo b /\ (k = ([S lo; a], [lo; b]) \/ k = ([lo; b], [S lo; a])).
Lemma update_ok spin N M lo d d' : oneway spin N M d -> oneway spin M N d' -> (N = lo /\ M = S lo) \/ (N = S lo /\ M = lo) -> twoway spin lo (dupdate d d').
Proof.
  intros (A1 & A2 & A3) (B1 & B2 & B3) L. pose proof (dupdate_NoDup d' d A1) as ND. split; [exact ND|]. split.
  - intros k g H. apply (dpop_In _ _ _ ND) in H. rewrite dpop_update in H by auto. destruct (dpop d' k) as [g'|] eqn:E.
    + injection H as ->. apply (dpop_In _ _ _ B1) in E. auto.
    + apply (dpop_In _ _ _ A1) in H. auto.
  - intros k. assert (Q : In k (map fst (dupdate d d')) <-> In k (map fst d) \/ In k (map fst d')).
    { split; intros H.
      - destruct (dpop (dupdate d d') k) as [g|] eqn:E; [|apply dpop_None in E; tauto]. rewrite dpop_update in E by auto. destruct (dpop d' k) as [g'|] eqn:E'.
        + apply (dpop_In _ _ _ B1) in E'. right. apply in_map_iff. exists (k, g'). auto.
        + apply (dpop_In _ _ _ A1) in E. left. apply in_map_iff. exists (k, g). auto.
      - destruct (dpop (dupdate d d') k) as [g|] eqn:E; [apply (dpop_In _ _ _ ND) in E; apply in_map_iff; exists (k, g); auto|].
        rewrite dpop_update in E by auto. destruct (dpop d' k) as [g'|] eqn:E'; [discriminate|]. apply dpop_None in E, E'. tauto. }
    rewrite Q, A3, B3. destruct L as [[-> ->]|[-> ->]]; split.
    + intros [(j & i & H1 & H2 & ->)|(j & i & H1 & H2 & ->)]; [exists j, i|exists i, j]; auto.
    + intros (a & b & H1 & H2 & [->| ->]); [left; exists a, b|right; exists b, a]; auto.
    + intros [(j & i & H1 & H2 & ->)|(j & i & H1 & H2 & ->)]; [exists i, j|exists j, i]; auto.
    + intros (a & b & H1 & H2 & [->| ->]); [right; exists a, b|left; exists b, a]; auto.
Qed.

(** * The dictionary *)
Variable N : nat.
Hypothesis ST : forall lo, linked n N lo -> stored es lo /\ stored es (S lo).
(** After the spins of the list [sp]. *)
Definition filled (sp : list nat) (D : list (key2 * list gfel)) : Prop :=
  NoDup (map fst D) /\ forall k, match dpop D k with
    | Some l => sp <> [] /\ considered n es N (fst k) (snd k) /\ Forall2 (fun s g => k = (g_F g, g_I g) /\ exact_nel n es s g) sp l
    | None => sp = [] \/ ~ considered n es N (fst k) (snd k)
    end.
Lemma branch_up spin : (spin < 2)%nat -> (N + 1 < 2 * n)%nat -> exists g g', excite_electron spin n N es = Ok g /\ excite_hole spin n (N + 1) es = Ok g' /\ twoway spin N (dupdate g g').
Proof.
  intros Hs H. destruct (ST N) as [S1 S2]; [left; auto|]. destruct (electron_ok spin N Hs S1 S2) as (g & E & O). destruct (hole_ok spin N Hs S1 S2) as (g' & E' & O').
  exists g, g'. rewrite Nat.add_1_r. split; [exact E|]. split; [exact E'|]. apply (update_ok spin N (S N)); auto.
Qed.
Lemma branch_dw spin : (spin < 2)%nat -> (1 < N)%nat -> exists g g', excite_hole spin n N es = Ok g /\ excite_electron spin n (N - 1) es = Ok g' /\ twoway spin (N - 1) (dupdate g g').
Proof.
  intros Hs H. destruct (ST (N - 1)) as [S1 S2]; [right; split; lia|]. destruct (hole_ok spin (N - 1) Hs S1 S2) as (g & E & O). destruct (electron_ok spin (N - 1) Hs S1 S2) as (g' & E' & O').
  exists g, g'. replace (S (N - 1)) with N in * by lia. split; [exact E|]. split; [exact E'|]. apply (update_ok spin N (N - 1)); auto. right. lia.
Qed.
Lemma considered_iff k : considered n es N (fst k) (snd k) <-> exists lo, linked n N lo /\ exists a b, is_state es (S lo) a /\ is_state es lo b /\ (k = ([S lo; a], [lo; b]) \/ k = ([lo; b], [S lo; a])).
Proof.
  destruct k as [F I]. cbn [fst snd]. split.
  - intros (lo & a & b & L & A & B & C). exists lo. split; [exact L|]. exists a, b. repeat split; auto. destruct C as [[-> ->]|[-> ->]]; auto.
  - intros (lo & L & a & b & A & B & C). exists lo, a, b. repeat split; auto. destruct C as [C|C]; injection C as -> ->; auto.
Qed.

Lemma sq_spin_ok sp spin D : (spin < 2)%nat -> filled sp D -> exists D', sq_spin n N es D spin = Ok D' /\ filled (sp ++ [spin]) D'.
Proof.
  intros Hs (ND & F). unfold sq_spin.
  (* values of one branch *)
  assert (U : exists d1, NoDup (map fst d1) /\ (forall k g, In (k, g) d1 -> k = (g_F g, g_I g) /\ exact_nel n es spin g) /\
    (forall k, In k (map fst d1) <-> (N + 1 < 2 * n)%nat /\ exists a b, is_state es (S N) a /\ is_state es N b /\ (k = ([S N; a], [N; b]) \/ k = ([N; b], [S N; a]))) /\
    (if (N + 1 <? 2 * n)%nat then do g <- excite_electron spin n N es; do g' <- excite_hole spin n (N + 1) es; Ok (dappend_all D (dupdate g g')) else Ok D) = Ok (dappend_all D d1)).
  { destruct (Nat.ltb_spec (N + 1) (2 * n)) as [H|H].
    - destruct (branch_up spin Hs H) as (g & g' & -> & -> & (T1 & T2 & T3)). exists (dupdate g g'). split; [exact T1|]. split; [exact T2|]. split; [|reflexivity]. intros k. rewrite T3. tauto.
    - exists []. split; [constructor|]. split; [intros ? ? []|]. split; [|reflexivity]. intros k. split; [intros []|lia]. }
  destruct U as (d1 & N1 & E1 & K1 & ->). cbn [bind].
  assert (U : exists d2, NoDup (map fst d2) /\ (forall k g, In (k, g) d2 -> k = (g_F g, g_I g) /\ exact_nel n es spin g) /\
    (forall k, In k (map fst d2) <-> (1 < N)%nat /\ exists a b, is_state es N a /\ is_state es (N - 1) b /\ (k = ([N; a], [N - 1; b]%nat) \/ k = ([N - 1; b]%nat, [N; a]))) /\
    (if (1 <? N)%nat then do g <- excite_hole spin n N es; do g' <- excite_electron spin n (N - 1) es; Ok (dappend_all (dappend_all D d1) (dupdate g g')) else Ok (dappend_all D d1)) = Ok (dappend_all (dappend_all D d1) d2)).
  { destruct (Nat.ltb_spec 1 N) as [H|H].
    - destruct (branch_dw spin Hs H) as (g & g' & -> & -> & (T1 & T2 & T3)). exists (dupdate g g'). split; [exact T1|]. split; [exact T2|]. split; [|reflexivity]. intros k. rewrite T3. replace (S (N - 1)) with N by lia. tauto.
    - exists []. split; [constructor|]. split; [intros ? ? []|]. split; [|reflexivity]. intros k. split; [intros []|lia]. }
  destruct U as (d2 & N2 & E2 & K2 & ->).
  eexists. split; [reflexivity|]. split; [apply dappend_all_NoDup, dappend_all_NoDup, ND|].
  intros k. rewrite dpop_append_all by auto. rewrite dpop_append_all by auto. specialize (F k).
  assert (C : considered n es N (fst k) (snd k) <-> In k (map fst d1) \/ In k (map fst d2)).
  { rewrite considered_iff, K1, K2. split.
    - intros (lo & [[-> L]|[L L']] & R); [left; auto|right]. split; auto. replace (N - 1)%nat with lo by lia. now rewrite <- L.
    - intros [(L & R)|(L & R)]; [exists N; split; [left; auto|exact R]|exists (N - 1)%nat; split; [right; split; lia|]]. replace (S (N - 1)) with N by lia. exact R. }
  assert (DJ : In k (map fst d1) -> In k (map fst d2) -> False).
  { rewrite K1, K2. intros (_ & a & b & _ & _ & [->| ->]) (L & a' & b' & _ & _ & [Q|Q]); injection Q; intros; lia. }
  destruct (dpop d2 k) as [g2|] eqn:P2, (dpop d1 k) as [g1|] eqn:P1.
  - exfalso. apply DJ; [apply (dpop_In _ _ _ N1) in P1|apply (dpop_In _ _ _ N2) in P2]; apply in_map_iff; eexists; split; eauto; reflexivity.
  - apply (dpop_In _ _ _ N2) in P2. assert (CK : considered n es N (fst k) (snd k)) by (apply C; right; apply in_map_iff; exists (k, g2); auto).
    destruct (dpop D k) as [l|]; [destruct F as (F1 & F2 & F3)|destruct F as [->|F]; [|contradiction]].
    + split; [destruct sp; discriminate|]. split; [exact CK|]. apply Forall2_app; auto.
    + split; [discriminate|]. split; [exact CK|]. simpl. constructor; auto.
  - apply (dpop_In _ _ _ N1) in P1. assert (CK : considered n es N (fst k) (snd k)) by (apply C; left; apply in_map_iff; exists (k, g1); auto).
    destruct (dpop D k) as [l|]; [destruct F as (F1 & F2 & F3)|destruct F as [->|F]; [|contradiction]].
    + split; [destruct sp; discriminate|]. split; [exact CK|]. apply Forall2_app; auto.
    + split; [discriminate|]. split; [exact CK|]. simpl. constructor; auto.
  - apply dpop_None in P1, P2. assert (CK : ~ considered n es N (fst k) (snd k)) by (rewrite C; tauto).
    destruct (dpop D k) as [l|]; [destruct F as (F1 & F2 & F3); contradiction|right; exact CK].
Qed.

Theorem sq_build : exists D, foldM (sq_spin n N es) [0; 1]%nat [] = Ok D /\ filled [0; 1]%nat D.
Proof.
  assert (F0 : filled [] []) by (split; [constructor|]; intros k; cbn; now left).
  destruct (sq_spin_ok [] 0 [] ltac:(lia) F0) as (D1 & E1 & F1). destruct (sq_spin_ok [0]%nat 1 D1 ltac:(lia) F1) as (D2 & E2 & F2).
  exists D2. cbn [foldM]. rewrite E1. cbn [bind]. rewrite E2. cbn [bind]. auto.
Qed.

Lemma namp_adj op orb I J j i : namp n op orb J I j i = namp n (opp_op op) orb I J i j.
Proof.
  unfold namp. rewrite rsum_swap. apply rsum_ext. intros b _. apply rsum_ext. intros a _. rewrite elem_adj. cbn [map rev app]. replace (adj (lad op orb)) with (lad (opp_op op) orb) by (destruct op; reflexivity). ring.
Qed.
Lemma exact_nel_conj s g g' : exact_nel n es s g -> exact_nel n es s g' -> g_F g' = g_I g -> g_I g' = g_F g -> conj_el g g'.
Proof.
  intros (p & i & p' & j & I & J & op & A1 & A2 & A3 & A4 & A5 & A6 & A7 & A8 & A9) (r & k & r' & l & I' & J' & op' & B1 & B2 & B3 & B4 & B5 & B6 & B7 & B8 & B9) E1 E2.
  rewrite A1, B2 in E1. rewrite A2, B1 in E2. injection E1 as -> ->. injection E2 as -> ->.
  pose proof (nst_unique _ _ _ A3 B4). pose proof (nst_unique _ _ _ A4 B3). subst I' J'.
  assert (OP : op' = opp_op op) by (clear - A7 B7; unfold neighbour in *; destruct op, op'; auto; lia). subst op'.
  unfold conj_el. rewrite A1, A2, B1, B2. split; [reflexivity|]. split; [reflexivity|]. split; [|destruct op; cbn [opp_op] in *; destruct A9 as [-> ->], B9 as [-> ->]; split; reflexivity].
  rewrite A8, B8. unfold namps. apply map_ext. intros pos. symmetry. apply namp_adj.
Qed.

Theorem sq_elements_spec egs : exists d, sq_elements n es (Some N) egs = Ok d /\ StronglySorted kbefore (map fst d) /\ NoDup (map fst d) /\
  (forall F I, (exists l, In ((F, I), l) d) <-> considered n es N F I) /\
  (forall F I l, In ((F, I), l) d -> exists g0 g1, l = [g0; g1] /\ exact_nel n es 0 g0 /\ exact_nel n es 1 g1 /\ g_F g0 = F /\ g_I g0 = I /\ g_F g1 = F /\ g_I g1 = I) /\
  (forall F I l, In ((F, I), l) d -> exists l', In ((I, F), l') d /\ Forall2 conj_el l l').
Proof.
  destruct sq_build as (D & E & ND & F). unfold sq_elements, choose. cbn [bind fst]. rewrite E. cbn [bind]. exists (ksort D). split; [reflexivity|].
  split; [now apply ksort_sorted|]. split; [now apply ksort_NoDup|].
  assert (KEY : forall FF II, (exists l, In ((FF, II), l) (ksort D)) <-> considered n es N FF II).
  { intros FF II. specialize (F (FF, II)). cbn [fst snd] in F. split.
    - intros (l & H). apply ksort_In, (dpop_In _ _ _ ND) in H. rewrite H in F. tauto.
    - intros C. destruct (dpop D (FF, II)) as [l|] eqn:P; [|destruct F as [F|F]; [discriminate F|contradiction]]. exists l. apply ksort_In. now apply (dpop_In _ _ _ ND). }
  assert (ELS : forall FF II l, In ((FF, II), l) (ksort D) -> exists g0 g1, l = [g0; g1] /\ exact_nel n es 0 g0 /\ exact_nel n es 1 g1 /\ g_F g0 = FF /\ g_I g0 = II /\ g_F g1 = FF /\ g_I g1 = II).
  { intros FF II l H. apply ksort_In, (dpop_In _ _ _ ND) in H. specialize (F (FF, II)). rewrite H in F. destruct F as (_ & _ & F). inversion F as [|? g0 ? l0 [Q X] F1]; subst. inversion F1 as [|? g1 ? l1 [Q' Y] F2]; subst. inversion F2; subst.
    injection Q as -> ->. injection Q' as Q1 Q2. exists g0, g1. repeat split; auto. }
  split; [exact KEY|]. split; [exact ELS|].
  intros FF II l H. destruct (ELS _ _ _ H) as (g0 & g1 & -> & X0 & X1 & <- & <- & F1 & I1).
  assert (C : considered n es N (g_I g0) (g_F g0)).
  { assert (C : considered n es N (g_F g0) (g_I g0)) by (apply KEY; eauto). destruct C as (lo & a & b & L & A & B & O). exists lo, a, b. repeat split; auto. tauto. }
  apply KEY in C. destruct C as (l' & H'). exists l'. split; [exact H'|]. destruct (ELS _ _ _ H') as (h0 & h1 & -> & Y0 & Y1 & FF & GI & F1' & I1').
  constructor; [apply (exact_nel_conj 0); auto|constructor; [|constructor]]. apply (exact_nel_conj 1); congruence.
Qed.
End Elements.
