(** The projections are matrix elements of ladder operators. *)
From Coq Require Import List Arith NArith ZArith Bool Lia Sorted Psatz Ring.
From Verif Require Import Base OperatorsModel OperatorsSpec OperatorsProofs LookupModel LookupSpec LookupProofs SectorModel SectorSpec SectorProofs
  FockSpec FockProofs LocalModel MatvecModel EspaceModel ProjModel ProjSpec.
Import ListNotations.

(** ** Indices *)
Lemma strided_ok u w i : i < u -> strided (w * u) (Z.of_nat i) u = Ok (map (fun k => i + k * u) (seq 0 w)).
Proof.
  intros H. unfold strided. destruct (Nat.eqb_spec u 0); [lia|].
  destruct (Z.ltb_spec (Z.of_nat i) 0); [lia|]. rewrite Nat2Z.id. do 3 f_equal.
  destruct w as [|w].
  - simpl. apply Nat.div_small. lia.
  - replace (S w * u - i + u - 1)%nat with (u - 1 - i + S w * u) by nia.
    rewrite Nat.div_add by lia. rewrite Nat.div_small by lia. reflexivity.
Qed.
Lemma rows_ok u w i : i < w -> rows (w * u) (Z.of_nat i * Z.of_nat u) ((Z.of_nat i + 1) * Z.of_nat u) = map (fun k => k + i * u) (seq 0 u).
Proof.
  intros H. unfold rows, clampi.
  destruct (Z.ltb_spec (Z.of_nat i * Z.of_nat u) 0); [nia|]. destruct (Z.ltb_spec ((Z.of_nat i + 1) * Z.of_nat u) 0); [nia|].
  replace (Z.to_nat (Z.of_nat i * Z.of_nat u)) with (i * u) by nia.
  replace (Z.to_nat ((Z.of_nat i + 1) * Z.of_nat u)) with (i * u + u) by nia.
  rewrite !Nat.min_r by nia. replace (i * u + u - i * u) with u by lia.
  generalize (i * u). intros m. clear. rewrite <- (Nat.add_0_l m) at 1. generalize 0.
  induction u as [|u IH]; intros k; [reflexivity|]. simpl. f_equal. rewrite <- IH. reflexivity.
Qed.

Lemma in_enum {A} (l : list A) i x : In (i, x) (enum l) -> nth_error l i = Some x /\ i < length l.
Proof.
  unfold enum. intros H.
  assert (G : forall k l, In (i, x) (List.combine (seq k (length l)) l) -> k <= i /\ nth_error l (i - k) = Some x).
  { clear. intros k l. revert k. induction l as [|y l IH]; simpl; intros k H; [tauto|]. destruct H as [H|H].
    - injection H as -> ->. rewrite Nat.sub_diag. auto.
    - apply IH in H. destruct H as [H1 H2]. split; [lia|]. destruct (i - k) eqn:E; [lia|]. replace (i - S k) with n in H2 by lia. exact H2. }
  apply G in H. rewrite Nat.sub_0_r in H. destruct H as [_ H]. split; [exact H|]. apply nth_error_Some. congruence.
Qed.

(** ** One species *)
Lemma states_facts n p l : p <= n -> n <= 32 -> generate_states n p = Ok l ->
  increasing l /\ forall s, In s l <-> in_sector n p s.
Proof.
  intros H1 H2 E. destruct (generate_states_spec n p H1 H2) as (l' & E' & I & _ & S). rewrite E in E'. injection E' as <-. auto.
Qed.
Lemma increasing_NoDup l : increasing l -> NoDup l.
Proof.
  induction 1 as [|x l S IH F]; constructor; auto. intros I. rewrite Forall_forall in F. specialize (F _ I). lia.
Qed.

Lemma lt32 s n : n <= 32 -> (s < 2 ^ N.of_nat n)%N -> (s < 2 ^ 32)%N.
Proof. intros H Hs. eapply N.lt_le_trans; [exact Hs|]. apply N.pow_le_mono_r; lia. Qed.

Lemma app1_apply op s i n : (s < 2 ^ 32)%N -> i < 32 -> app1 n (lad op i) s = to_opt (apply_op op s i n).
Proof. intros. destruct op; [now apply app1_c|now apply app1_cdg]. Qed.
Lemma check_occ op s i n : check_occupation op s i = match app1 n (lad op i) s with Some _ => true | None => false end.
Proof.
  unfold check_occupation, lad, app1. destruct op; rewrite ?check_empty_spec, ?check_full_spec;
    destruct (occ s i); reflexivity.
Qed.

(** What an iteration of the loops looks up. *)
Lemma lookup_step n p p' op pos lI lJ i s : p <= n -> p' <= n -> n <= 32 -> pos < n -> neighbour op p p' ->
  generate_states n p = Ok lI -> generate_states n p' = Ok lJ -> nth_error lI i = Some s -> check_occupation op s pos = true ->
  exists sg t k, apply_op op s pos n = Ok (sg, t) /\ binsearch lJ t = Ok (Z.of_nat k) /\ nth_error lJ k = Some t /\
    app1 n (lad op pos) s = Some (sg, t).
Proof.
  intros Hp Hp' Hn Hpos Hnb EI EJ Hi Hc.
  destruct (states_facts n p lI Hp Hn EI) as [_ SI]. destruct (states_facts n p' lJ Hp' Hn EJ) as [IJ SJ].
  assert (Hs : in_sector n p s) by (apply SI; eapply nth_error_In; eauto). destruct Hs as [Hs Hps].
  rewrite (check_occ op s pos n) in Hc. pose proof (app1_apply op s pos n (lt32 s n Hn Hs) ltac:(lia)) as EA. rewrite EA in Hc.
  destruct (apply_op op s pos n) as [[sg t]|] eqn:E; [|discriminate Hc]. cbn [to_opt] in EA. rename EA into A1.
  pose proof (app1_toggles _ _ _ _ _ A1) as T. assert (T' : toggles s t pos) by (destruct op; exact T).
  destruct (popcount_toggle s t pos n Hs Hpos T') as [Ht Pt].
  assert (In t lJ) as I.
  { apply SJ. split; [exact Ht|]. rewrite Pt. destruct op; simpl in Hnb, A1; destruct (occ s pos); try discriminate; lia. }
  apply In_nth_error in I. destruct I as (k & Hk). exists sg, t, k. repeat split; auto. now apply binsearch_found.
Qed.

(** ** Elements between combined states *)
Lemma elem_single n o t s : elem n [o] t s = match app1 n o s with Some (z, u) => if N.eqb u t then z else 0%Z | None => 0%Z end.
Proof. unfold elem. cbn [word]. destruct (app1 n o s) as [[z u]|]; [|reflexivity]. now rewrite Z.mul_1_r. Qed.
Lemma combine_eqb n u d u' d' : (u < 2 ^ N.of_nat n)%N -> (u' < 2 ^ N.of_nat n)%N ->
  N.eqb (combine n u d) (combine n u' d') = N.eqb u u' && N.eqb d d'.
Proof.
  intros H H'. apply Bool.eq_iff_eq_true. rewrite andb_true_iff, !N.eqb_eq. split.
  - intros E. now apply combine_inj in E.
  - now intros [-> ->].
Qed.
Lemma lad_lt op i n : i < n -> op_lt n (lad op i).
Proof. destruct op; auto. Qed.
Lemma elem_up n op i u d u' d' : (u < 2 ^ N.of_nat n)%N -> (u' < 2 ^ N.of_nat n)%N -> i < n ->
  elem (2 * n) [lad op i] (combine n u' d') (combine n u d) =
  match app1 n (lad op i) u with Some (z, v) => if N.eqb v u' && N.eqb d d' then (z * parity_sign (nocc d 0 n))%Z else 0%Z | None => 0%Z end.
Proof.
  intros Hu Hu' Hi. rewrite elem_single, app1_up by auto using lad_lt.
  destruct (app1 n (lad op i) u) as [[z v]|] eqn:E; [|reflexivity].
  rewrite combine_eqb; auto. eapply app1_lt; [exact Hu| |exact E]. destruct op; simpl; auto.
Qed.
Lemma elem_dw n op i u d u' d' : (u < 2 ^ N.of_nat n)%N -> (u' < 2 ^ N.of_nat n)%N ->
  elem (2 * n) [lad op (i + n)] (combine n u' d') (combine n u d) =
  match app1 n (lad op i) d with Some (z, v) => if N.eqb u u' && N.eqb v d' then z else 0%Z | None => 0%Z end.
Proof.
  intros Hu Hu'. rewrite elem_single. replace (lad op (i + n)) with (dw_op n (lad op i)) by (destruct op; reflexivity).
  rewrite app1_dw by auto. destruct (app1 n (lad op i) d) as [[z v]|] eqn:E; [|reflexivity].
  rewrite combine_eqb; auto.
Qed.

Section Fold.
Variable K : CRing.
Add Ring Kr : (cth K).
Local Open Scope cr_scope.
Notation ent2 v j i := (nth i (nth j v []) (c0 K)).

Definition shape2 (v : list (list K)) (nr nc : nat) : Prop := length v = nr /\ forall x, In x v -> length x = nc.

(** A loop that adds a contribution per iteration. *)
Lemma fold_add {A} (step : list (list K) -> A -> res (list (list K))) (g : A -> nat -> nat -> K) nr nc (l : list A) :
  (forall v p, In p l -> shape2 v nr nc -> exists v', step v p = Ok v' /\ shape2 v' nr nc /\
     forall j i, (j < nr)%nat -> (i < nc)%nat -> ent2 v' j i = ent2 v j i + g p j i) ->
  forall v, shape2 v nr nc -> exists v', foldM step l v = Ok v' /\ shape2 v' nr nc /\
     forall j i, (j < nr)%nat -> (i < nc)%nat -> ent2 v' j i = ent2 v j i + bsum (fun p => g p j i) l.
Proof.
  induction l as [|p l IH]; intros H v Sv.
  - exists v. repeat split; auto; try apply Sv. intros. simpl. ring.
  - destruct (H v p (or_introl eq_refl) Sv) as (v1 & E1 & S1 & H1). simpl. rewrite E1. cbn [bind].
    destruct (IH (fun v p I => H v p (or_intror I)) v1 S1) as (v2 & E2 & S2 & H2). exists v2. rewrite E2. repeat split; auto; try apply S2.
    intros j i Hj Hi. rewrite H2, H1 by auto. ring.
Qed.

Lemma zeros_shape nr nc : shape2 (repeat (repeat 0 nc) nr) nr nc.
Proof. split; [apply repeat_length|]. intros x H. apply repeat_spec in H. subst. apply repeat_length. Qed.
Lemma nth_repeat_lt {A} (x d : A) n i : (i < n)%nat -> nth i (repeat x n) d = x.
Proof. revert i. induction n; intros [|i] H; simpl; auto; try lia. apply IHn. lia. Qed.
Lemma zeros_ent nr nc j i : (j < nr)%nat -> (i < nc)%nat -> ent2 (repeat (repeat 0 nc) nr) j i = 0.
Proof. intros Hj Hi. rewrite (nth_repeat_lt _ [] nr j Hj). now apply nth_repeat_lt. Qed.

Lemma nth_map_combine {A B C} (f : A * B -> C) (l : list A) (m : list B) k (da : A) (db : B) (dc : C) : (k < length l)%nat -> (k < length m)%nat ->
  nth k (map f (List.combine l m)) dc = f (nth k l da, nth k m db).
Proof.
  revert m k. induction l as [|a l IH]; intros [|b m] [|k] Hl Hm; simpl in *; try lia; auto. apply IH; lia.
Qed.

Lemma accum_ok nJ nI v0 sg cJ cI rJ rI : length rJ = length rI -> length cJ = nJ -> length cI = nI -> shape2 v0 nJ nI ->
  exists v, accum K nJ nI v0 sg cJ cI rJ rI = Ok v /\ shape2 v nJ nI /\
  forall j i, (j < nJ)%nat -> (i < nI)%nat -> ent2 v j i = ent2 v0 j i + z2k sg * dot_rows K (nth j cJ []) (nth i cI []) rJ rI.
Proof.
  intros H1 H2 H3 [S1 S2]. unfold accum. rewrite H1, H2, H3, !Nat.eqb_refl. simpl.
  eexists. split; [reflexivity|]. split.
  - split; [rewrite map_length, combine_length; lia|]. intros x Hx. apply in_map_iff in Hx. destruct Hx as ([y c] & <- & Hx).
    rewrite map_length, combine_length. apply in_combine_l in Hx. simpl. rewrite (S2 _ Hx). lia.
  - intros j i Hj Hi. rewrite (nth_map_combine _ v0 cJ j [] []) by lia. simpl.
    assert (length (nth j v0 []) = nI) by (apply S2, nth_In; lia).
    rewrite (nth_map_combine _ (nth j v0 []) cI i 0 []) by lia. reflexivity.
Qed.

Lemma dot_rows_map (x y : list K) (f g : nat -> nat) w : dot_rows K x y (map f (seq 0 w)) (map g (seq 0 w)) = nsum w (fun m => nth (f m) x 0 * nth (g m) y 0).
Proof.
  unfold dot_rows, nsum. generalize (seq 0 w). induction l as [|m l IH]; simpl; [reflexivity|]. now rewrite IH.
Qed.
Lemma bsum_enum {A} (l : list A) (d : A) (f : nat -> A -> K) : bsum (fun p => f (fst p) (snd p)) (enum l) = nsum (length l) (fun i => f i (nth i l d)).
Proof.
  unfold enum, nsum.
  assert (G : forall k, bsum (fun p => f (fst p) (snd p)) (List.combine (seq k (length l)) l) = bsum (fun i => f i (nth (i - k) l d)) (seq k (length l))).
  { induction l as [|x l IH]; intros k; simpl; [reflexivity|]. rewrite Nat.sub_diag, IH. f_equal.
    apply bsum_ext. intros i Hi. apply in_seq in Hi. destruct (i - k)%nat eqn:E; [lia|]. replace (i - S k)%nat with n by lia. reflexivity. }
  rewrite G. apply bsum_ext. intros i _. now rewrite Nat.sub_0_r.
Qed.

Lemma bsum_pair {A} (l : list (nat * A)) (g : nat * A -> K) : bsum g l = bsum (fun p => g (fst p, snd p)) l.
Proof. apply bsum_ext. intros [? ?] _. reflexivity. Qed.

(** ** One species, elements *)
Section Species.
Variables (n p p' pos : nat) (op : fop) (lI lJ : list N).
Hypothesis Hp : (p <= n)%nat. Hypothesis Hp' : (p' <= n)%nat. Hypothesis Hn : (n <= 32)%nat. Hypothesis Hpos : (pos < n)%nat.
Hypothesis Hnb : neighbour op p p'.
Hypothesis EI : generate_states n p = Ok lI. Hypothesis EJ : generate_states n p' = Ok lJ.
Let o := lad op pos.
(** Element between position [k] of lJ and the state [s]. *)
Definition e1 (k : nat) (s : N) : K := z2k (elem n [o] (nth k lJ 0%N) s).

Lemma nodup_of m (q : nat) (l : list N) : (q <= m)%nat -> (m <= 32)%nat -> generate_states m q = Ok l -> NoDup l.
Proof. intros A B E. apply increasing_NoDup. now apply (states_facts m q l). Qed.
Lemma nth_error_nth0 (l : list N) k x : nth_error l k = Some x -> nth k l 0%N = x.
Proof. apply nth_error_nth. Qed.

Lemma e1_found s sg t k k0 : app1 n o s = Some (sg, t) -> nth_error lJ k0 = Some t -> (k < length lJ)%nat ->
  e1 k s = if (k =? k0)%nat then z2k sg else 0.
Proof.
  intros A Hk0 Hk. unfold e1. rewrite elem_single. rewrite A. destruct (Nat.eqb_spec k k0) as [->|Hne].
  - rewrite (nth_error_nth0 _ _ _ Hk0), N.eqb_refl. reflexivity.
  - destruct (N.eqb_spec t (nth k lJ 0%N)) as [E|E]; [|reflexivity]. exfalso. apply Hne.
    apply (proj1 (NoDup_nth_error lJ) (nodup_of n p' lJ Hp' Hn EJ) k k0 Hk). rewrite Hk0, E. now apply nth_error_nth'.
Qed.
Lemma e1_none s k : check_occupation op s pos = false -> e1 k s = 0.
Proof.
  intros H. rewrite (check_occ op s pos n) in H. unfold e1, o. rewrite elem_single. destruct (app1 n (lad op pos) s) as [[? ?]|]; [discriminate|reflexivity].
Qed.

(** The iteration for one occupied (or empty) state. *)
Lemma contribution i s : nth_error lI i = Some s -> check_occupation op s pos = true ->
  exists sg t k, apply_op op s pos n = Ok (sg, t) /\ binsearch lJ t = Ok (Z.of_nat k) /\ (k < length lJ)%nat /\ nth_error lJ k = Some t /\ app1 n o s = Some (sg, t).
Proof.
  intros Hi Hc. destruct (lookup_step n p p' op pos lI lJ i s Hp Hp' Hn Hpos Hnb EI EJ Hi Hc) as (sg & t & k & A & B & C & D).
  exists sg, t, k. repeat split; auto. apply nth_error_Some. congruence.
Qed.

Lemma e1_sum (f : nat -> K) s sg t k : app1 n o s = Some (sg, t) -> nth_error lJ k = Some t ->
  nsum (length lJ) (fun k' => f k' * e1 k' s) = f k * z2k sg.
Proof.
  intros A Hk. assert (k < length lJ)%nat by (apply nth_error_Some; congruence).
  rewrite (nsum_single _ _ _ k); auto.
  - rewrite (e1_found s sg t k k), Nat.eqb_refl by auto. reflexivity.
  - intros j Hj Hne. rewrite (e1_found s sg t j k) by auto. destruct (Nat.eqb_spec j k); [contradiction|]. ring.
Qed.

(** Accumulation over the states of the species: the value the loops build. *)
Definition acc_val (w : nat) (rowJ rowI : nat -> nat -> nat) (psi phi : list K) : K :=
  nsum (length lI) (fun i => nsum w (fun m => nsum (length lJ) (fun k =>
    nth (rowJ k m) psi 0 * e1 k (nth i lI 0%N) * nth (rowI i m) phi 0))).

Lemma exact_fold (cJ cI : list (list K)) nJ nI w rowJ rowI (step : list (list K) -> nat * N -> res (list (list K))) :
  length cJ = nJ -> length cI = nI ->
  (forall v i s, nth_error lI i = Some s -> check_occupation op s pos = false -> step v (i, s) = Ok v) ->
  (forall v i s sg t k, nth_error lI i = Some s -> check_occupation op s pos = true -> apply_op op s pos n = Ok (sg, t) -> binsearch lJ t = Ok (Z.of_nat k) ->
     (k < length lJ)%nat -> step v (i, s) = accum K nJ nI v sg cJ cI (map (rowJ k) (seq 0 w)) (map (rowI i) (seq 0 w))) ->
  exists v, foldM step (enum lI) (repeat (repeat 0 nI) nJ) = Ok v /\ shape2 v nJ nI /\
  forall j i, (j < nJ)%nat -> (i < nI)%nat -> ent2 v j i = acc_val w rowJ rowI (nth j cJ []) (nth i cI []).
Proof.
  intros LJ LI Hno Hyes.
  destruct (fold_add step (fun q j i => nsum w (fun m => nsum (length lJ) (fun k =>
    nth (rowJ k m) (nth j cJ []) 0 * e1 k (snd q) * nth (rowI (fst q) m) (nth i cI []) 0))) nJ nI (enum lI)) with (v := repeat (repeat (c0 K) nI) nJ)
    as (v & E & S & H).
  - intros v [i s] Hin Sv. apply in_enum in Hin. destruct Hin as [Hi _]. destruct (check_occupation op s pos) eqn:C.
    + destruct (contribution i s Hi C) as (sg & t & k & A & B & Hk & D & F).
      rewrite (Hyes v i s sg t k) by auto.
      destruct (accum_ok nJ nI v sg cJ cI (map (rowJ k) (seq 0 w)) (map (rowI i) (seq 0 w))) as (v' & E & S & H); auto.
      { now rewrite !map_length. }
      exists v'. repeat split; auto; try apply S. intros j i' Hj Hi'. rewrite H by auto. f_equal. rewrite dot_rows_map, <- nsum_scal_l.
      apply nsum_ext. intros m _. cbn [fst snd].
      rewrite (nsum_ext _ (length lJ) _ (fun k' => (nth (rowJ k' m) (nth j cJ []) 0 * nth (rowI i m) (nth i' cI []) 0) * e1 k' s)) by (intros; ring).
      rewrite (e1_sum (fun k' => nth (rowJ k' m) (nth j cJ []) 0 * nth (rowI i m) (nth i' cI []) 0) s sg t k) by auto. ring.
    + rewrite (Hno v i s) by auto. exists v. repeat split; auto; try apply Sv. intros j i' Hj Hi'. cbn [fst snd].
      rewrite nsum_0; [ring|]. intros m _. apply nsum_0. intros k _. rewrite e1_none by auto. ring.
  - apply zeros_shape.
  - exists v. repeat split; auto; try apply S. intros j i Hj Hi. rewrite H, zeros_ent by auto.
    unfold acc_val. rewrite (bsum_enum lI 0%N (fun q s => nsum w (fun m => nsum (length lJ) (fun k =>
      nth (rowJ k m) (nth j cJ []) 0 * e1 k s * nth (rowI q m) (nth i cI []) 0)))). ring.
Qed.
End Species.
End Fold.
