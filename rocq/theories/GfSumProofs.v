(** Spectral weight of the exact Green's function. *)
From Coq Require Import Reals List Arith NArith ZArith Bool Lia Lra Psatz Ring Permutation.
From Verif Require Import Base RBase RLin CBase OperatorsModel OperatorsSpec OperatorsProofs LookupModel LookupSpec LookupProofs SectorModel SectorSpec SectorProofs
  FockSpec FockProofs LocalModel MatvecModel EspaceModel ProjModel ProjSpec ProjProofs ProjMoreProofs ProjFinalProofs CfModel GfModel GfSpec GfProofs.
Import ListNotations.
Local Open Scope R_scope.

Lemma gram (m u : nat) (E : nat -> nat -> R) (x : nat -> R) (g : nat -> R) :
  (forall i i', (i < u)%nat -> (i' < u)%nat -> rsum m (fun k => E k i * E k i') = if (i =? i')%nat then g i else 0) ->
  rsum m (fun k => rsum u (fun i => E k i * x i) ^ 2) = rsum u (fun i => g i * x i ^ 2).
Proof.
  intros H.
  transitivity (rsum m (fun k => rsum u (fun i => rsum u (fun i' => (E k i * E k i') * (x i * x i'))))).
  { apply rsum_ext. intros k _. cbn [pow]. rewrite Rmult_1_r, <- rsum_scal_l. rewrite rsum_swap. apply rsum_ext. intros i _.
    rewrite <- rsum_scal_r. apply rsum_ext. intros i' _. ring. }
  rewrite rsum_swap. apply rsum_ext. intros i Hi. rewrite rsum_swap.
  rewrite (rsum_single u _ i Hi).
  - rewrite rsum_scal_r, H, Nat.eqb_refl by auto. ring.
  - intros i' Hi' Hne. rewrite rsum_scal_r, H by auto. destruct (Nat.eqb_spec i i'); [congruence|ring].
Qed.

Lemma parseval d (v : nat -> nat -> R) (x : nat -> R) : orthonormal d d v ->
  rsum d (fun j => rsum d (fun a => v j a * x a) ^ 2) = rsum d (fun a => x a ^ 2).
Proof.
  intros H. rewrite (gram d d v x (fun _ => 1)).
  - apply rsum_ext. intros. ring.
  - intros i i' Hi Hi'. now apply (orthonormal_complete d d v H).
Qed.

Definition okop (op : fop) (pos : nat) (s : N) : R := if check_occupation op s pos then 1 else 0.

Section Species.
Variables (n p p' pos : nat) (op : fop) (lI lJ : list N).
Hypothesis Hp : (p <= n)%nat. Hypothesis Hp' : (p' <= n)%nat. Hypothesis Hn : (n <= 32)%nat. Hypothesis Hpos : (pos < n)%nat.
Hypothesis Hnb : neighbour op p p'.
Hypothesis EI : generate_states n p = Ok lI. Hypothesis EJ : generate_states n p' = Ok lJ.
Notation e1 := (e1 RRing n pos op lJ).

Lemma e1_ortho i i' : (i < length lI)%nat -> (i' < length lI)%nat ->
  rsum (length lJ) (fun k => e1 k (nth i lI 0%N) * e1 k (nth i' lI 0%N)) = if (i =? i')%nat then okop op pos (nth i lI 0%N) else 0.
Proof.
  intros Hi Hi'. unfold okop. destruct (check_occupation op (nth i' lI 0%N) pos) eqn:C'.
  - destruct (contribution n p p' pos op lI lJ Hp Hp' Hn Hpos Hnb EI EJ i' _ (nth_error_nth' lI 0%N Hi') C') as (sg & t & k & _ & _ & Hk & D & A).
    unfold rsum. etransitivity; [exact (e1_sum RRing n p' pos op lJ Hp' Hn EJ (fun k => e1 k (nth i lI 0%N)) _ sg t k A D)|].
    destruct (check_occupation op (nth i lI 0%N) pos) eqn:C.
    + destruct (contribution n p p' pos op lI lJ Hp Hp' Hn Hpos Hnb EI EJ i _ (nth_error_nth' lI 0%N Hi) C) as (sg2 & t2 & k2 & _ & _ & Hk2 & D2 & A2).
      rewrite (e1_found RRing n p' pos op lJ Hp' Hn EJ _ sg2 t2 k k2 A2 D2 Hk).
      destruct (Nat.eqb_spec i i') as [<-|Hne].
      * rewrite A in A2. injection A2 as <- <-.
        assert (k = k2) as <-.
        { apply (proj1 (NoDup_nth_error lJ) (nodup_of n p' lJ Hp' Hn EJ) _ _ Hk). congruence. }
        rewrite Nat.eqb_refl. assert (S : sg = 1%Z \/ sg = (-1)%Z).
        { clear - A. destruct op; cbn [lad app1] in A; destruct (occ _ pos); try discriminate; injection A as <- _; unfold parity_sign; destruct (Nat.even _); auto. }
        destruct S as [-> | ->]; simpl; ring.
      * destruct (Nat.eqb_spec k k2) as [<-|Hk3]; [|simpl; ring]. exfalso. apply Hne.
        apply (proj1 (NoDup_nth lI 0%N) (nodup_of n p lI Hp Hn EI)); auto.
        assert (t = t2) as <- by congruence. apply app1_adj in A. apply app1_adj in A2. congruence.
    + rewrite (e1_none RRing n pos op lJ _ k C). destruct (i =? i')%nat; simpl; ring.
  - rewrite rsum_0.
    + destruct (Nat.eqb_spec i i') as [<-|]; [now rewrite C'|reflexivity].
    + intros k _. rewrite (e1_none RRing n pos op lJ _ k C'). simpl. ring.
Qed.
End Species.

Lemma applied_norm_up n p p' q pos op (I J : sct RRing) (phi : list R) : is_sector RRing n p q I -> is_sector RRing n p' q J -> neighbour op p p' -> (pos < n)%nat ->
  rsum (sdim RRing J) (fun a => applied RRing n (lad op pos) J I phi a ^ 2) =
  rsum (sdim RRing I) (fun b => okop op pos (nth (b mod length (ups RRing I)) (ups RRing I) 0%N) * nth b phi 0 ^ 2).
Proof.
  intros HI HJ Hnb Hpos. pose proof HI as (P1 & P2 & P3 & _ & EU & _). pose proof HJ as (Q1 & _ & _ & _ & EU' & _).
  unfold sdim. rewrite (same_dws RRing n p p' q I J HI HJ). unfold rsum at 1 2. rewrite !(nsum_mul RRing).
  apply (nsum_ext RRing). intros m Hm.
  change (rsum (length (ups RRing J)) (fun k => applied RRing n (lad op pos) J I phi (k + m * length (ups RRing J)) ^ 2) =
    rsum (length (ups RRing I)) (fun i => okop op pos (nth ((i + m * length (ups RRing I)) mod length (ups RRing I)) (ups RRing I) 0%N) * nth (i + m * length (ups RRing I)) phi 0 ^ 2)).
  transitivity (rsum (length (ups RRing J)) (fun k => rsum (length (ups RRing I)) (fun i => e1 RRing n pos op (ups RRing J) k (nth i (ups RRing I) 0%N) * nth (i + m * length (ups RRing I)) phi 0) ^ 2)).
  - apply rsum_ext. intros k Hk. exact (sq_sign _ _ _ (sgn_sq q) (applied_up RRing n p p' q pos op I J HI HJ Hpos phi k m Hk Hm)).
  - rewrite (gram _ _ _ _ (fun i => okop op pos (nth i (ups RRing I) 0%N))).
    + apply rsum_ext. intros i Hi. destruct (divmod (i + m * length (ups RRing I)) _ i m Hi eq_refl) as [-> _]. reflexivity.
    + intros i i' Hi Hi'. now apply (e1_ortho n p p' pos op (ups RRing I) (ups RRing J)).
Qed.

(** Weight of the part of eigenvector [k] on which the operator acts. *)
Definition part (op : fop) (pos : nat) (s : sct RRing) (k : nat) : R :=
  rsum (sdim RRing s) (fun b => okop op pos (nth (b mod length (ups RRing s)) (ups RRing s) 0%N) * nth b (vec RRing s k) 0 ^ 2).

Lemma bra2_sum n p p' q pos op (I J : sct RRing) i : is_sector RRing n p q I -> is_sector RRing n p' q J -> neighbour op p p' -> (pos < n)%nat ->
  eigenbasis J -> rsum (nvals J) (fun j => bra2 n (lad op pos) J I j i) = part op pos I i.
Proof.
  intros HI HJ Hnb Hpos [D O]. rewrite D. unfold bra2, bracket.
  etransitivity; [exact (parseval (sdim RRing J) (fun j a => nth a (vec RRing J j) 0) (applied RRing n (lad op pos) J I (vec RRing I i)) O)|].
  now apply (applied_norm_up n p p' q pos op I J).
Qed.
Lemma bra2_adj n op pos (I J : sct RRing) j i : bra2 n (lad op pos) J I j i = bra2 n (lad (opp_op op) pos) I J i j.
Proof. unfold bra2. now rewrite (bracket_adj RRing n op pos I J). Qed.

Lemma part_nonneg op pos s k : 0 <= part op pos s k.
Proof. apply rsum_nonneg. intros b _. unfold okop. destruct (check_occupation _ _ _); cbn [pow]; nra. Qed.
Lemma part_total pos s k : eigenbasis s -> (k < nvals s)%nat -> part OpCdg pos s k + part OpC pos s k = 1.
Proof.
  intros [D O] Hk. unfold part. rewrite <- rsum_add. rewrite D in Hk. specialize (O k k Hk Hk). rewrite Nat.eqb_refl in O. rewrite <- O.
  apply rsum_ext. intros b _. unfold okop, check_occupation. rewrite check_empty_spec, check_full_spec.
  destruct (occ _ pos); simpl; ring.
Qed.

Lemma nocc_le s i m : (nocc s i (i + m) <= m)%nat.
Proof.
  unfold nocc. replace (i + m - i)%nat with m by lia. rewrite <- (seq_length m i) at 2. generalize (seq i m). clear. induction l as [|a l IH]; simpl; [lia|]. destruct (occ s a); simpl; lia.
Qed.
Lemma okop_edge n p pos s op : (s < 2 ^ N.of_nat n)%N -> popcount s = p -> (pos < n)%nat ->
  match op with OpCdg => p = n | OpC => p = 0%nat end -> okop op pos s = 0.
Proof.
  intros Hs Hc Hpos E. unfold okop. destruct (check_occupation op s pos) eqn:C; auto. exfalso.
  rewrite (check_occ op s pos n) in C. destruct (app1 n (lad op pos) s) as [[z t]|] eqn:A; [|discriminate].
  pose proof (app1_toggles _ _ _ _ _ A) as T. assert (T' : toggles s t pos) by (destruct op; exact T).
  destruct (popcount_toggle s t pos n Hs Hpos T') as [Ht Pt].
  destruct op; cbn [lad app1] in A; destruct (occ s pos) eqn:O; try discriminate.
  - assert (T2 : toggles t s pos).
    { intros k. rewrite (T' k). destruct (k =? pos)%nat; auto. now rewrite negb_involutive. }
    destruct (popcount_toggle t s pos n Ht Hpos T2) as [_ P2]. rewrite (T' pos), Nat.eqb_refl, O in P2. simpl in P2. lia.
  - rewrite <- (nocc_popcount n t Ht) in Pt. pose proof (nocc_le t 0 n) as L. simpl in L. lia.
Qed.
Lemma part_edge n p q pos op s k : is_sector RRing n p q s -> (pos < n)%nat -> match op with OpCdg => p = n | OpC => p = 0%nat end -> part op pos s k = 0.
Proof.
  intros (P1 & P2 & P3 & _ & EU & _) Hpos E. apply rsum_0. intros b Hb.
  destruct (length (ups RRing s)) as [|u] eqn:L; [unfold sdim in Hb; rewrite L in Hb; lia|]. rewrite <- L in *.
  assert (M : (b mod length (ups RRing s) < length (ups RRing s))%nat) by (apply Nat.mod_upper_bound; lia).
  destruct (in_states n p _ _ P1 P3 EU M) as [B C]. rewrite (okop_edge n p pos _ op B C Hpos E). ring.
Qed.

(** ** The whole function *)
Section Total.
Variables (n : nat) (es : espace RRing) (F : family) (beta egs : R) (pos : nat).
Hypothesis HF : lists_family n es F. Hypothesis Hpos : (pos < n)%nat.

Lemma partition_Zsum : partition beta egs es = Zsum n beta egs F.
Proof.
  unfold partition, Zsum.
  transitivity (@bsum RRing _ (fun key => match key with [p; q] => rsum (nvals (F p q)) (fun i => weight beta egs (energy (F p q) i)) | _ => 0 end) (map fst es)).
  - rewrite (bsum_map RRing). apply (bsum_ext RRing). intros [key s] I. apply (proj1 (proj2 HF)) in I. destruct I as (p & q & Hp & Hq & -> & ->). cbn [fst snd].
    unfold rsum, nvals, energy, nsum. clear. set (l := s_vals RRing (F p q)). change (car RRing) with R in l.
    enough (G : forall k (l0 : list R), @bsum RRing R (boltz beta egs) l0 = @bsum RRing nat (fun i => weight beta egs (nth (i - k) l0 0)) (seq k (length l0))).
    { etransitivity; [apply (G 0%nat)|]. apply (bsum_ext RRing). intros i _. now rewrite Nat.sub_0_r. }
    intros k l0. revert k. induction l0 as [|e l0 IH]; intros k; cbn [length seq bsum]; [reflexivity|].
    rewrite (IH (S k)), Nat.sub_diag. cbn [nth]. unfold boltz at 1, weight at 2. f_equal. apply (bsum_ext RRing). intros i Hi. apply in_seq in Hi.
    destruct (i - k)%nat eqn:E; [lia|]. replace (i - S k)%nat with n by lia. reflexivity.
  - rewrite (bsum_perm RRing _ _ _ (keys_perm n es F HF)). rewrite (grid_sum RRing). reflexivity.
Qed.

Lemma build_exact : exists g, build_gf_exact n es beta egs pos 0 = Ok g /\ length (gf_q g) = length (gf_l g) /\ gf_Z g = Zsum n beta egs F /\
  forall (K : CRing) (f : R -> R -> K), bsum (fun p => f (fst p) (snd p)) (List.combine (gf_q g) (gf_l g)) =
    nsum n (fun p => nsum (S n) (fun q => nsum (nvals (F (S p) q)) (fun j => nsum (nvals (F p q)) (fun i =>
      f (pair_weight n pos beta egs F p q j i) (energy (F (S p) q) j - energy (F p q) i))))).
Proof.
  unfold build_gf_exact. cbn [pick bind].
  destruct (loop_sum n es F beta egs pos HF Hpos (map fst es) ([], [])) as (qs & ls & E & L & H); auto.
  { intros k. apply Permutation_in. now apply (keys_perm n es F). }
  rewrite E. cbn [bind]. eexists. split; [reflexivity|]. cbn [gf_q gf_l gf_Z]. split; [exact L|]. split; [exact partition_Zsum|].
  intros K f. rewrite H. cbn [fst snd List.combine bsum]. pose proof (cth K) as T. rewrite (Radd_0_l T).
  rewrite (bsum_perm K _ _ _ (keys_perm n es F HF)), grid_sum. rewrite nsum_S.
  rewrite (nsum_0 K (S n)).
  - rewrite (Radd_comm T), (Radd_0_l T). apply nsum_ext. intros p Hp. apply nsum_ext. intros q Hq. unfold key_sum.
    destruct (Nat.leb_spec (S p) n); [reflexivity|lia].
  - intros q _. unfold key_sum. destruct (Nat.leb_spec (S n) n); [lia|reflexivity].
Qed.

Hypothesis HB : forall p q, (p <= n)%nat -> (q <= n)%nat -> eigenbasis (F p q).

Lemma sum_rule : rsum n (fun p => rsum (S n) (fun q => rsum (nvals (F (S p) q)) (fun j => rsum (nvals (F p q)) (fun i =>
    pair_weight n pos beta egs F p q j i)))) = Zsum n beta egs F.
Proof.
  pose proof HF as (_ & _ & HS).
  set (A := fun p q => rsum (nvals (F p q)) (fun i => part OpCdg pos (F p q) i * weight beta egs (energy (F p q) i))).
  set (B := fun p q => rsum (nvals (F p q)) (fun i => part OpC pos (F p q) i * weight beta egs (energy (F p q) i))).
  transitivity (rsum n (fun p => rsum (S n) (fun q => B (S p) q)) + rsum n (fun p => rsum (S n) (fun q => A p q))).
  - rewrite <- rsum_add. apply rsum_ext. intros p Hp. rewrite <- rsum_add. apply rsum_ext. intros q Hq.
    unfold A, B, pair_weight.
    rewrite (rsum_ext (nvals (F (S p) q)) _ (fun j => weight beta egs (energy (F (S p) q) j) * rsum (nvals (F p q)) (fun i => bra2 n (Cr pos) (F (S p) q) (F p q) j i)
       + rsum (nvals (F p q)) (fun i => weight beta egs (energy (F p q) i) * bra2 n (Cr pos) (F (S p) q) (F p q) j i))).
    + rewrite rsum_add. f_equal.
      * apply rsum_ext. intros j Hj. rewrite Rmult_comm. f_equal.
        rewrite (rsum_ext _ _ (fun i => bra2 n (lad OpC pos) (F p q) (F (S p) q) i j)) by (intros; apply (bra2_adj n OpCdg)).
        apply (bra2_sum n (S p) p q pos OpC); simpl; auto; try (apply HS; lia). apply HB; lia.
      * rewrite rsum_swap. apply rsum_ext. intros i Hi. rewrite rsum_scal_l, Rmult_comm. f_equal.
        apply (bra2_sum n p (S p) q pos OpCdg); simpl; auto; try (apply HS; lia). apply HB; lia.
    + intros j _. rewrite <- rsum_scal_l, <- rsum_add. apply rsum_ext. intros i _. ring.
  - assert (E1 : rsum (S n) (fun q => B 0%nat q) = 0).
    { apply rsum_0. intros q Hq. apply rsum_0. intros i _. rewrite (part_edge n 0 q pos OpC) by (auto; apply HS; lia). ring. }
    assert (E2 : rsum (S n) (fun q => A n q) = 0).
    { apply rsum_0. intros q Hq. apply rsum_0. intros i _. rewrite (part_edge n n q pos OpCdg) by (auto; apply HS; lia). ring. }
    transitivity (rsum (S n) (fun p => rsum (S n) (fun q => B p q)) + rsum (S n) (fun p => rsum (S n) (fun q => A p q))).
    + rewrite (rsum_S_l n (fun p => rsum (S n) (fun q => B p q))), (rsum_S n (fun p => rsum (S n) (fun q => A p q))), E1, E2. ring.
    + rewrite <- rsum_add. unfold Zsum. apply rsum_ext. intros p Hp. rewrite <- rsum_add. apply rsum_ext. intros q Hq. unfold A, B.
      rewrite <- rsum_add. apply rsum_ext. intros i Hi.
      rewrite <- Rmult_plus_distr_r. rewrite Rplus_comm, part_total by (auto; apply HB; lia). ring.
Qed.

Lemma weight_pos E : 0 < weight beta egs E.
Proof. apply exp_pos. Qed.
Lemma pair_weight_nonneg p q j i : 0 <= pair_weight n pos beta egs F p q j i.
Proof. unfold pair_weight, bra2. apply Rmult_le_pos; [apply pow2_ge_0|]. pose proof (weight_pos (energy (F (S p) q) j)). pose proof (weight_pos (energy (F p q) i)). lra. Qed.
End Total.
