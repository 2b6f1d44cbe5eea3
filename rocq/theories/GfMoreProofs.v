(** The exact Green's function: values, causality, asymptotics; the down spin. *)
From Coq Require Import Reals List Arith NArith ZArith Bool Lia Lra Psatz Ring Permutation.
From Verif Require Import Base RBase RLin CBase OperatorsModel OperatorsSpec OperatorsProofs LookupModel LookupSpec LookupProofs SectorModel SectorSpec SectorProofs
  FockSpec FockProofs LocalModel MatvecModel EspaceModel ProjModel ProjSpec ProjProofs ProjMoreProofs ProjFinalProofs CfModel GfModel GfSpec GfProofs GfSumProofs.
Import ListNotations.
Local Open Scope R_scope.

Lemma bsum_combine (K : CRing) (f : R -> R -> K) (qs ls : list R) : length qs = length ls ->
  bsum (fun p => f (fst p) (snd p)) (List.combine qs ls) = nsum (length ls) (fun i => f (nth i qs 0) (nth i ls 0)).
Proof.
  revert ls. induction qs as [|x qs IH]; intros [|y ls]; cbn [length]; intros L; try lia; [reflexivity|].
  cbn [List.combine bsum fst snd]. rewrite IH by lia. rewrite nsum_S_l. reflexivity.
Qed.

Section Values.
Variables (n : nat) (es : espace RRing) (F : family) (beta egs : R) (pos : nat).
Hypothesis HF : lists_family n es F. Hypothesis Hpos : (pos < n)%nat.

(** A property of all pairs of the family is a property of all list entries. *)
Lemma entries_all (g : gf_t) (P : R -> R -> bool) : length (gf_q g) = length (gf_l g) ->
  (forall (K : CRing) (f : R -> R -> K), bsum (fun p => f (fst p) (snd p)) (List.combine (gf_q g) (gf_l g)) =
    nsum n (fun p => nsum (S n) (fun q => nsum (nvals (F (S p) q)) (fun j => nsum (nvals (F p q)) (fun i =>
      f (pair_weight n pos beta egs F p q j i) (energy (F (S p) q) j - energy (F p q) i)))))) ->
  (forall p q j i, (p < n)%nat -> (q <= n)%nat -> (j < nvals (F (S p) q))%nat -> (i < nvals (F p q))%nat ->
     P (pair_weight n pos beta egs F p q j i) (energy (F (S p) q) j - energy (F p q) i) = true) ->
  forall k, (k < length (gf_l g))%nat -> P (nth k (gf_q g) 0) (nth k (gf_l g) 0) = true.
Proof.
  intros L H HP k Hk. specialize (H RRing (fun q l => if P q l then 0 else 1)). rewrite (bsum_combine RRing (fun q l => if P q l then 0 else 1)) in H by auto.
  assert (Z : rsum (length (gf_l g)) (fun i => if P (nth i (gf_q g) 0) (nth i (gf_l g) 0) then 0 else 1) = 0).
  { etransitivity; [exact H|]. apply (nsum_0 RRing). intros p Hp. apply (nsum_0 RRing). intros q Hq. apply (nsum_0 RRing). intros j Hj. apply (nsum_0 RRing). intros i Hi.
    rewrite HP by (auto; lia). reflexivity. }
  apply (rsum_nonneg_0 _ _) with (i := k) in Z; auto.
  - destruct (P _ _); [reflexivity|lra].
  - intros i _. destruct (P _ _); lra.
Qed.

Lemma build_values : exists g, build_gf_exact n es beta egs pos 0 = Ok g /\ length (gf_q g) = length (gf_l g) /\ gf_Z g = Zsum n beta egs F /\
  (forall x, In x (gf_q g) -> 0 <= x) /\
  (forall L, (forall p q j i, (p < n)%nat -> (q <= n)%nat -> (j < nvals (F (S p) q))%nat -> (i < nvals (F p q))%nat ->
     Rabs (energy (F (S p) q) j - energy (F p q) i) <= L) -> forall x, In x (gf_l g) -> Rabs x <= L) /\
  rsum (length (gf_q g)) (fun k => nth k (gf_q g) 0) =
    rsum n (fun p => rsum (S n) (fun q => rsum (nvals (F (S p) q)) (fun j => rsum (nvals (F p q)) (fun i => pair_weight n pos beta egs F p q j i)))) /\
  forall e eta, gf_call g e eta = Ok (cxdiv (lehmann_up n pos beta egs F (zpoint e eta)) (rcx (Zsum n beta egs F))).
Proof.
  destruct (build_exact n es F beta egs pos HF Hpos) as (g & E & L & Z & H). exists g. split; [exact E|]. split; [exact L|]. split; [exact Z|].
  split; [|split; [|split]].
  - intros x I. apply (In_nth _ _ 0) in I. destruct I as (k & Hk & <-). rewrite L in Hk.
    pose proof (entries_all g (fun q _ => Rleb 0 q) L H ltac:(intros; apply Rleb_spec; apply pair_weight_nonneg) k Hk) as Q. now apply Rleb_spec in Q.
  - intros B HL x I. apply (In_nth _ _ 0) in I. destruct I as (k & Hk & <-).
    pose proof (entries_all g (fun _ l => Rleb (Rabs l) B) L H ltac:(intros; apply Rleb_spec; now apply HL) k Hk) as Q. now apply Rleb_spec in Q.
  - specialize (H RRing (fun q _ => q)). rewrite (bsum_combine RRing (fun q _ => q)) in H by auto. rewrite L. exact H.
  - intros e eta. unfold gf_call, k_sp. rewrite L, Nat.eqb_refl. cbn [bind]. rewrite Z. do 2 f_equal.
    specialize (H CxRing (fun q l => cxmul (cxinv (cxsub (zpoint e eta) (rcx l))) (rcx q))).
    rewrite (bsum_combine CxRing (fun q l => cxmul (cxinv (cxsub (zpoint e eta) (rcx l))) (rcx q))) in H by auto.
    etransitivity; [exact H|]. unfold lehmann_up, csum. apply (nsum_ext CxRing). intros p _. apply (nsum_ext CxRing). intros q _.
    apply (nsum_ext CxRing). intros j _. apply (nsum_ext CxRing). intros i _. unfold cxdiv, pair_weight. apply (Rmul_comm cx_ring).
Qed.

Hypothesis HB : forall p q, (p <= n)%nat -> (q <= n)%nat -> eigenbasis (F p q).

Lemma states_nonempty m k l : (k <= m)%nat -> (m <= 32)%nat -> generate_states m k = Ok l -> (0 < length l)%nat.
Proof.
  intros A B E. destruct (generate_states_spec m k A B) as (l' & E' & _ & C & _). rewrite E in E'. injection E' as <-.
  rewrite C. now apply binom_pos.
Qed.
Lemma sdim_pos p q s : is_sector RRing n p q s -> (0 < sdim RRing s)%nat.
Proof.
  intros (A & B & C & _ & E1 & E2 & _). unfold sdim. pose proof (states_nonempty n p _ A C E1). pose proof (states_nonempty n q _ B C E2). nia.
Qed.
Lemma Zsum_pos : 0 < Zsum n beta egs F.
Proof.
  pose proof HF as (_ & _ & HS). unfold Zsum.
  assert (N0 : forall p q, 0 <= rsum (nvals (F p q)) (fun i => weight beta egs (energy (F p q) i))).
  { intros. apply rsum_nonneg. intros. apply Rlt_le, exp_pos. }
  assert (N1 : forall p, 0 <= rsum (S n) (fun q => rsum (nvals (F p q)) (fun i => weight beta egs (energy (F p q) i)))).
  { intros. apply rsum_nonneg. auto. }
  eapply Rlt_le_trans; [|apply (rsum_term_le (S n) (fun p => rsum (S n) (fun q => rsum (nvals (F p q)) (fun i => weight beta egs (energy (F p q) i)))) 0%nat); auto; lia].
  eapply Rlt_le_trans; [|apply (rsum_term_le (S n) (fun q => rsum (nvals (F 0%nat q)) (fun i => weight beta egs (energy (F 0%nat q) i))) 0%nat); auto; lia].
  eapply Rlt_le_trans; [|apply (rsum_term_le (nvals (F 0%nat 0%nat)) (fun i => weight beta egs (energy (F 0%nat 0%nat) i)) 0%nat)].
  - apply exp_pos.
  - intros. apply Rlt_le, exp_pos.
  - destruct (HB 0%nat 0%nat ltac:(lia) ltac:(lia)) as [-> _]. apply (sdim_pos 0 0). apply HS; lia.
Qed.
End Values.

(** ** Sums of simple poles *)
Section Poles.
Variables (q l : list R) (Z : R).
Hypothesis Hl : length l = length q. Hypothesis HZ : 0 < Z. Hypothesis Hq : forall x, In x q -> 0 <= x.
Hypothesis HS : rsum (length q) (fun k => nth k q 0) = Z.
Definition poles (z : cx) : cx :=
  cxdiv (csum (length l) (fun i => cxmul (cxinv (cxsub z (rcx (nth i l 0)))) (rcx (nth i q 0)))) (rcx Z).

Lemma den_pos z x : im z <> 0 -> 0 < (re z - x) * (re z - x) + im z * im z.
Proof. intros H. pose proof (Rle_0_sqr (re z - x)) as A. unfold Rsqr in A. assert (0 < im z * im z) by nra. lra. Qed.
Lemma nth_nonneg k : 0 <= nth k q 0.
Proof. destruct (Nat.lt_ge_cases k (length q)). - apply Hq. now apply nth_In. - rewrite nth_overflow by lia. lra. Qed.

Lemma div_r_re x : re (cxdiv x (rcx Z)) = re x / Z.
Proof. unfold cxdiv. cbv [re im cxmul cxinv cxn2 rcx fst snd]. destruct x. field. lra. Qed.
Lemma div_r_im x : im (cxdiv x (rcx Z)) = im x / Z.
Proof. unfold cxdiv. cbv [re im cxmul cxinv cxn2 rcx fst snd]. destruct x. field. lra. Qed.

Lemma poles_im z : im z <> 0 -> im (poles z) = - im z * rsum (length l) (fun i => nth i q 0 / ((re z - nth i l 0) * (re z - nth i l 0) + im z * im z)) / Z.
Proof.
  intros H. unfold poles. rewrite div_r_im, csum_im. f_equal. rewrite <- rsum_scal_l. apply rsum_ext. intros i _.
  pose proof (den_pos z (nth i l 0) H) as D. generalize dependent (nth i l 0). generalize (nth i q 0). intros a b D. destruct z as [x y]. cbv [re im cxmul cxinv cxn2 cxsub cxadd cxopp rcx fst snd] in *. field.
  replace ((x + - b) * (x + - b) + (y + - 0) * (y + - 0)) with ((x - b) * (x - b) + y * y) by ring. lra.
Qed.

Lemma poles_causal z : 0 < im z -> im (poles z) < 0.
Proof.
  intros H. rewrite poles_im by lra.
  assert (P : 0 < rsum (length l) (fun i => nth i q 0 / ((re z - nth i l 0) * (re z - nth i l 0) + im z * im z))).
  { assert (N : forall i, (i < length l)%nat -> 0 <= nth i q 0 / ((re z - nth i l 0) * (re z - nth i l 0) + im z * im z)).
    { intros i _. apply Rmult_le_pos; [apply nth_nonneg|]. apply Rlt_le, Rinv_0_lt_compat, den_pos. lra. }
    destruct (Rle_lt_or_eq_dec _ _ (rsum_nonneg _ _ N)) as [|E]; auto. exfalso. symmetry in E.
    assert (rsum (length q) (fun k => nth k q 0) = 0); [|lra]. apply rsum_0. intros i Hi. rewrite <- Hl in Hi.
    pose proof (rsum_nonneg_0 _ _ N E i Hi) as E1. pose proof (den_pos z (nth i l 0) ltac:(lra)) as D.
    apply (f_equal (fun x => x * ((re z - nth i l 0) * (re z - nth i l 0) + im z * im z))) in E1. unfold Rdiv in E1. rewrite Rmult_assoc, Rinv_l in E1 by lra. lra. }
  unfold Rdiv. assert (0 < / Z) by now apply Rinv_0_lt_compat. assert (0 < im z * rsum (length l) (fun i => nth i q 0 / ((re z - nth i l 0) * (re z - nth i l 0) + im z * im z))) by nra.
  rewrite Ropp_mult_distr_l_reverse, Ropp_mult_distr_l_reverse. nra.
Qed.

(** z G(z) - 1 is a weighted sum of l/(z-l). *)
Lemma poles_tail z : im z <> 0 -> cxsub (cxmul z (poles z)) (rcx 1) =
  cxdiv (csum (length l) (fun i => cxmul (rcx (nth i q 0 * nth i l 0)) (cxinv (cxsub z (rcx (nth i l 0)))))) (rcx Z).
Proof.
  intros H. unfold poles.
  assert (E : cxmul z (csum (length l) (fun i => cxmul (cxinv (cxsub z (rcx (nth i l 0)))) (rcx (nth i q 0)))) =
    cxadd (csum (length l) (fun i => cxmul (rcx (nth i q 0 * nth i l 0)) (cxinv (cxsub z (rcx (nth i l 0)))))) (rcx Z)).
  { rewrite <- HS, Hl, rcx_sum, <- csum_add, <- csum_scal_l. apply csum_ext. intros i _.
    pose proof (den_pos z (nth i l 0) H) as D. generalize dependent (nth i l 0). generalize (nth i q 0). intros a b D. destruct z as [x y].
    apply cx_eq; cbv [re im cxmul cxinv cxn2 cxsub cxadd cxopp rcx fst snd] in *; field;
      replace ((x + - b) * (x + - b) + (y + - 0) * (y + - 0)) with ((x - b) * (x - b) + y * y) by ring; lra. }
  revert E. generalize (csum (length l) (fun i => cxmul (cxinv (cxsub z (rcx (nth i l 0)))) (rcx (nth i q 0)))).
  generalize (csum (length l) (fun i => cxmul (rcx (nth i q 0 * nth i l 0)) (cxinv (cxsub z (rcx (nth i l 0)))))). intros t s E.
  transitivity (cxsub (cxdiv (cxmul z s) (rcx Z)) (rcx 1)).
  - f_equal. unfold cxdiv. now rewrite (Rmul_assoc cx_ring).
  - rewrite E. apply cx_eq; cbv [re im cxmul cxinv cxn2 cxsub cxadd cxopp cxdiv rcx fst snd]; destruct t; field; lra.
Qed.

Lemma poles_bound z L : im z <> 0 -> (forall x, In x l -> Rabs x <= L) ->
  Rabs (re (cxsub (cxmul z (poles z)) (rcx 1))) <= L / Rabs (im z) /\ Rabs (im (cxsub (cxmul z (poles z)) (rcx 1))) <= L / Rabs (im z).
Proof.
  intros H HL. rewrite poles_tail by auto. rewrite div_r_re, div_r_im, csum_re, csum_im.
  assert (Y : 0 < Rabs (im z)) by now apply Rabs_pos_lt.
  assert (G : forall f : nat -> R, (forall i, (i < length l)%nat -> Rabs (f i) <= nth i q 0 * (L / Rabs (im z))) -> Rabs (rsum (length l) f / Z) <= L / Rabs (im z)).
  { intros f Hf. unfold Rdiv at 1. rewrite Rabs_mult, (Rabs_pos_eq (/ Z)) by (apply Rlt_le, Rinv_0_lt_compat; auto).
    apply (Rmult_le_reg_r Z); auto. rewrite Rmult_assoc, Rinv_l, Rmult_1_r by lra.
    eapply Rle_trans; [apply rsum_abs|]. eapply Rle_trans; [apply rsum_le; exact Hf|]. rewrite rsum_scal_r. rewrite Hl, HS. lra. }
  assert (B : forall i, (i < length l)%nat -> forall t : R, t * t <= nth i l 0 * nth i l 0 / ((re z - nth i l 0) * (re z - nth i l 0) + im z * im z) -> Rabs (nth i q 0 * t) <= nth i q 0 * (L / Rabs (im z))).
  { intros i Hi t Ht. rewrite Rabs_mult, (Rabs_pos_eq (nth i q 0)) by apply nth_nonneg. apply Rmult_le_compat_l; [apply nth_nonneg|].
    pose proof (HL _ (nth_In l 0 Hi)) as HLi. pose proof (den_pos z (nth i l 0) H) as D.
    assert (S1 : t * t * (im z * im z) <= nth i l 0 * nth i l 0).
    { apply (Rmult_le_compat_r ((re z - nth i l 0) * (re z - nth i l 0) + im z * im z)) in Ht; [|lra].
      replace (nth i l 0 * nth i l 0 / ((re z - nth i l 0) * (re z - nth i l 0) + im z * im z) * ((re z - nth i l 0) * (re z - nth i l 0) + im z * im z)) with (nth i l 0 * nth i l 0) in Ht by (field; lra).
      pose proof (Rle_0_sqr (t * (re z - nth i l 0))) as S0. unfold Rsqr in S0. nra. }
    apply (Rmult_le_reg_r (Rabs (im z))); auto. unfold Rdiv. rewrite Rmult_assoc, Rinv_l, Rmult_1_r by lra.
    eapply Rle_trans; [|exact HLi]. rewrite <- Rabs_mult. apply Rsqr_le_abs_0. unfold Rsqr. nra. }
  split; apply G; intros i Hi.
  - replace (re (cxmul (rcx (nth i q 0 * nth i l 0)) (cxinv (cxsub z (rcx (nth i l 0)))))) with (nth i q 0 * (nth i l 0 * re (cxinv (cxsub z (rcx (nth i l 0))))))
      by (cbv [re im cxmul rcx fst snd]; destruct (cxinv (cxsub z (nth i l 0, 0))); ring).
    apply B; auto. pose proof (den_pos z (nth i l 0) H) as D. generalize dependent (nth i l 0). clear - H. intros b D.
    destruct z as [x y]. cbv [re im cxinv cxn2 cxsub cxadd cxopp rcx fst snd] in *.
    replace ((x + - b) * (x + - b) + (y + - 0) * (y + - 0)) with ((x - b) * (x - b) + y * y) by ring.
    set (d := (x - b) * (x - b) + y * y) in *. replace (b * ((x + - b) / d) * (b * ((x + - b) / d))) with (b * b / d * (((x - b) * (x - b)) / d)) by (field; lra).
    rewrite <- (Rmult_1_r (b * b / d)) at 2. apply Rmult_le_compat_l.
    + apply Rmult_le_pos; [nra|]. apply Rlt_le, Rinv_0_lt_compat; auto.
    + apply (Rmult_le_reg_r d); auto. unfold Rdiv. rewrite Rmult_assoc, Rinv_l by lra. unfold d. nra.
  - replace (im (cxmul (rcx (nth i q 0 * nth i l 0)) (cxinv (cxsub z (rcx (nth i l 0)))))) with (nth i q 0 * (nth i l 0 * im (cxinv (cxsub z (rcx (nth i l 0))))))
      by (cbv [re im cxmul rcx fst snd]; destruct (cxinv (cxsub z (nth i l 0, 0))); ring).
    apply B; auto. pose proof (den_pos z (nth i l 0) H) as D. generalize dependent (nth i l 0). clear - H. intros b D.
    destruct z as [x y]. cbv [re im cxinv cxn2 cxsub cxadd cxopp rcx fst snd] in *.
    replace ((x + - b) * (x + - b) + (y + - 0) * (y + - 0)) with ((x - b) * (x - b) + y * y) by ring.
    set (d := (x - b) * (x - b) + y * y) in *. replace (b * (- (y + - 0) / d) * (b * (- (y + - 0) / d))) with (b * b / d * ((y * y) / d)) by (field; lra).
    rewrite <- (Rmult_1_r (b * b / d)) at 2. apply Rmult_le_compat_l.
    + apply Rmult_le_pos; [nra|]. apply Rlt_le, Rinv_0_lt_compat; auto.
    + apply (Rmult_le_reg_r d); auto. unfold Rdiv. rewrite Rmult_assoc, Rinv_l by lra. unfold d. pose proof (Rle_0_sqr (x - b)) as Q. unfold Rsqr in Q. lra.
Qed.
End Poles.

(** ** Final statements *)
Lemma gf_call_poles g e eta : length (gf_q g) = length (gf_l g) -> gf_call g e eta = Ok (poles (gf_q g) (gf_l g) (gf_Z g) (zpoint e eta)).
Proof. intros L. unfold gf_call, k_sp. rewrite L, Nat.eqb_refl. reflexivity. Qed.
Lemma zpoint_im x eta : im (zpoint (rcx x) eta) = eta.
Proof. cbv [zpoint cxadd cxmul ci rcx re im fst snd]. ring. Qed.

Section Thms.
Variables (n : nat) (es : espace RRing) (F : family) (beta egs : R) (pos : nat).
Hypothesis HF : lists_family n es F. Hypothesis Hpos : (pos < n)%nat.

Theorem gf_exact_lehmann : exists g, build_gf_exact n es beta egs pos 0 = Ok g /\
  forall e eta, gf_call g e eta = Ok (cxdiv (lehmann_up n pos beta egs F (zpoint e eta)) (rcx (Zsum n beta egs F))).
Proof. destruct (build_values n es F beta egs pos HF Hpos) as (g & E & _ & _ & _ & _ & _ & H). exists g. auto. Qed.

Hypothesis HB : forall p q, (p <= n)%nat -> (q <= n)%nat -> eigenbasis (F p q).
Theorem gf_exact_weight : exists g, build_gf_exact n es beta egs pos 0 = Ok g /\
  (forall x, In x (gf_q g) -> 0 <= x) /\ 0 < gf_Z g /\ gf_Z g = Zsum n beta egs F /\
  rsum (length (gf_q g)) (fun k => nth k (gf_q g) 0) = gf_Z g.
Proof.
  destruct (build_values n es F beta egs pos HF Hpos) as (g & E & L & Z & Q & _ & S & _). exists g. rewrite Z. repeat split; auto.
  - now apply (Zsum_pos n es F beta egs pos).
  - rewrite S. now apply (sum_rule n es F).
Qed.
Theorem gf_exact_causal : exists g, build_gf_exact n es beta egs pos 0 = Ok g /\
  (forall e eta, 0 < im (zpoint e eta) -> exists G, gf_call g e eta = Ok G /\ im G < 0) /\
  forall L, (forall p q j i, (p < n)%nat -> (q <= n)%nat -> (j < nvals (F (S p) q))%nat -> (i < nvals (F p q))%nat ->
      Rabs (energy (F (S p) q) j - energy (F p q) i) <= L) ->
    forall e eta, let z := zpoint e eta in im z <> 0 -> exists G, gf_call g e eta = Ok G /\
      Rabs (re (cxsub (cxmul z G) (rcx 1))) <= L / Rabs (im z) /\ Rabs (im (cxsub (cxmul z G) (rcx 1))) <= L / Rabs (im z).
Proof.
  destruct (build_values n es F beta egs pos HF Hpos) as (g & E & L & Z & Q & HL & S & _). exists g. split; [exact E|].
  pose proof (Zsum_pos n es F beta egs pos HF Hpos HB) as ZP. rewrite (sum_rule n es F beta egs pos HF Hpos HB) in S.
  rewrite <- Z in S, ZP. split.
  - intros e eta H. exists (poles (gf_q g) (gf_l g) (gf_Z g) (zpoint e eta)). split; [now apply gf_call_poles|]. apply poles_causal; auto.
  - intros B HBd e eta z Hz. exists (poles (gf_q g) (gf_l g) (gf_Z g) z). split; [now apply gf_call_poles|]. apply poles_bound; auto.
Qed.
End Thms.

(** ** The other spin *)
Section Down.
Variables (n : nat) (es : espace RRing) (F : family) (beta egs : R) (pos : nat).
Hypothesis HF : lists_family n es F. Hypothesis Hpos : (pos < n)%nat.

Lemma dw_step p q : (S p <= n)%nat -> (q <= n)%nat ->
  (q < n)%nat /\ project_exact_dw RRing pos n OpCdg (F p q) (F (S p) q) = Err ValueError \/
  q = n /\ exists b, project_exact_dw RRing pos n OpCdg (F p q) (F (S p) q) = Ok b.
Proof.
  intros Hp Hq. pose proof HF as (_ & _ & HS).
  pose proof (HS p q ltac:(lia) Hq) as (P1 & P2 & P3 & SI & EU & ED & cI & VI & LI & _).
  pose proof (HS (S p) q Hp Hq) as (Q1 & _ & _ & SJ & EU' & ED' & cJ & VJ & LJ & _).
  unfold project_exact_dw. rewrite SI, SJ. cbn beta zeta. unfold cols_of. rewrite VI, VJ. cbn [bind].
  destruct (states_facts n q _ P2 P3 ED) as [_ HD].
  assert (AD : dws RRing (F (S p) q) = dws RRing (F p q)) by congruence.
  pose proof (states_nonempty n p _ P1 P3 EU) as UP.
  destruct (Nat.eq_dec q n) as [E|E].
  - right. split; [exact E|]. eexists.
    assert (G : forall l v, (forall i s, In (i, s) l -> In s (dws RRing (F p q))) -> forall f, foldM (fun v0 (p0 : nat * N) => let '(iI, sI) := p0 in if check_occupation OpCdg sI pos then f v0 iI sI else @Ok (list (list R)) v0) l v = Ok v).
    { induction l as [|[i s] l IH]; intros v Hl f; [reflexivity|]. cbn [foldM].
      assert (C : check_occupation OpCdg s pos = false).
      { pose proof (proj1 (HD s) (Hl i s (or_introl eq_refl))) as [B1 B2]. pose proof (okop_edge n q pos s OpCdg B1 B2 Hpos E) as O. unfold okop in O. destruct (check_occupation OpCdg s pos); [lra|reflexivity]. }
      rewrite C. cbn [bind]. apply IH. intros i' s' I. apply (Hl i'). now right. }
    apply (G (enum (dws RRing (F p q)))). intros i s I. apply in_enum in I. destruct I as [I _]. eapply nth_error_In; eauto.
  - left. split; [lia|].
    assert (X : exists s, In s (dws RRing (F p q)) /\ check_occupation OpCdg s pos = true).
    { destruct (states_facts n q _ P2 P3 ED) as [_ HD'].
      (* a state with [pos] empty: remove from a state with q+1 electrons, or use fewer *)
      destruct (generate_states_spec n (S q) ltac:(lia) P3) as (l' & E' & _ & CL & HL').
      assert (exists s, In s (dws RRing (F p q)) /\ occ s pos = false) as (s & I & O).
      { destruct q as [|q'].
        - exists 0%N. split; [apply HD; split; [|reflexivity]|unfold occ; apply N.bits_0]. apply N.neq_0_lt_0. apply N.pow_nonzero. lia.
        - destruct (dws RRing (F p (S q'))) as [|s0 l0] eqn:EL; [exfalso; pose proof (states_nonempty n (S q') [] P2 P3 ED); simpl in *; lia|].
          destruct (occ s0 pos) eqn:O0; [|exists s0; split; [now left|exact O0]].
          pose proof (proj1 (HD s0) (or_introl eq_refl)) as [B0 C0].
          (* s0 has an empty orbital k *)
          assert (exists k, (k < n)%nat /\ occ s0 k = false) as (k & Hk & Ok0).
          { destruct (existsb (fun k => negb (occ s0 k)) (seq 0 n)) eqn:EX.
            - apply existsb_exists in EX. destruct EX as (k & I & N0). apply in_seq in I. exists k. split; [lia|]. now apply negb_true_iff in N0.
            - exfalso. rewrite <- (nocc_popcount n s0 B0) in C0. unfold nocc in C0. rewrite Nat.sub_0_r in C0.
              assert (forall l, existsb (fun k => negb (occ s0 k)) l = false -> length (filter (occ s0) l) = length l) as G.
              { induction l as [|a l IH]; simpl; auto. intros H. apply orb_false_iff in H. destruct H as [H1 H2]. apply negb_false_iff in H1. rewrite H1. simpl. f_equal. auto. }
              rewrite (G _ EX), seq_length in C0. lia. }
          exists (N.setbit (N.clearbit s0 (N.of_nat pos)) (N.of_nat k)).
          assert (kp : k <> pos) by (intros ->; congruence).
          set (t := N.clearbit s0 (N.of_nat pos)).
          assert (T1 : toggles s0 t pos) by (unfold t; apply toggles_clearbit; auto).
          destruct (popcount_toggle s0 t pos n B0 Hpos T1) as [Bt Ct]. rewrite O0 in Ct.
          assert (Otk : occ t k = false) by (rewrite (T1 k); destruct (Nat.eqb_spec k pos); [congruence|exact Ok0]).
          assert (T2 : toggles t (N.setbit t (N.of_nat k)) k) by (apply toggles_setbit; auto).
          destruct (popcount_toggle t _ k n Bt Hk T2) as [Bu Cu]. rewrite Otk in Cu.
          split.
          + apply HD. split; [exact Bu|]. lia.
          + rewrite (T2 pos). destruct (Nat.eqb_spec pos k); [congruence|]. rewrite (T1 pos), Nat.eqb_refl, O0. reflexivity. }
      exists s. split; auto. unfold check_occupation. now rewrite check_empty_spec, O. }
    assert (G : forall l v, (forall i s, In (i, s) l -> nth_error (dws RRing (F p q)) i = Some s) -> (exists i s, In (i, s) l /\ check_occupation OpCdg s pos = true) ->
      foldM (fun v0 (p0 : nat * N) => let '(iI, sI) := p0 in
        if check_occupation OpCdg sI pos then
          do (sg, sJ) <- apply_op OpCdg sI pos n;
          do iJ <- binsearch (dws RRing (F (S p) q)) sJ;
          accum RRing (length (s_vals RRing (F (S p) q))) (length (s_vals RRing (F p q))) v0 sg cJ cI
            (rows (s_d RRing (F (S p) q)) (iJ * Z.of_nat (length (ups RRing (F (S p) q)))) ((iJ + 1) * Z.of_nat (length (ups RRing (F (S p) q)))))
            (rows (s_d RRing (F p q)) (Z.of_nat iI * Z.of_nat (length (ups RRing (F p q)))) ((Z.of_nat iI + 1) * Z.of_nat (length (ups RRing (F p q)))))
        else Ok v0) l v = Err ValueError).
    { induction l as [|[i s] l IH]; intros v Hl (i0 & s0 & I0 & C0); [destruct I0|]. cbn [foldM].
      destruct (check_occupation OpCdg s pos) eqn:C.
      - pose proof (Hl i s (or_introl eq_refl)) as Hi.
        assert (Is : In s (dws RRing (F p q))) by (eapply nth_error_In; eauto). pose proof (proj1 (HD s) Is) as [B1 B2].
        rewrite (check_occ OpCdg s pos n) in C. pose proof (app1_apply OpCdg s pos n (lt32 s n P3 B1) ltac:(lia)) as EA. rewrite EA in C.
        destruct (apply_op OpCdg s pos n) as [[sg t]|] eqn:EO; [|discriminate C]. cbn [bind].
        cbn [to_opt] in EA. pose proof (app1_toggles _ _ _ _ _ EA) as T. destruct (popcount_toggle s t pos n B1 Hpos T) as [Bt Ct].
        cbn [lad app1] in EA. destruct (occ s pos) eqn:O; [discriminate|].
        rewrite binsearch_absent. 2: { rewrite AD. intros It. pose proof (proj1 (HD t) It) as [_ D2]. lia. }
        cbn [bind].
        assert (R1 : rows (s_d RRing (F (S p) q)) (-1 * Z.of_nat (length (ups RRing (F (S p) q)))) ((-1 + 1) * Z.of_nat (length (ups RRing (F (S p) q)))) = []).
        { unfold rows. replace ((-1 + 1) * Z.of_nat (length (ups RRing (F (S p) q))))%Z with 0%Z by lia.
          replace (clampi (s_d RRing (F (S p) q)) 0) with 0%nat by (unfold clampi; simpl; lia). reflexivity. }
        rewrite R1. unfold s_d. rewrite SI. cbn [states_dim]. rewrite (Nat.mul_comm (length (ups RRing (F p q)))). rewrite rows_ok by (apply nth_error_Some; congruence).
        unfold accum. rewrite map_length, seq_length. cbn [length]. destruct (length (ups RRing (F p q))); [lia|]. reflexivity.
      - cbn [bind]. apply IH.
        + intros i' s' I. apply Hl. now right.
        + destruct I0 as [I0|I0]; [injection I0 as -> ->; congruence|]. exists i0, s0. auto. }
    apply (G (enum (dws RRing (F p q)))).
    + intros i s I. now apply in_enum in I.
    + destruct X as (s & I & C). apply In_nth_error in I. destruct I as (i & Hi). exists i, s. split; auto.
      unfold enum. assert (G2 : forall k l, nth_error l i = Some s -> In ((k + i)%nat, s) (List.combine (seq k (length l)) l)).
      { clear. induction i as [|i IH]; intros k [|x l]; simpl; intros H; try discriminate.
        - injection H as ->. rewrite Nat.add_0_r. auto.
        - right. replace (k + S i)%nat with (S k + i)%nat by lia. auto. }
      apply (G2 0%nat). exact Hi.
Qed.

Theorem gf_exact_down_fails : build_gf_exact n es beta egs pos 1 = Err ValueError.
Proof.
  unfold build_gf_exact. cbn [pick bind].
  assert (G : forall keys acc, (forall k, In k keys -> In k (grid n)) -> (exists p q, In [p; q] keys /\ (p < n)%nat /\ (q < n)%nat) ->
    foldM (fun acc key =>
      match key with
      | [nupI; ndwI] =>
          do sI <- es_get es [nupI; ndwI];
          if (S nupI <=? n)%nat then
            do sJ <- es_get es [S nupI; ndwI];
            do b <- project_exact_dw RRing pos n OpCdg sI sJ;
            Ok (fst acc ++ weights_of beta egs sI sJ b, snd acc ++ lambdas_of egs sI sJ)
          else Ok acc
      | _ => Err ValueError
      end) keys acc = Err ValueError).
  { induction keys as [|k keys IH]; intros acc Hk (p0 & q0 & I0 & Hp0 & Hq0); [destruct I0|].
    destruct (proj1 (in_grid n k) (Hk k (or_introl eq_refl))) as (p & q & Hp & Hq & ->). cbn [foldM].
    rewrite (es_get_family n es F p q HF Hp Hq). cbn [bind].
    assert (TL : (p < n)%nat -> (q < n)%nat \/ exists p0 q0, In [p0; q0] keys /\ (p0 < n)%nat /\ (q0 < n)%nat).
    { intros _. destruct I0 as [I0|I0]; [injection I0 as -> ->; auto|]. right. exists p0, q0. auto. }
    destruct (Nat.leb_spec (S p) n) as [E|E].
    - rewrite (es_get_family n es F (S p) q HF E Hq). cbn [bind].
      destruct (dw_step p q E Hq) as [[Hqn EE]|[Hqn [b EE]]].
      + rewrite EE. reflexivity.
      + rewrite EE. cbn [bind]. apply IH; [intros; apply Hk; now right|]. destruct (TL ltac:(lia)) as [|X]; [lia|exact X].
    - cbn [bind]. apply IH; [intros; apply Hk; now right|].
      destruct I0 as [I0|I0]; [injection I0 as -> ->; lia|]. exists p0, q0. auto. }
  rewrite G; [reflexivity| |].
  - intros k. apply Permutation_in. now apply (keys_perm n es F).
  - exists 0%nat, 0%nat. split; [|lia]. apply (Permutation_in _ (Permutation_sym (keys_perm n es F HF))). apply in_grid. exists 0%nat, 0%nat. repeat split; lia.
Qed.
End Down.
