(** Special cases: another solver, exchange of spins, half filling, the mean-field mode. *)
From Coq Require Import String Reals List Arith NArith ZArith Bool Lia Lra Ring Permutation.
From Verif Require Import Base RBase RLin CBase OperatorsModel OperatorsSpec LookupModel SectorModel FockSpec LocalModel LocalSpec HoppingModel CsrSpec NonLocalSpec
  MatvecModel MbModel MbSpec EspaceModel ProjModel ProjSpec CfModel GfModel GfSpec GmModel GmSpec GmFockProofs GmProofs ExactSpec
  ObsModel ObsSpec OccSpec NanoMatProofs SymSpec RelSpec RelHamProofs RelProofs RelGfProofs RelFinalProofs.
Import ListNotations.
Local Open Scope R_scope.

Lemma renumber_id n : renumbering n (fun x => x).
Proof. split; auto. Qed.
Lemma cx_one a : cxmul (rcx (pm false * (pm false * pm false))) a = a.
Proof. destruct a as [a b]. apply cx_eq; cbv [cxmul rcx re CBase.im fst snd pm]; ring. Qed.
Lemma rel_id n P : related n false false (fun x => x) (fun _ => false) P P.
Proof. split; [apply renumber_id| | | | |]; intros; try (split; [reflexivity|discriminate]); unfold spin', pm; try reflexivity; ring. Qed.
Lemma rel_spin n P : (forall x y, (x < n)%nat -> (y < n)%nat -> P_T P 1 x y = P_T P 0 x y) -> (forall x, (x < n)%nat -> P_e P 1 x = P_e P 0 x) -> related n false true (fun x => x) (fun _ => false) P P.
Proof.
  intros HT He. split; [apply renumber_id| | | | |]; intros; try (split; [reflexivity|discriminate]); try reflexivity.
  - destruct s as [|[|]]; [| |lia]; cbn [spin' Nat.sub]; unfold pm; rewrite ?HT by auto; ring.
  - unfold centred. destruct s as [|[|]]; [| |lia]; cbn [spin' Nat.sub]; rewrite He by auto; unfold pm; ring.
Qed.
Lemma rel_half n sg P : (forall s x y, (s < 2)%nat -> (x < n)%nat -> (y < n)%nat -> sg x = sg y -> P_T P s x y = 0) -> (forall s x, (s < 2)%nat -> (x < n)%nat -> centred n P s x = 0) ->
  (forall x y, (x < n)%nat -> (y < n)%nat -> P_Jx P x y = 0 /\ P_Jp P x y = 0) -> related n true false (fun x => x) sg P P.
Proof.
  intros HT He HJ. split; [apply renumber_id| | | | |]; intros.
  - unfold spin'. destruct (Bool.bool_dec (sg x) (sg y)) as [Q|Q]; [rewrite HT by auto; ring|]. destruct (sg x), (sg y); try congruence; unfold pm; ring.
  - reflexivity.
  - unfold spin'. rewrite He by auto. ring.
  - destruct (HJ x y); auto.
  - destruct (HJ x y); auto.
Qed.
Lemma lehmann_sym n s x y beta egs F z : lehmann n s x y beta egs F z = lehmann n s y x beta egs F z.
Proof.
  unfold lehmann. apply csum_ext. intros m _. apply csum_ext. intros o _. cbv zeta. apply csum_ext. intros j _. apply csum_ext. intros i _.
  do 2 f_equal. ring.
Qed.
Lemma conj_div a b : cxconj (cxdiv (rcx a) b) = cxdiv (rcx a) (cxconj b).
Proof.
  destruct b as [c d]. apply cx_eq; cbv [cxdiv cxinv cxn2 cxconj cxmul rcx re CBase.im fst snd]; replace (c * c + - d * - d) with (c * c + d * d) by ring; unfold Rdiv; ring.
Qed.
Lemma lehmann_conj n s x y beta egs F z : lehmann n s x y beta egs F (cxconj z) = cxconj (lehmann n s x y beta egs F z).
Proof.
  unfold lehmann. rewrite conj_sum. apply csum_ext. intros m _. rewrite conj_sum. apply csum_ext. intros o _. cbv zeta. rewrite conj_sum. apply csum_ext. intros j _. rewrite conj_sum. apply csum_ext. intros i _.
  rewrite conj_div. f_equal. apply cx_eq; cbv [cxsub cxadd cxopp cxconj rcx re CBase.im fst snd]; ring.
Qed.
Lemma conj_cdiv a b : cxconj (cxdiv a (rcx b)) = cxdiv (cxconj a) (rcx b).
Proof. destruct a as [c d]. apply cx_eq; cbv [cxdiv cxinv cxn2 cxconj cxmul rcx re CBase.im fst snd]; unfold Rdiv; ring. Qed.

Theorem reciprocal n es F beta egs s : lists_family n es F -> (s <= 1)%nat -> exists g, build_gf2_exact n es beta egs (Z.of_nat s) = Ok g /\
  forall E eta E' eta', zpoint E' eta' = cxconj (zpoint E eta) -> exists G G', gm_call g E eta = Ok G /\ gm_call g E' eta' = Ok G' /\
    forall x y, (x < n)%nat -> (y < n)%nat -> GmSpec.entry G x y = GmSpec.entry G y x /\ GmSpec.entry G' x y = cxconj (GmSpec.entry G x y).
Proof.
  intros LF Hs. destruct (gm_lehmann n es F beta egs s LF Hs) as (g & BG & _ & GC). exists g. split; [exact BG|]. intros E eta E' eta' HZ. eexists _, _. split; [apply GC|]. split; [apply GC|].
  intros x y Hx Hy.
  rewrite !(entry_map n (fun x y => cxdiv (lehmann n s x y beta egs F (zpoint E eta)) (rcx (Zsum n beta egs F)))) by auto.
  rewrite !(entry_map n (fun x y => cxdiv (lehmann n s x y beta egs F (zpoint E' eta')) (rcx (Zsum n beta egs F)))) by auto.
  split; [now rewrite lehmann_sym|]. now rewrite HZ, lehmann_conj, conj_cdiv.
Qed.

Section Cor.
Variables (n : nat) (big : R -> bool) (half : R) (h : hmat RRing) (fl : hflags) (V : inter RRing) (hf : bool) (mu : R) (z : option (nat -> R)) (U : nat -> nat -> R).
Notation P := (params_of big h V hf mu z U).
Hypothesis MO : model_ok half n h fl V U.
Variables (eigh : dense RRing -> res (list R * list (list R))) (eigsh : nat -> Z -> (list R -> res (list R)) -> res (list R * list (list R))).
Hypothesis HC : eigh_contract eigh.
Variables (es : espace RRing) (e : R).
Hypothesis HB : build_espace RRing Rleb big half eigh eigsh n h fl V hf mu z None "sz" = Ok (es, Some e).

Theorem reciprocal_build beta s : (s <= 1)%nat -> exists g, build_gf2_exact n es beta e (Z.of_nat s) = Ok g /\
  forall E eta E' eta', zpoint E' eta' = cxconj (zpoint E eta) -> exists G G', gm_call g E eta = Ok G /\ gm_call g E' eta' = Ok G' /\
    forall x y, (x < n)%nat -> (y < n)%nat -> GmSpec.entry G x y = GmSpec.entry G y x /\ GmSpec.entry G' x y = cxconj (GmSpec.entry G x y).
Proof. destruct (exact_solved big half n h fl V hf mu z U MO eigh eigsh HC es (Some e) HB) as (F & LF & _). exact (reciprocal n es F beta e s LF). Qed.

Theorem solver_green eigh' eigsh' es' e' beta s : eigh_contract eigh' -> (s <= 1)%nat -> build_espace RRing Rleb big half eigh' eigsh' n h fl V hf mu z None "sz" = Ok (es', Some e') ->
  exists g g', build_gf2_exact n es beta e (Z.of_nat s) = Ok g /\ build_gf2_exact n es' beta e' (Z.of_nat s) = Ok g' /\
  forall E eta, exists G G', gm_call g E eta = Ok G /\ gm_call g' E eta = Ok G' /\ forall x y, (x < n)%nat -> (y < n)%nat -> GmSpec.entry G' x y = GmSpec.entry G x y.
Proof.
  intros HC' Hs HB'. destruct (related_green n false false (fun x => x) (fun _ => false) big half h fl V hf mu z U big half h fl V hf mu z U MO MO (rel_id n P) eigh eigh' eigsh eigsh' HC HC' es es' _ _ HB HB' beta s e e' Hs eq_refl eq_refl) as (g & g' & B & B' & H).
  exists g, g'. split; [exact B|]. split; [exact B'|]. intros E eta. destruct (H E eta E eta eq_refl) as (G & G' & C & C' & Q). exists G, G'. split; [exact C|]. split; [exact C'|]. intros x y Hx Hy. rewrite (Q x y Hx Hy). apply cx_one.
Qed.
Theorem solver_occupation eigh' eigsh' es' e' beta scts scts' : eigh_contract eigh' -> build_espace RRing Rleb big half eigh' eigsh' n h fl V hf mu z None "sz" = Ok (es', Some e') ->
  Forall2 (fun e o => stored (snd e) o) es scts -> Forall2 (fun e o => stored (snd e) o) es' scts' ->
  exists ud ud', fst (get_occupation scts e beta n) = Ok ud /\ fst (get_occupation scts' e' beta n) = Ok ud' /\ forall s x, (s <= 1)%nat -> (x < n)%nat -> nth x (pick s ud') 0 = nth x (pick s ud) 0.
Proof.
  intros HC' HB' S1 S2. exact (related_occupation n false false (fun x => x) (fun _ => false) big half h fl V hf mu z U big half h fl V hf mu z U MO MO (rel_id n P) eigh eigh' eigsh eigsh' HC HC' es es' _ _ HB HB' beta e e' scts scts' eq_refl eq_refl S1 S2).
Qed.

Notation spin_free := (spin_free n h).
Lemma spin_rel : spin_free -> related n false true (fun x => x) (fun _ => false) P P.
Proof. intros HS. unfold RelSpec.spin_free in HS. apply rel_spin; intros; cbn [params_of P_T P_e]; [unfold offdiag; now rewrite HS|now rewrite HS]. Qed.
Theorem spin_green beta : spin_free -> exists g g', build_gf2_exact n es beta e 0%Z = Ok g /\ build_gf2_exact n es beta e 1%Z = Ok g' /\
  forall E eta, exists G G', gm_call g E eta = Ok G /\ gm_call g' E eta = Ok G' /\ forall x y, (x < n)%nat -> (y < n)%nat -> GmSpec.entry G' x y = GmSpec.entry G x y.
Proof.
  intros HS. destruct (related_green n false true (fun x => x) (fun _ => false) big half h fl V hf mu z U big half h fl V hf mu z U MO MO (spin_rel HS) eigh eigh eigsh eigsh HC HC es es _ _ HB HB beta 0%nat e e ltac:(lia) eq_refl eq_refl) as (g & g' & B & B' & H).
  exists g, g'. split; [exact B|]. split; [exact B'|]. intros E eta. destruct (H E eta E eta eq_refl) as (G & G' & C & C' & Q). exists G, G'. split; [exact C|]. split; [exact C'|]. intros x y Hx Hy. rewrite (Q x y Hx Hy). apply cx_one.
Qed.
Theorem spin_occupation beta scts : spin_free -> Forall2 (fun e o => stored (snd e) o) es scts ->
  exists u d, fst (get_occupation scts e beta n) = Ok (u, d) /\ forall x, (x < n)%nat -> nth x d 0 = nth x u 0.
Proof.
  intros HS S1. destruct (related_occupation n false true (fun x => x) (fun _ => false) big half h fl V hf mu z U big half h fl V hf mu z U MO MO (spin_rel HS) eigh eigh eigsh eigsh HC HC es es _ _ HB HB beta e e scts scts eq_refl eq_refl S1 S1) as ((u & d) & ud' & O1 & O2 & Q).
  rewrite O1 in O2. injection O2 as <-. exists u, d. split; [exact O1|]. intros x Hx. exact (Q 0%nat x ltac:(lia) Hx).
Qed.

Notation half_filled := (half_filled n big h V hf mu z U).
Lemma half_rel sg : half_filled sg -> related n true false (fun x => x) sg P P.
Proof.
  intros (HT & He & HJ). apply rel_half; auto.
  - intros s x y Hs Hx Hy Q. cbn [params_of P_T]. unfold offdiag. destruct (x =? y)%nat eqn:Exy; [reflexivity|]. apply Nat.eqb_neq in Exy. rewrite HT by auto. destruct (_ && _); reflexivity.
  - intros x y _ _. destruct MO as (_ & _ & HJp & _). cbn [params_of P_Jx P_Jp]. rewrite (HJp HJ), HJ. split; reflexivity.
Qed.
Theorem half_spectrum sg p q s s' : half_filled sg -> In ([p; q], s) es -> In ([(n - p)%nat; (n - q)%nat], s') es -> s_vals RRing s' = s_vals RRing s.
Proof.
  intros HS I I'. destruct (related_spectrum n true false (fun x => x) sg big half h fl V hf mu z U big half h fl V hf mu z U MO MO (half_rel sg HS) eigh eigh eigsh eigsh HC HC es es _ _ HB HB) as (e0 & E0 & _ & H).
  etransitivity; [exact (H p q s s' I I')|]. rewrite <- (map_id (s_vals RRing s)) at 2. apply map_ext. intros v. rring.
Qed.
Theorem half_green sg beta s : half_filled sg -> (s <= 1)%nat -> exists g, build_gf2_exact n es beta e (Z.of_nat s) = Ok g /\
  (forall E eta E' eta', zpoint E' eta' = cxopp (zpoint E eta) -> exists G G', gm_call g E eta = Ok G /\ gm_call g E' eta' = Ok G' /\
    forall x y, (x < n)%nat -> (y < n)%nat -> GmSpec.entry G' x y = cxmul (rcx (- (pm (sg x) * pm (sg y)))) (GmSpec.entry G x y)) /\
  (forall w eta, exists G G', gm_call g (rcx w) eta = Ok G /\ gm_call g (rcx (- w)) eta = Ok G' /\
    forall x y, (x < n)%nat -> (y < n)%nat -> GmSpec.entry G' x y = cxmul (rcx (- (pm (sg x) * pm (sg y)))) (cxconj (GmSpec.entry G x y))).
Proof.
  intros HS Hs. destruct (related_green n true false (fun x => x) sg big half h fl V hf mu z U big half h fl V hf mu z U MO MO (half_rel sg HS) eigh eigh eigsh eigsh HC HC es es _ _ HB HB beta s e e Hs eq_refl eq_refl) as (g & g' & B & B' & H).
  change (Z.of_nat (spin' false s)) with (Z.of_nat s) in B'. rewrite B in B'. injection B' as <-. exists g. split; [exact B|].
  assert (Q : forall E eta E' eta', zpoint E' eta' = cxopp (zpoint E eta) -> exists G G', gm_call g E eta = Ok G /\ gm_call g E' eta' = Ok G' /\
    forall x y, (x < n)%nat -> (y < n)%nat -> GmSpec.entry G' x y = cxmul (rcx (- (pm (sg x) * pm (sg y)))) (GmSpec.entry G x y)).
  { intros E eta E' eta' HZ. destruct (H E eta E' eta' HZ) as (G & G' & C & C' & Q). exists G, G'. split; [exact C|]. split; [exact C'|]. intros x y Hx Hy. rewrite (Q x y Hx Hy). do 2 f_equal. unfold pm at 1. ring. }
  split; [exact Q|]. intros w eta.
  destruct (reciprocal_build beta s Hs) as (g2 & B2 & R2). rewrite B in B2. injection B2 as <-.
  destruct (R2 (rcx w) eta (rcx w) (- eta)) as (G & Gc & C & Cc & RC); [apply cx_eq; cbv [zpoint cxconj cxadd cxmul ci rcx re CBase.im fst snd]; ring|].
  destruct (Q (rcx w) (- eta) (rcx (- w)) eta) as (G1 & G' & C1 & C' & QC); [apply cx_eq; cbv [zpoint cxopp cxadd cxmul ci rcx re CBase.im fst snd]; ring|].
  rewrite Cc in C1. injection C1 as <-. exists G, G'. split; [exact C|]. split; [exact C'|]. intros x y Hx Hy. rewrite (QC x y Hx Hy). f_equal. apply (RC x y Hx Hy).
Qed.
Theorem half_occupation sg beta scts : half_filled sg -> Forall2 (fun e o => stored (snd e) o) es scts ->
  exists u d, fst (get_occupation scts e beta n) = Ok (u, d) /\ forall x, (x < n)%nat -> nth x u 0 = / 2 /\ nth x d 0 = / 2.
Proof.
  intros HS S1. destruct (related_occupation n true false (fun x => x) sg big half h fl V hf mu z U big half h fl V hf mu z U MO MO (half_rel sg HS) eigh eigh eigsh eigsh HC HC es es _ _ HB HB beta e e scts scts eq_refl eq_refl S1 S1) as ((u & d) & ud' & O1 & O2 & Q).
  rewrite O1 in O2. injection O2 as <-. exists u, d. split; [exact O1|]. intros x Hx. pose proof (Q 0%nat x ltac:(lia) Hx) as A. pose proof (Q 1%nat x ltac:(lia) Hx) as B. cbn [spin' pick fst snd image_occ] in A, B. lra.
Qed.
End Cor.
Lemma centred_hf n big h V mu U s i : centred n (params_of big h V true mu None U) s i = hspin RRing h s i i + mu.
Proof.
  unfold centred, p_shift. cbn [params_of P_e P_U P_hf P_z zfun]. rewrite rsum_0; [ring|]. intros j _. destruct (i =? j)%nat; change (c1 RRing) with 1; [reflexivity|ring].
Qed.
Lemma centred_plain n big h V mu U s i : centred n (params_of big h V false mu None U) s i = hspin RRing h s i i + mu + / 2 * U i i + / 2 * rsum n (fun j => if (i =? j)%nat then 0 else U i j + U j i).
Proof.
  unfold centred, p_shift. cbn [params_of P_e P_U P_hf P_z zfun]. rewrite (rsum_ext n (fun j => if (i =? j)%nat then 0 else (U i j + U j i) * (1 - c0 RRing)) (fun j => if (i =? j)%nat then 0 else U i j + U j i)); [field|].
  intros j _. destruct (i =? j)%nat; change (c0 RRing) with 0; [reflexivity|ring].
Qed.
(** The mean-field mode is the plain mode with other levels. *)
Lemma rel_hf n big h h' V mu U : (forall s i j, (s < 2)%nat -> (i < n)%nat -> (j < n)%nat -> hspin RRing h' s i j = hspin RRing h s i j - (if (i =? j)%nat then lowered n U i else 0)) ->
  related n false false (fun x => x) (fun _ => false) (params_of big h V true mu None U) (params_of big h' V false mu None U).
Proof.
  intros HL. split; [apply renumber_id| | | | |]; intros; try (split; [reflexivity|discriminate]); try reflexivity.
  - cbn [params_of P_T spin']. unfold offdiag. rewrite HL by auto. change (c0 RRing) with 0. destruct (x =? y)%nat; cbn [negb andb]; unfold pm; [change (@eq R 0 (1 * (1 * 1) * 0)); ring|]. rewrite Rminus_0_r. generalize (hspin RRing h s x y). change (forall v : R, (if big v then v else 0) = 1 * (1 * 1) * (if big v then v else 0)). intros v. ring.
  - cbn [spin']. rewrite centred_hf, centred_plain, HL, Nat.eqb_refl by auto. unfold lowered, pm. ring.
Qed.
