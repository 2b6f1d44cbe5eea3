(** Projections: final statements. *)
From Coq Require Import List Arith NArith ZArith Bool Lia Sorted Psatz Ring.
From Verif Require Import Base OperatorsModel OperatorsSpec OperatorsProofs LookupModel LookupSpec LookupProofs SectorModel SectorSpec SectorProofs
  FockSpec FockProofs LocalModel MatvecModel EspaceModel ProjModel ProjSpec ProjProofs ProjMoreProofs.
Import ListNotations.

Lemma divmod a u k m : k < u -> a = k + m * u -> a mod u = k /\ a / u = m.
Proof.
  intros H ->. rewrite Nat.mod_add, Nat.div_add, Nat.mod_small, Nat.div_small by lia. auto.
Qed.

Section Final.
Variable K : CRing.
Add Ring Kr : (cth K).
Local Open Scope cr_scope.
Notation ent2 v j i := (nth i (nth j v []) (c0 K)).

Lemma in_states n p l k : (p <= n)%nat -> (n <= 32)%nat -> generate_states n p = Ok l -> (k < length l)%nat ->
  (nth k l 0 < 2 ^ N.of_nat n)%N /\ popcount (nth k l 0%N) = p.
Proof. intros A B E H. apply (proj2 (states_facts n p l A B E)). now apply nth_In. Qed.

Section Up.
Variables (n p p' q pos : nat) (op : fop) (I J : sct K).
Hypothesis HI : is_sector K n p q I. Hypothesis HJ : is_sector K n p' q J.
Hypothesis Hnb : neighbour op p p'. Hypothesis Hpos : (pos < n)%nat.
Notation uI := (length (ups K I)). Notation uJ := (length (ups K J)). Notation w := (length (dws K I)).
Notation e1 := (e1 K n pos op (ups K J)).

Lemma same_dws : dws K J = dws K I.
Proof. destruct HI as (_ & _ & _ & _ & _ & E & _), HJ as (_ & _ & _ & _ & _ & E' & _). congruence. Qed.

Lemma elem_basis_up k m' i m : (k < uJ)%nat -> (m' < w)%nat -> (i < uI)%nat -> (m < w)%nat ->
  z2k (elem (2 * n) [lad op pos] (basis K n J (k + m' * uJ)) (basis K n I (i + m * uI))) =
  if (m =? m')%nat then z2k (parity_sign q) * e1 k (nth i (ups K I) 0%N) else 0.
Proof.
  intros Hk Hm' Hi Hm. unfold basis. destruct (divmod (k + m' * uJ) uJ k m' Hk eq_refl) as [-> ->]. destruct (divmod (i + m * uI) uI i m Hi eq_refl) as [-> ->].
  destruct HI as (P1 & P2 & P3 & _ & EU & ED & _), HJ as (Q1 & _ & _ & _ & EU' & _). rewrite same_dws.
  destruct (in_states n p _ i P1 P3 EU Hi) as [B1 _]. destruct (in_states n p' _ k Q1 P3 EU' Hk) as [B2 _]. destruct (in_states n q _ m P2 P3 ED Hm) as [B3 C3].
  rewrite elem_up by auto. rewrite (nocc_popcount n) by auto. rewrite C3. unfold ProjProofs.e1. rewrite elem_single.
  destruct (Nat.eqb_spec m m') as [->|Hne].
  - rewrite N.eqb_refl. destruct (app1 n (lad op pos) (nth i (ups K I) 0%N)) as [[z t]|]; [|simpl; ring].
    destruct (N.eqb_spec t (nth k (ups K J) 0%N)); simpl; [rewrite z2k_mul|]; ring.
  - destruct (N.eqb_spec (nth m (dws K I) 0%N) (nth m' (dws K I) 0%N)) as [E|E].
    + exfalso. apply Hne. apply (proj1 (NoDup_nth (dws K I) 0%N)); auto. apply (nodup_of n q); auto.
    + destruct (app1 n (lad op pos) (nth i (ups K I) 0%N)) as [[z t]|]; [|reflexivity]. rewrite andb_false_r. reflexivity.
Qed.

Lemma applied_up phi k m : (k < uJ)%nat -> (m < w)%nat ->
  applied K n (lad op pos) J I phi (k + m * uJ) = z2k (parity_sign q) * nsum uI (fun i => e1 k (nth i (ups K I) 0%N) * nth (i + m * uI) phi 0).
Proof.
  intros Hk Hm. unfold applied, sdim. rewrite nsum_mul. rewrite (nsum_single _ _ _ m); auto.
  - rewrite <- nsum_scal_l. apply nsum_ext. intros i Hi. rewrite elem_basis_up, Nat.eqb_refl by auto. ring.
  - intros m' Hm' Hne. apply nsum_0. intros i Hi. rewrite elem_basis_up by auto. destruct (Nat.eqb_spec m' m); [contradiction|]. ring.
Qed.

Lemma bracket_up psi phi : bracket K n (lad op pos) J I psi phi =
  z2k (parity_sign q) * acc_val K n pos op (ups K I) (ups K J) w (fun k m => (k + m * uJ)%nat) (fun i m => (i + m * uI)%nat) psi phi.
Proof.
  unfold bracket, sdim, acc_val. rewrite same_dws, nsum_mul.
  rewrite (nsum_ext _ w _ (fun m => z2k (parity_sign q) * nsum uI (fun i => nsum uJ (fun k => nth (k + m * uJ) psi 0 * e1 k (nth i (ups K I) 0%N) * nth (i + m * uI) phi 0)))).
  - rewrite nsum_scal_l. f_equal. apply nsum_swap.
  - intros m Hm. rewrite nsum_swap. rewrite <- nsum_scal_l. apply nsum_ext. intros k Hk. rewrite applied_up by auto.
    rewrite <- !nsum_scal_l. apply nsum_ext. intros i _. ring.
Qed.

Lemma sign_sq : z2k (parity_sign q) * z2k (parity_sign q) = c1 K.
Proof. unfold parity_sign. destruct (Nat.even q); simpl; ring. Qed.

Lemma cols_vec s c : cols_of K s = Ok c -> forall k, nth k c [] = vec K s k.
Proof. unfold cols_of, vec. destruct (s_vecs K s); try discriminate. intros E. now injection E as <-. Qed.

Theorem project_exact_up_spec : exists v, project_exact_up K pos n op I J = Ok v /\
  length v = length (s_vals K J) /\ (forall x, In x v -> length x = length (s_vals K I)) /\
  forall j i, (j < length (s_vals K J))%nat -> (i < length (s_vals K I))%nat ->
    ent2 v j i = z2k (parity_sign q) * bracket K n (lad op pos) J I (vec K J j) (vec K I i).
Proof.
  pose proof HI as (P1 & P2 & P3 & SI & EU & ED & cI & VI & LI & _). pose proof HJ as (Q1 & _ & _ & SJ & EU' & _ & cJ & VJ & LJ & _).
  unfold project_exact_up. rewrite SI, SJ. cbn beta zeta.
  pose proof (cols_vec I cI) as CI. pose proof (cols_vec J cJ) as CJ. unfold cols_of in *. rewrite VI in *. rewrite VJ in *.
  specialize (CI eq_refl). specialize (CJ eq_refl).
  edestruct (exact_fold K n p p' pos op (ups K I) (ups K J) P1 Q1 P3 Hpos Hnb EU EU' cJ cI (length (s_vals K J)) (length (s_vals K I)) w
    (fun k m => (k + m * uJ)%nat) (fun i m => (i + m * uI)%nat)) as (v & E & [S1 S2] & H); [exact LJ|exact LI| | |].
  3: { exists v. split; [exact E|]. split; [exact S1|]. split; [exact S2|]. intros j i Hj Hi. rewrite H by auto. rewrite CI, CJ, bracket_up.
       transitivity ((z2k (parity_sign q) * z2k (parity_sign q)) * acc_val K n pos op (ups K I) (ups K J) w (fun k m => (k + m * uJ)%nat) (fun i m => (i + m * uI)%nat) (vec K J j) (vec K I i)); [|ring].
       rewrite sign_sq. ring. }
  - intros v i s Hi C. cbn beta iota. rewrite C. reflexivity.
  - intros v i s sg t k Hi C A B Hk. cbn beta iota. rewrite C, A. cbn [bind]. rewrite B. cbn [bind].
    unfold s_d. rewrite SI, SJ. cbn [states_dim]. rewrite same_dws. rewrite !(Nat.mul_comm _ w).
    rewrite strided_ok by auto. cbn [bind]. rewrite strided_ok by (apply nth_error_Some; congruence). reflexivity.
Qed.

Theorem project_up_spec : exists v, project_up K pos n op I J = Ok v /\
  length v = length (s_vals K I) /\ (forall x, In x v -> length x = sdim K J) /\
  forall i a, (i < length (s_vals K I))%nat -> (a < sdim K J)%nat ->
    ent2 v i a = z2k (parity_sign q) * applied K n (lad op pos) J I (vec K I i) a.
Proof.
  pose proof HI as (P1 & P2 & P3 & SI & EU & ED & cI & VI & LI & _). pose proof HJ as (Q1 & _ & _ & SJ & EU' & _ & cJ & VJ & LJ & _).
  unfold project_up. rewrite SI, SJ. cbn beta zeta.
  pose proof (cols_vec I cI) as CI. unfold cols_of in *. rewrite VI in *. specialize (CI eq_refl).
  assert (D : s_d K J = sdim K J) by (unfold s_d, sdim; rewrite SJ; cbn [states_dim]; apply Nat.mul_comm). rewrite D.
  assert (DJ : sdim K J = (w * uJ)%nat) by (unfold sdim; now rewrite same_dws).
  edestruct (proj_fold K n p p' pos op (ups K I) (ups K J) P1 Q1 P3 Hpos Hnb EU EU' cI (length (s_vals K I)) (sdim K J) w
    (fun k m => (k + m * uJ)%nat) (fun i m => (i + m * uI)%nat) (fun a => a mod uJ)%nat (fun a => a / uJ)%nat) as (v & E & [S1 S2] & H); [exact LI| | | | |].
  5: { exists v. split; [exact E|]. split; [exact S1|]. split; [exact S2|]. intros i a Hi Ha. rewrite H by auto. rewrite CI.
       assert (U0 : uJ <> 0%nat) by (intros U; rewrite DJ, U in Ha; lia).
       assert (M : (a mod uJ < uJ)%nat) by (apply Nat.mod_upper_bound; auto). assert (W : (a / uJ < w)%nat) by (apply Nat.div_lt_upper_bound; auto; lia).
       assert (A : a = (a mod uJ + a / uJ * uJ)%nat) by (pose proof (Nat.div_mod a uJ U0); lia).
       rewrite (f_equal (applied K n (lad op pos) J I (vec K I i)) A). rewrite applied_up by auto.
       match goal with |- ?x = _ => transitivity ((z2k (parity_sign q) * z2k (parity_sign q)) * x); [rewrite sign_sq; ring|ring] end. }
  - intros k m Hk Hm. destruct (divmod (k + m * uJ) uJ k m Hk eq_refl) as [-> ->]. repeat split; auto. rewrite DJ. nia.
  - intros a Ha. rewrite DJ in Ha. assert (U0 : uJ <> 0%nat) by (intros U; rewrite U in Ha; lia). repeat split.
    + now apply Nat.mod_upper_bound.
    + apply Nat.div_lt_upper_bound; auto; lia.
    + pose proof (Nat.div_mod a uJ U0). lia.
  - intros v i s Hi C. cbn beta iota. rewrite C. reflexivity.
  - intros v i s sg t k Hi C A B Hk. cbn beta iota. rewrite C, A. cbn [bind]. rewrite B. cbn [bind].
    unfold s_d. rewrite SI. cbn [states_dim]. rewrite (Nat.mul_comm _ w). fold uI.
    rewrite strided_ok by (apply nth_error_Some; congruence). cbn [bind]. rewrite DJ. rewrite strided_ok by auto. reflexivity.
Qed.
End Up.

Section Dw.
Variables (n p q q' pos : nat) (op : fop) (I J : sct K).
Hypothesis HI : is_sector K n p q I. Hypothesis HJ : is_sector K n p q' J.
Hypothesis Hnb : neighbour op q q'. Hypothesis Hpos : (pos < n)%nat.
Notation wI := (length (dws K I)). Notation wJ := (length (dws K J)). Notation u := (length (ups K I)).
Notation e1 := (e1 K n pos op (dws K J)).

Lemma same_ups : ups K J = ups K I.
Proof. destruct HI as (_ & _ & _ & _ & E & _), HJ as (_ & _ & _ & _ & E' & _). congruence. Qed.

Lemma elem_basis_dw k m' i m : (k < wJ)%nat -> (m' < u)%nat -> (i < wI)%nat -> (m < u)%nat ->
  z2k (elem (2 * n) [lad op (pos + n)] (basis K n J (m' + k * u)) (basis K n I (m + i * u))) =
  if (m =? m')%nat then e1 k (nth i (dws K I) 0%N) else 0.
Proof.
  intros Hk Hm' Hi Hm. unfold basis. rewrite same_ups.
  destruct (divmod (m' + k * u) u m' k Hm' eq_refl) as [-> ->]. destruct (divmod (m + i * u) u m i Hm eq_refl) as [-> ->].
  destruct HI as (P1 & P2 & P3 & _ & EU & ED & _).
  destruct (in_states n p _ m P1 P3 EU Hm) as [B1 _]. destruct (in_states n p _ m' P1 P3 EU Hm') as [B2 _].
  rewrite elem_dw by auto. unfold ProjProofs.e1. rewrite elem_single.
  destruct (Nat.eqb_spec m m') as [->|Hne].
  - rewrite N.eqb_refl. destruct (app1 n (lad op pos) (nth i (dws K I) 0%N)) as [[z t]|]; [|reflexivity]. reflexivity.
  - destruct (N.eqb_spec (nth m (ups K I) 0%N) (nth m' (ups K I) 0%N)) as [E|E].
    + exfalso. apply Hne. apply (proj1 (NoDup_nth (ups K I) 0%N)); auto. apply (nodup_of n p); auto.
    + destruct (app1 n (lad op pos) (nth i (dws K I) 0%N)) as [[z t]|]; reflexivity.
Qed.

Lemma applied_dw phi k m : (k < wJ)%nat -> (m < u)%nat ->
  applied K n (lad op (pos + n)) J I phi (m + k * u) = nsum wI (fun i => e1 k (nth i (dws K I) 0%N) * nth (m + i * u) phi 0).
Proof.
  intros Hk Hm. unfold applied, sdim. rewrite nsum_mul. apply nsum_ext. intros i Hi.
  rewrite (nsum_single _ _ _ m); auto.
  - rewrite elem_basis_dw, Nat.eqb_refl by auto. reflexivity.
  - intros m' Hm' Hne. rewrite elem_basis_dw by auto. destruct (Nat.eqb_spec m' m); [contradiction|]. ring.
Qed.

Lemma bracket_dw psi phi : bracket K n (lad op (pos + n)) J I psi phi =
  acc_val K n pos op (dws K I) (dws K J) u (fun k m => (m + k * u)%nat) (fun i m => (m + i * u)%nat) psi phi.
Proof.
  unfold bracket, sdim, acc_val. rewrite same_ups, nsum_mul. rewrite nsum_swap.
  rewrite (nsum_swap _ wI u). apply nsum_ext. intros m Hm. rewrite nsum_swap. apply nsum_ext. intros k Hk.
  rewrite applied_dw by auto. rewrite <- nsum_scal_l. apply nsum_ext. intros i _. ring.
Qed.

Theorem project_exact_dw_spec : exists v, project_exact_dw K pos n op I J = Ok v /\
  length v = length (s_vals K J) /\ (forall x, In x v -> length x = length (s_vals K I)) /\
  forall j i, (j < length (s_vals K J))%nat -> (i < length (s_vals K I))%nat ->
    ent2 v j i = bracket K n (lad op (pos + n)) J I (vec K J j) (vec K I i).
Proof.
  pose proof HI as (P1 & P2 & P3 & SI & EU & ED & cI & VI & LI & _). pose proof HJ as (_ & Q2 & _ & SJ & EU' & ED' & cJ & VJ & LJ & _).
  unfold project_exact_dw. rewrite SI, SJ. cbn beta zeta.
  pose proof (cols_vec I cI) as CI. pose proof (cols_vec J cJ) as CJ. unfold cols_of in *. rewrite VI in *. rewrite VJ in *.
  specialize (CI eq_refl). specialize (CJ eq_refl).
  edestruct (exact_fold K n q q' pos op (dws K I) (dws K J) P2 Q2 P3 Hpos Hnb ED ED' cJ cI (length (s_vals K J)) (length (s_vals K I)) u
    (fun k m => (m + k * u)%nat) (fun i m => (m + i * u)%nat)) as (v & E & [S1 S2] & H); [exact LJ|exact LI| | |].
  3: { exists v. split; [exact E|]. split; [exact S1|]. split; [exact S2|]. intros j i Hj Hi. rewrite H by auto. rewrite CI, CJ, bracket_dw. reflexivity. }
  - intros v i s Hi C. cbn beta iota. rewrite C. reflexivity.
  - intros v i s sg t k Hi C A B Hk. cbn beta iota. rewrite C, A. cbn [bind]. rewrite B. cbn [bind].
    unfold s_d. rewrite SI, SJ. cbn [states_dim]. rewrite same_ups. rewrite !(Nat.mul_comm u).
    rewrite !rows_ok by (auto; apply nth_error_Some; congruence). reflexivity.
Qed.

Theorem project_dw_spec : exists v, project_dw K pos n op I J = Ok v /\
  length v = length (s_vals K I) /\ (forall x, In x v -> length x = sdim K J) /\
  forall i a, (i < length (s_vals K I))%nat -> (a < sdim K J)%nat ->
    ent2 v i a = applied K n (lad op (pos + n)) J I (vec K I i) a.
Proof.
  pose proof HI as (P1 & P2 & P3 & SI & EU & ED & cI & VI & LI & _). pose proof HJ as (_ & Q2 & _ & SJ & EU' & ED' & cJ & VJ & LJ & _).
  unfold project_dw. rewrite SI, SJ. cbn beta zeta.
  pose proof (cols_vec I cI) as CI. unfold cols_of in *. rewrite VI in *. specialize (CI eq_refl).
  assert (D : s_d K J = sdim K J) by (unfold s_d, sdim; rewrite SJ; cbn [states_dim]; apply Nat.mul_comm). rewrite D.
  assert (DJ : sdim K J = (wJ * u)%nat) by (unfold sdim; now rewrite same_ups).
  edestruct (proj_fold K n q q' pos op (dws K I) (dws K J) P2 Q2 P3 Hpos Hnb ED ED' cI (length (s_vals K I)) (sdim K J) u
    (fun k m => (m + k * u)%nat) (fun i m => (m + i * u)%nat) (fun a => a / u)%nat (fun a => a mod u)%nat) as (v & E & [S1 S2] & H); [exact LI| | | | |].
  5: { exists v. split; [exact E|]. split; [exact S1|]. split; [exact S2|]. intros i a Hi Ha. rewrite H by auto. rewrite CI.
       assert (U0 : u <> 0%nat) by (intros U; rewrite DJ, U in Ha; lia).
       assert (M : (a mod u < u)%nat) by (apply Nat.mod_upper_bound; auto). assert (W : (a / u < wJ)%nat) by (apply Nat.div_lt_upper_bound; auto; lia).
       assert (A : a = (a mod u + a / u * u)%nat) by (pose proof (Nat.div_mod a u U0); lia).
       rewrite (f_equal (applied K n (lad op (pos + n)) J I (vec K I i)) A). rewrite applied_dw by auto. reflexivity. }
  - intros k m Hk Hm. destruct (divmod (m + k * u) u m k Hm eq_refl) as [-> ->]. repeat split; auto. rewrite DJ. nia.
  - intros a Ha. rewrite DJ in Ha. assert (U0 : u <> 0%nat) by (intros U; rewrite U in Ha; lia). repeat split.
    + apply Nat.div_lt_upper_bound; auto; lia.
    + now apply Nat.mod_upper_bound.
    + pose proof (Nat.div_mod a u U0). lia.
  - intros v i s Hi C. cbn beta iota. rewrite C. reflexivity.
  - intros v i s sg t k Hi C A B Hk. cbn beta iota. rewrite C, A. cbn [bind]. rewrite B. cbn [bind].
    unfold s_d. rewrite SI. cbn [states_dim]. rewrite (Nat.mul_comm u). rewrite DJ. rewrite same_ups.
    rewrite !rows_ok by (auto; apply nth_error_Some; congruence). reflexivity.
Qed.
End Dw.

(** ** Adjoints *)
Lemma bracket_adj n op i (I J : sct K) psi phi :
  bracket K n (lad op i) J I psi phi = bracket K n (lad (opp_op op) i) I J phi psi.
Proof.
  unfold bracket, applied.
  rewrite (nsum_ext _ (sdim K J) _ (fun a => nsum (sdim K I) (fun b => nth a psi 0 * (z2k (elem (2 * n) [lad op i] (basis K n J a) (basis K n I b)) * nth b phi 0))))
    by (intros; now rewrite nsum_scal_l).
  rewrite nsum_swap. apply nsum_ext. intros b _. rewrite <- nsum_scal_l. apply nsum_ext. intros a _.
  rewrite elem_adj. simpl. replace (adj (lad op i)) with (lad (opp_op op) i) by (destruct op; reflexivity). ring.
Qed.
Lemma neighbour_opp op p p' : neighbour op p p' -> neighbour (opp_op op) p' p.
Proof. destruct op; simpl; auto. Qed.

Theorem project_exact_up_transpose n p p' q pos op (I J : sct K) : is_sector K n p q I -> is_sector K n p' q J -> neighbour op p p' -> (pos < n)%nat ->
  exists v v', project_exact_up K pos n op I J = Ok v /\ project_exact_up K pos n (opp_op op) J I = Ok v' /\
  forall j i, (j < length (s_vals K J))%nat -> (i < length (s_vals K I))%nat -> ent2 v j i = ent2 v' i j.
Proof.
  intros HI HJ Hnb Hpos.
  destruct (project_exact_up_spec n p p' q pos op I J HI HJ Hnb Hpos) as (v & E & _ & _ & H).
  destruct (project_exact_up_spec n p' p q pos (opp_op op) J I HJ HI (neighbour_opp _ _ _ Hnb) Hpos) as (v' & E' & _ & _ & H').
  exists v, v'. repeat split; auto. intros j i Hj Hi. rewrite H, H', bracket_adj by auto. reflexivity.
Qed.
Theorem project_exact_dw_transpose n p q q' pos op (I J : sct K) : is_sector K n p q I -> is_sector K n p q' J -> neighbour op q q' -> (pos < n)%nat ->
  exists v v', project_exact_dw K pos n op I J = Ok v /\ project_exact_dw K pos n (opp_op op) J I = Ok v' /\
  forall j i, (j < length (s_vals K J))%nat -> (i < length (s_vals K I))%nat -> ent2 v j i = ent2 v' i j.
Proof.
  intros HI HJ Hnb Hpos.
  destruct (project_exact_dw_spec n p q q' pos op I J HI HJ Hnb Hpos) as (v & E & _ & _ & H).
  destruct (project_exact_dw_spec n p q' q pos (opp_op op) J I HJ HI (neighbour_opp _ _ _ Hnb) Hpos) as (v' & E' & _ & _ & H').
  exists v, v'. repeat split; auto. intros j i Hj Hi. rewrite H, H', bracket_adj by auto. reflexivity.
Qed.
End Final.
