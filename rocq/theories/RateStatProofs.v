(** Stationary solutions of rate equations. *)
From Coq Require Import Reals List Arith ZArith Bool Lia Lra Psatz.
From Verif Require Import Base RBase RLin CBase RateModel RateSpec RateProofs RateDictProofs.
Import ListNotations.
Local Open Scope R_scope.

(** ** Fewer equations than unknowns *)
Lemma ex_nonzero m (a : nat -> R) : (exists r, (r < m)%nat /\ a r <> 0) \/ (forall r, (r < m)%nat -> a r = 0).
Proof.
  induction m as [|m IH]; [right; intros; lia|]. destruct IH as [(r & Hr & H)|H]; [left; exists r; split; [lia|exact H]|].
  destruct (Req_EM_T (a m) 0) as [E|E]; [right|left; exists m; split; [lia|exact E]]. intros r Hr. destruct (Nat.eq_dec r m) as [->|]; [exact E|apply H; lia].
Qed.
Lemma homogeneous : forall n m (A : nat -> nat -> R), (m < n)%nat ->
  exists x : nat -> R, (exists i, (i < n)%nat /\ x i <> 0) /\ forall r, (r < m)%nat -> rsum n (fun i => A r i * x i) = 0.
Proof.
  induction n as [|n IH]; intros m A L; [lia|]. destruct (ex_nonzero m (fun r => A r n)) as [(r0 & Hr0 & NZ)|Z].
  - set (sh := fun r => if (r <? r0)%nat then r else S r).
    destruct (IH (m - 1)%nat (fun r i => A (sh r) i - A (sh r) n / A r0 n * A r0 i) ltac:(lia)) as (x & (i0 & Hi0 & X0) & X).
    exists (fun i => if (i <? n)%nat then x i else - rsum n (fun i => A r0 i * x i) / A r0 n). split.
    + exists i0. split; [lia|]. destruct (Nat.ltb_spec i0 n); [exact X0|lia].
    + intros r Hr. rewrite rsum_S. rewrite (rsum_ext n _ (fun i => A r i * x i)) by (intros i Hi; destruct (Nat.ltb_spec i n); [reflexivity|lia]).
      rewrite Nat.ltb_irrefl. destruct (Nat.eq_dec r r0) as [->|NE]; [field; exact NZ|].
      assert (Y : exists k, (k < m - 1)%nat /\ sh k = r).
      { unfold sh. destruct (lt_dec r r0) as [Lt|Ge].
        - exists r. split; [lia|]. destruct (Nat.ltb_spec r r0); [reflexivity|lia].
        - exists (r - 1)%nat. split; [lia|]. destruct (Nat.ltb_spec (r - 1) r0); lia. }
      destruct Y as (k & Hk & Ek). specialize (X k Hk). rewrite Ek in X.
      rewrite (rsum_ext n _ (fun i => A r i * x i - A r n / A r0 n * (A r0 i * x i))) in X by (intros; ring).
      rewrite rsum_sub, rsum_scal_l in X. rewrite <- X. field. exact NZ.
  - exists (fun i => if (i =? n)%nat then 1 else 0). split; [exists n; rewrite Nat.eqb_refl; split; [lia|lra]|].
    intros r Hr. rewrite (rsum_single _ _ n); [rewrite (Z r Hr); lra|lia|]. intros j _ NE. destruct (Nat.eqb_spec j n); [congruence|lra].
Qed.

Lemma null_vector sz (W : mat) : (0 < sz)%nat -> conserves sz W -> exists x, (exists i, (i < sz)%nat /\ x i <> 0) /\ stationary sz W x.
Proof.
  intros P C. destruct (homogeneous sz (sz - 1) W ltac:(lia)) as (x & NZ & X). exists x. split; [exact NZ|].
  intros f Hf. destruct (Nat.eq_dec f (sz - 1)) as [->|NE]; [|apply X; lia].
  assert (T : rsum sz (fun f => rsum sz (fun i => W f i * x i)) = 0).
  { rewrite rsum_swap. apply rsum_0. intros i Hi. rewrite rsum_scal_r, (C i Hi). lra. }
  rewrite (rsum_single _ _ (sz - 1)%nat) in T; [exact T|lia|]. intros j Hj NJ. apply X. lia.
Qed.

(** ** Moduli *)
Lemma cxn2_nonneg z : 0 <= cxn2 z.
Proof. unfold cxn2. nra. Qed.
Lemma cabs_nonneg z : 0 <= cabs z.
Proof. apply sqrt_pos. Qed.
Lemma cabs_mul a b : cabs (cxmul a b) = cabs a * cabs b.
Proof.
  unfold cabs. rewrite <- sqrt_mult by apply cxn2_nonneg. f_equal. unfold cxn2, cxmul, re, im. simpl. ring.
Qed.
Lemma cabs_rcx r : cabs (rcx r) = Rabs r.
Proof. unfold cabs, cxn2, rcx, re, im. simpl. replace (r * r + 0 * 0) with (Rsqr r) by (unfold Rsqr; ring). apply sqrt_Rsqr_abs. Qed.
Lemma cabs_tri a b : cabs (cxadd a b) <= cabs a + cabs b.
Proof.
  unfold cabs. pose proof (sqrt_pos (cxn2 a)). pose proof (sqrt_pos (cxn2 b)). apply Rsqr_incr_0; [|apply sqrt_pos|lra].
  rewrite Rsqr_plus, !Rsqr_sqrt by apply cxn2_nonneg.
  pose proof (sqrt_cauchy (re a) (im a) (re b) (im b)) as C. unfold Rsqr in C. unfold cxn2, cxadd, re, im in *. simpl in *. nra.
Qed.
Lemma cabs_csum n f : cabs (csum n f) <= rsum n (fun i => cabs (f i)).
Proof.
  unfold csum, rsum, nsum. induction (seq 0 n) as [|k l IH]; simpl.
  - change (cabs (rcx 0) <= 0). rewrite cabs_rcx, Rabs_R0. apply Rle_refl.
  - eapply Rle_trans; [apply cabs_tri|]. apply Rplus_le_compat_l. exact IH.
Qed.
Lemma cabs_0 z : cabs z = 0 -> z = rcx 0.
Proof. unfold cabs. intros H. apply sqrt_eq_0 in H; [|apply cxn2_nonneg]. apply cx_eq; unfold cxn2, rcx, re, im in *; simpl; nra. Qed.

(** ** Eigenvalues of a rate matrix lie in the closed left half plane, and only 0
    is at distance 1 from 1. *)
Lemma eigenvalue_disc sz W c lam (v : nat -> cx) : rate_matrix sz W -> (forall f, (f < sz)%nat -> - W f f <= c) ->
  (exists i, (i < sz)%nat /\ v i <> rcx 0) ->
  (forall f, (f < sz)%nat -> csum sz (fun i => cxmul (rcx (W f i)) (v i)) = cxmul lam (v f)) ->
  cabs (cxadd lam (rcx c)) <= c.
Proof.
  intros [C S] Hc (i0 & Hi0 & NZ) E.
  assert (ROW : forall f, (f < sz)%nat -> cabs (cxadd lam (rcx c)) * cabs (v f) <= rsum sz (fun i => W f i * cabs (v i)) + c * cabs (v f)).
  { intros f Hf. rewrite <- cabs_mul.
    replace (cxmul (cxadd lam (rcx c)) (v f)) with (csum sz (fun i => cxmul (rcx (W f i + if (i =? f)%nat then c else 0)) (v i))).
    - eapply Rle_trans; [apply cabs_csum|]. right.
      rewrite (rsum_ext _ _ (fun i => W f i * cabs (v i) + (if (i =? f)%nat then c * cabs (v f) else 0))).
      + rewrite rsum_add. f_equal. rewrite (rsum_single sz _ f Hf), Nat.eqb_refl; [reflexivity|]. intros j _ NE. destruct (Nat.eqb_spec j f); [congruence|reflexivity].
      + intros i Hi. rewrite cabs_mul, cabs_rcx. specialize (S f i Hf Hi). destruct (Nat.eqb_spec i f) as [->|NE].
        * rewrite Rabs_pos_eq; [ring|]. specialize (Hc f Hf). lra.
        * destruct (Nat.eqb_spec f i); [congruence|]. rewrite Rabs_pos_eq by lra. ring.
    - replace (cxmul (cxadd lam (rcx c)) (v f)) with (cxadd (cxmul lam (v f)) (cxmul (rcx c) (v f))) by (apply cx_eq; unfold cxmul, cxadd, rcx, re, im; simpl; ring).
      rewrite <- (E f Hf).
      assert (Q : csum sz (fun i => if (i =? f)%nat then cxmul (rcx c) (v f) else rcx 0) = cxmul (rcx c) (v f)).
      { rewrite (csum_single sz _ f Hf), Nat.eqb_refl; [reflexivity|]. intros j _ NE. destruct (Nat.eqb_spec j f); [congruence|reflexivity]. }
      rewrite <- Q, <- csum_add. apply csum_ext. intros i Hi. destruct (Nat.eqb_spec i f) as [->|]; apply cx_eq; unfold cxmul, cxadd, rcx, re, im; simpl; ring. }
  set (S0 := rsum sz (fun i => cabs (v i))).
  assert (POS : 0 < S0).
  { unfold S0. eapply Rlt_le_trans; [|apply (rsum_term_le sz (fun i => cabs (v i)) i0); [intros; apply cabs_nonneg|exact Hi0]].
    destruct (cabs_nonneg (v i0)) as [H|H]; [exact H|]. exfalso. apply NZ. now apply cabs_0. }
  assert (SUM : cabs (cxadd lam (rcx c)) * S0 <= c * S0).
  { unfold S0. rewrite <- !rsum_scal_l. eapply Rle_trans; [apply rsum_le; intros f Hf; apply (ROW f Hf)|]. right.
    rewrite rsum_add, rsum_swap, rsum_0; [lra|]. intros i Hi. rewrite rsum_scal_r, (C i Hi). lra. }
  nra.
Qed.

Lemma eigenvalue_far sz W lam (v : nat -> cx) : rate_matrix sz W ->
  (exists i, (i < sz)%nat /\ v i <> rcx 0) ->
  (forall f, (f < sz)%nat -> csum sz (fun i => cxmul (rcx (W f i)) (v i)) = cxmul lam (v f)) ->
  re lam <= 0 /\ (cabs (cxsub lam (rcx 1)) <= 1 -> lam = rcx 0).
Proof.
  intros RM NZ E.
  assert (B : exists c, 0 < c /\ forall f, (f < sz)%nat -> - W f f <= c).
  { exists (1 + rsum sz (fun f => Rabs (W f f))).
    assert (N : forall i, (i < sz)%nat -> 0 <= Rabs (W i i)) by (intros; apply Rabs_pos).
    split; [pose proof (rsum_nonneg sz (fun f => Rabs (W f f)) N); lra|]. intros f Hf.
    pose proof (rsum_term_le sz (fun f => Rabs (W f f)) f N Hf) as T. simpl in T. pose proof (Rle_abs (- W f f)) as A. rewrite Rabs_Ropp in A. lra. }
  destruct B as (c & Pc & Hc). pose proof (eigenvalue_disc sz W c lam v RM Hc NZ E) as D.
  assert (D2 : cxn2 (cxadd lam (rcx c)) <= c * c).
  { unfold cabs in D. apply Rsqr_incr_1 in D; [|apply sqrt_pos|lra]. rewrite Rsqr_sqrt in D by apply cxn2_nonneg. exact D. }
  destruct lam as [a b]. unfold cxn2, cxadd, rcx, re, im in *. simpl in *. assert (A0 : a <= 0) by nra. split; [exact A0|]. intros L.
  assert (L2 : cxn2 (cxsub (a, b) (1, 0)) <= 1).
  { unfold cabs in L. apply Rsqr_incr_1 in L; [|apply sqrt_pos|lra]. rewrite Rsqr_sqrt in L by apply cxn2_nonneg. unfold Rsqr in L. lra. }
  unfold cxn2, cxsub, cxadd, cxopp, re, im in L2. simpl in L2. assert (a = 0) by nra. subst a. assert (b = 0) by nra. now subst b.
Qed.

(** ** The smallest entry *)
Lemma argmin_from_spec l : forall best x k pre, length pre = k -> (best < k)%nat -> nth best pre 0 = x -> (forall i, (i < k)%nat -> x <= nth i pre 0) ->
  let j := argmin_from best x k l in (j < k + length l)%nat /\ forall i, (i < k + length l)%nat -> nth j (pre ++ l) 0 <= nth i (pre ++ l) 0.
Proof.
  induction l as [|y l IH]; intros best x k pre LP LB NB MIN j; subst j; simpl.
  - rewrite app_nil_r, Nat.add_0_r. split; [exact LB|]. intros i Hi. rewrite NB. now apply MIN.
  - replace (pre ++ y :: l) with ((pre ++ [y]) ++ l) by (rewrite <- app_assoc; reflexivity). replace (k + S (length l))%nat with (S k + length l)%nat by lia.
    unfold Rltb; destruct (Rlt_dec y x) as [H|H].
    + apply IH; [rewrite app_length; simpl; lia|lia|rewrite app_nth2 by lia; replace (k - length pre)%nat with 0%nat by lia; reflexivity|].
      intros i Hi. destruct (Nat.eq_dec i k) as [->|]; [rewrite app_nth2 by lia; replace (k - length pre)%nat with 0%nat by lia; simpl; lra|].
      rewrite app_nth1 by lia. specialize (MIN i ltac:(lia)). lra.
    + apply IH; [rewrite app_length; simpl; lia|lia|rewrite app_nth1 by lia; exact NB|].
      intros i Hi. destruct (Nat.eq_dec i k) as [->|]; [rewrite app_nth2 by lia; replace (k - length pre)%nat with 0%nat by lia; simpl; lra|].
      rewrite app_nth1 by lia. apply MIN. lia.
Qed.
Lemma argmin_spec l : l <> [] -> exists j, argmin l = Ok j /\ (j < length l)%nat /\ forall i, (i < length l)%nat -> nth j l 0 <= nth i l 0.
Proof.
  destruct l as [|x l]; [congruence|]. intros _. exists (argmin_from 0 x 1 l). split; [reflexivity|].
  apply (argmin_from_spec l 0%nat x 1%nat [x]); auto. intros i Hi. assert (i = 0%nat) by lia. subst. simpl. lra.
Qed.

(** ** The selected eigenvector *)
Lemma fold_rsum_list l : fold_right Rplus 0 l = rsum (length l) (fun i => nth i l 0).
Proof. induction l as [|x l IH]; [reflexivity|]. cbn [length fold_right]. rewrite rsum_S_l. now rewrite IH. Qed.

Lemma selected sz W w v : (0 < sz)%nat -> rate_matrix sz W -> eig_ok sz W w v ->
  exists x, length x = sz /\ (exists i, (i < sz)%nat /\ nth i x 0 <> 0) /\ stationary sz W (fun i => nth i x 0) /\
    stationary_solution (w, v) = Ok (map (fun y => y / rsum sz (fun i => nth i x 0)) x).
Proof.
  intros P RM (LV & PAIR & ALL).
  destruct (null_vector sz W P (proj1 RM)) as (x0 & NZ0 & ST0).
  assert (IN0 : In (rcx 0) w). { apply (ALL x0 0 NZ0). intros f Hf. rewrite (ST0 f Hf). lra. }
  set (l := map (fun x => cabs (cxsub x (rcx 1))) w).
  assert (NE : l <> []) by (unfold l; destruct w; [destruct IN0|discriminate]).
  destruct (argmin_spec l NE) as (j & EJ & LJ & MIN). unfold l in LJ. rewrite map_length in LJ.
  destruct (PAIR j LJ) as (LX & (i0 & Hi0 & NZ) & EIG & REAL).
  assert (W0 : nth j w (rcx 0) = rcx 0).
  { apply (proj2 (eigenvalue_far sz W _ (fun i => nth i (nth j v []) (rcx 0)) RM (ex_intro _ i0 (conj Hi0 NZ)) EIG)).
    destruct (In_nth w (rcx 0) (rcx 0) IN0) as (k & Hk & Ek).
    specialize (MIN k). unfold l in MIN. rewrite map_length in MIN. specialize (MIN Hk).
    assert (N : forall i, (i < length w)%nat -> nth i (map (fun x => cabs (cxsub x (rcx 1))) w) 0 = cabs (cxsub (nth i w (rcx 0)) (rcx 1))).
    { intros i Hi. rewrite (nth_indep _ 0 (cabs (cxsub (rcx 0) (rcx 1)))) by (now rewrite map_length). apply (map_nth (fun x => cabs (cxsub x (rcx 1)))). }
    rewrite !N, Ek in MIN by auto. eapply Rle_trans; [exact MIN|]. replace (cxsub (rcx 0) (rcx 1)) with (rcx (-1)) by (apply cx_eq; unfold cxsub, cxadd, cxopp, rcx, re, im; simpl; ring).
    rewrite cabs_rcx, Rabs_left by lra. lra. }
  rewrite W0 in *. specialize (REAL eq_refl).
  exists (map re (nth j v [])).
  assert (NR : forall i, (i < sz)%nat -> nth i (map re (nth j v [])) 0 = re (nth i (nth j v []) (rcx 0))) by (intros i Hi; apply (map_nth re _ (rcx 0))).
  split; [now rewrite map_length|]. split; [|split].
  - exists i0. split; [exact Hi0|]. rewrite NR by auto. intros Z. apply NZ. apply cx_eq; [exact Z|]. rewrite (REAL i0 Hi0). reflexivity.
  - intros f Hf. specialize (EIG f Hf). apply (f_equal re) in EIG. rewrite csum_re in EIG.
    rewrite (rsum_ext _ _ (fun i => re (cxmul (rcx (W f i)) (nth i (nth j v []) (rcx 0))))).
    + rewrite EIG. unfold cxmul, rcx, re, im. simpl. ring.
    + intros i Hi. rewrite NR by auto. unfold cxmul, rcx, re, im. simpl. ring.
  - unfold stationary_solution. fold l. rewrite EJ. cbn [bind]. rewrite fold_rsum_list, map_length, LX. reflexivity.
Qed.

Lemma scaled_list sz (x : list R) s i : length x = sz -> (i < sz)%nat -> nth i (map (fun y => y / s) x) 0 = nth i x 0 / s.
Proof. intros L H. rewrite (nth_indep _ 0 ((fun y => y / s) 0)) by (rewrite map_length; lia). apply (map_nth (fun y => y / s)). Qed.

Lemma stationary_scale sz W p s : stationary sz W p -> stationary sz W (fun i => p i / s).
Proof.
  intros H f Hf. rewrite (rsum_ext _ _ (fun i => (W f i * p i) * / s)) by (intros; unfold Rdiv; ring). rewrite rsum_scal_r, (H f Hf). lra.
Qed.

(** The absolute values of a stationary vector are stationary. *)
Lemma stationary_abs sz W x : rate_matrix sz W -> stationary sz W x -> stationary sz W (fun i => Rabs (x i)).
Proof.
  intros [C S] ST. set (g := fun f => rsum sz (fun i => W f i * Rabs (x i))).
  assert (G : forall f, (f < sz)%nat -> 0 <= g f).
  { intros f Hf. specialize (ST f Hf).
    assert (SP : forall y : nat -> R, rsum sz (fun i => W f i * y i) = W f f * y f + rsum sz (fun i => if (i =? f)%nat then 0 else W f i * y i)).
    { intros y.
      assert (Q : rsum sz (fun i => if (i =? f)%nat then W f f * y f else 0) = W f f * y f).
      { rewrite (rsum_single sz _ f Hf), Nat.eqb_refl; [reflexivity|]. intros j _ NE. destruct (Nat.eqb_spec j f); [congruence|reflexivity]. }
      rewrite <- Q, <- rsum_add. apply rsum_ext. intros i Hi. destruct (Nat.eqb_spec i f) as [->|]; lra. }
    unfold g. rewrite SP in ST |- *. pose proof (S f f Hf Hf) as SD. rewrite Nat.eqb_refl in SD.
    pose proof (rsum_abs sz (fun i => if (i =? f)%nat then 0 else W f i * x i)) as T.
    rewrite (rsum_ext _ (fun i => Rabs (if (i =? f)%nat then 0 else W f i * x i)) (fun i => if (i =? f)%nat then 0 else W f i * Rabs (x i))) in T.
    - replace (rsum sz (fun i => if (i =? f)%nat then 0 else W f i * x i)) with (- W f f * x f) in T by lra.
      rewrite Rabs_mult, (Rabs_pos_eq (- W f f)) in T by lra. lra.
    - intros i Hi. destruct (Nat.eqb_spec i f) as [->|NE]; [apply Rabs_R0|]. specialize (S f i Hf Hi). destruct (Nat.eqb_spec f i); [congruence|].
      rewrite Rabs_mult, (Rabs_pos_eq (W f i)); auto. }
  assert (T : rsum sz g = 0).
  { unfold g. rewrite rsum_swap. apply rsum_0. intros i Hi. rewrite rsum_scal_r, (C i Hi). lra. }
  intros f Hf. exact (rsum_nonneg_0 sz g G T f Hf).
Qed.

Lemma abs_sum_pos sz (x : nat -> R) : (exists i, (i < sz)%nat /\ x i <> 0) -> 0 < rsum sz (fun i => Rabs (x i)).
Proof.
  intros (i & Hi & NZ). eapply Rlt_le_trans; [|apply (rsum_term_le sz (fun i => Rabs (x i)) i); [intros; apply Rabs_pos|exact Hi]]. now apply Rabs_pos_lt.
Qed.

Theorem stationary_exists sz W : (0 < sz)%nat -> rate_matrix sz W -> exists p, stationary sz W p /\ (forall i, (i < sz)%nat -> 0 <= p i) /\ rsum sz p = 1.
Proof.
  intros P RM. destruct (null_vector sz W P (proj1 RM)) as (x & NZ & ST). pose proof (abs_sum_pos sz x NZ) as POS.
  exists (fun i => Rabs (x i) / rsum sz (fun i => Rabs (x i))). split; [|split].
  - apply (stationary_scale sz W (fun i => Rabs (x i))). now apply stationary_abs.
  - intros i Hi. apply Rmult_le_pos; [apply Rabs_pos|]. left. now apply Rinv_0_lt_compat.
  - unfold Rdiv. rewrite (rsum_scal_r sz). apply Rinv_r. lra.
Qed.

Theorem stationary_returned sz W w v : (0 < sz)%nat -> rate_matrix sz W -> eig_ok sz W w v ->
  exists p, stationary_solution (w, v) = Ok p /\ length p = sz /\ stationary sz W (fun i => nth i p 0) /\
  (unique_stationary sz W -> rsum sz (fun i => nth i p 0) = 1 /\ (forall i, (i < sz)%nat -> 0 <= nth i p 0) /\
     forall q, stationary sz W q -> rsum sz q = 1 -> forall i, (i < sz)%nat -> q i = nth i p 0).
Proof.
  intros P RM EO. destruct (selected sz W w v P RM EO) as (x & LX & NZ & ST & E). set (s := rsum sz (fun i => nth i x 0)) in *.
  exists (map (fun y => y / s) x). split; [exact E|]. split; [now rewrite map_length|].
  assert (SC : forall i, (i < sz)%nat -> nth i (map (fun y => y / s) x) 0 = nth i x 0 / s) by (intros; now apply (scaled_list sz)).
  assert (SP : stationary sz W (fun i => nth i (map (fun y => y / s) x) 0)).
  { intros f Hf. rewrite (rsum_ext _ _ (fun i => W f i * (nth i x 0 / s))) by (intros; rewrite SC; auto). now apply (stationary_scale sz W (fun i => nth i x 0)). }
  split; [exact SP|]. intros U.
  assert (MUL : forall q, stationary sz W q -> exists k, forall i, (i < sz)%nat -> q i = k * nth i x 0).
  { intros q Q. destruct (U _ _ ST Q) as (a & b & AB & LIN). destruct NZ as (i0 & Hi0 & N0).
    destruct (Req_EM_T b 0) as [->|NB].
    - exfalso. specialize (LIN i0 Hi0). assert (a <> 0) by (intros ->; destruct AB; lra). assert (a * nth i0 x 0 <> 0) by (now apply Rmult_integral_contrapositive_currified). lra.
    - exists (- a / b). intros i Hi. specialize (LIN i Hi). apply (Rmult_eq_reg_l b); [|exact NB]. replace (b * (- a / b * nth i x 0)) with (- (a * nth i x 0)) by (field; exact NB). lra. }
  destruct (MUL _ (stationary_abs sz W _ RM ST)) as (k & K).
  pose proof (abs_sum_pos sz (fun i => nth i x 0) NZ) as POS. rewrite (rsum_ext _ _ (fun i => k * nth i x 0)) in POS by (intros; now apply K). rewrite rsum_scal_l in POS. fold s in POS.
  assert (NS : s <> 0) by (intros Z; rewrite Z in POS; lra).
  assert (S1 : rsum sz (fun i => nth i (map (fun y => y / s) x) 0) = 1).
  { rewrite (rsum_ext _ _ (fun i => nth i x 0 * / s)) by (intros; rewrite SC; auto). rewrite rsum_scal_r. fold s. now apply Rinv_r. }
  split; [exact S1|]. split.
  - intros i Hi. rewrite SC by auto. replace (nth i x 0 / s) with (Rabs (nth i x 0) / (k * s)).
    + apply Rmult_le_pos; [apply Rabs_pos|]. left. now apply Rinv_0_lt_compat.
    + rewrite (K i Hi). field. split; [exact NS|]. intros ->. lra.
  - intros q Q Q1 i Hi. destruct (MUL q Q) as (c & HC). rewrite (rsum_ext _ _ (fun i => c * nth i x 0)), rsum_scal_l in Q1 by auto. fold s in Q1.
    rewrite SC, HC by auto. replace c with (/ s); [unfold Rdiv; ring|]. apply (Rmult_eq_reg_r s); [|exact NS]. rewrite Q1. now apply Rinv_l.
Qed.

Theorem normalised sz W w v : (0 < sz)%nat -> rate_matrix sz W -> eig_ok sz W w v ->
  exists x, (exists i, (i < sz)%nat /\ nth i x 0 <> 0) /\ stationary sz W (fun i => nth i x 0) /\
   (rsum sz (fun i => nth i x 0) <> 0 -> exists p, stationary_solution (w, v) = Ok p /\ rsum sz (fun i => nth i p 0) = 1).
Proof.
  intros P RM EO. destruct (selected sz W w v P RM EO) as (x & LX & NZ & ST & E). exists x. split; [exact NZ|]. split; [exact ST|]. intros NS.
  eexists. split; [exact E|]. rewrite (rsum_ext _ _ (fun i => nth i x 0 * / rsum sz (fun i => nth i x 0))).
  - rewrite rsum_scal_r. now apply Rinv_r.
  - intros i Hi. now apply (scaled_list sz).
Qed.
