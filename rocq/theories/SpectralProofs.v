(** The spectral theorem for real symmetric matrices, as a function: a matrix is
    mapped to an orthonormal basis of eigenvectors.  It shows that what is assumed
    of the eigensolvers can be met for every matrix. *)
From Coq Require Import Reals List Arith Bool Lia Lra Psatz.
From Verif Require Import Base RBase RLin.
Import ListNotations.
Local Open Scope R_scope.

Definition mv (n : nat) (A : nat -> nat -> R) (x : nat -> R) (i : nat) : R := rsum n (fun j => A i j * x j).
Definition dot (n : nat) (x y : nat -> R) : R := rsum n (fun i => x i * y i).
Definition qf (n : nat) (A : nat -> nat -> R) (x : nat -> R) : R := dot n x (mv n A x).
Definition sym (n : nat) (A : nat -> nat -> R) : Prop := forall i j, (i < n)%nat -> (j < n)%nat -> A i j = A j i.

Lemma dot_comm n x y : dot n x y = dot n y x.
Proof. apply rsum_ext. intros. ring. Qed.
Lemma dot_nonneg n x : 0 <= dot n x x.
Proof. apply rsum_nonneg. intros. apply Rle_0_sqr. Qed.
Lemma dot_ext n x x' y y' : (forall i, (i < n)%nat -> x i = x' i) -> (forall i, (i < n)%nat -> y i = y' i) -> dot n x y = dot n x' y'.
Proof. intros A B. apply rsum_ext. intros. rewrite A, B; auto. Qed.
Lemma dot_zero n x : dot n x x = 0 -> forall i, (i < n)%nat -> x i = 0.
Proof. intros H i Hi. pose proof (rsum_nonneg_0 n (fun i => x i * x i) (fun i _ => Rle_0_sqr (x i)) H i Hi) as Q. cbv beta in Q. nra. Qed.
Lemma dot_scal n c x y : dot n (fun i => c * x i) y = c * dot n x y.
Proof. unfold dot. rewrite <- rsum_scal_l. apply rsum_ext. intros. ring. Qed.
Lemma dot_add n x y z : dot n (fun i => x i + y i) z = dot n x z + dot n y z.
Proof. unfold dot. rewrite <- rsum_add. apply rsum_ext. intros. ring. Qed.
Lemma mv_scal n A c x i : mv n A (fun i => c * x i) i = c * mv n A x i.
Proof. unfold mv. rewrite <- rsum_scal_l. apply rsum_ext. intros. ring. Qed.
Lemma mv_add n A x y i : mv n A (fun i => x i + y i) i = mv n A x i + mv n A y i.
Proof. unfold mv. rewrite <- rsum_add. apply rsum_ext. intros. ring. Qed.
Lemma mv_sym n A x y : sym n A -> dot n x (mv n A y) = dot n (mv n A x) y.
Proof.
  intros S. unfold dot, mv. rewrite (rsum_ext n _ (fun i => rsum n (fun j => x i * (A i j * y j)))) by (intros; now rewrite rsum_scal_l).
  rewrite (rsum_ext n (fun i => rsum n (fun j => A i j * x j) * y i) (fun i => rsum n (fun j => A i j * x j * y i))) by (intros; now rewrite rsum_scal_r).
  rewrite rsum_swap. apply rsum_ext. intros i Hi. apply rsum_ext. intros j Hj. rewrite (S j i) by auto. ring.
Qed.
Lemma qf_scal n A c x : qf n A (fun i => c * x i) = c * c * qf n A x.
Proof. unfold qf. rewrite dot_scal. rewrite (dot_ext n x x _ (fun i => c * mv n A x i)); auto; [|intros; apply mv_scal]. rewrite (dot_comm n x (fun i => c * _)), dot_scal, (dot_comm n _ x). ring. Qed.

(** Cauchy-Schwarz *)
Lemma cauchy n x y : dot n x y * dot n x y <= dot n x x * dot n y y.
Proof.
  destruct (Req_dec (dot n y y) 0) as [Z|NZ].
  - assert (E : dot n x y = 0) by (apply rsum_0; intros i Hi; rewrite (dot_zero n y Z i Hi); ring). rewrite E, Z. lra.
  - pose proof (dot_nonneg n y) as P. set (a := dot n x y). set (b := dot n y y) in *.
    assert (Q : 0 <= dot n (fun i => b * x i + (- a) * y i) (fun i => b * x i + (- a) * y i)) by apply dot_nonneg.
    rewrite dot_add in Q. rewrite !dot_scal in Q. rewrite !(dot_comm n _ (fun i => b * x i + - a * y i)), !dot_add, !dot_scal in Q.
    rewrite (dot_comm n y x) in Q. fold a b in Q. assert (0 < b) by lra. nra.
Qed.

(** ** Kernel vector of a positive semidefinite matrix *)
Definition schur (A : nat -> nat -> R) (i j : nat) : R := A (S i) (S j) - A (S i) O * A O (S j) / A O O.
Fixpoint kernel (n : nat) (A : nat -> nat -> R) : option (nat -> R) :=
  match n with
  | O => None
  | S n => if Req_EM_T (A O O) 0 then Some (fun i => match i with O => 1 | S _ => 0 end) else
      match kernel n (schur A) with
      | Some w => Some (fun i => match i with O => - rsum n (fun j => A O (S j) * w j) / A O O | S i => w i end)
      | None => None
      end
  end.
Definition psd (n : nat) (A : nat -> nat -> R) : Prop := forall x, 0 <= qf n A x.

Definition cons (a : R) (y : nat -> R) (i : nat) : R := match i with O => a | S i => y i end.
Lemma dot_cons n a x b y : dot (S n) (cons a x) (cons b y) = a * b + dot n x y.
Proof. unfold dot. rewrite rsum_S_l. reflexivity. Qed.
Lemma qf_S n A x : sym (S n) A -> A O O <> 0 ->
  qf (S n) A x = A O O * (x O + rsum n (fun j => A O (S j) * x (S j)) / A O O) ^ 2 + qf n (schur A) (fun i => x (S i)).
Proof.
  intros S NZ. unfold qf at 1, dot. rewrite rsum_S_l. unfold mv. rewrite rsum_S_l. set (b := rsum n (fun j => A O (Datatypes.S j) * x (Datatypes.S j))).
  rewrite (rsum_ext n _ (fun i => x O * (A O (Datatypes.S i) * x (Datatypes.S i)) + x (Datatypes.S i) * rsum n (fun j => A (Datatypes.S i) (Datatypes.S j) * x (Datatypes.S j)))).
  2: { intros i Hi. rewrite rsum_S_l. rewrite (S (Datatypes.S i) O) by lia. ring. }
  rewrite rsum_add, rsum_scal_l. fold b.
  unfold qf, dot, mv, schur.
  rewrite (rsum_ext n (fun i => x (Datatypes.S i) * rsum n (fun j => (A (Datatypes.S i) (Datatypes.S j) - A (Datatypes.S i) O * A O (Datatypes.S j) / A O O) * x (Datatypes.S j)))
    (fun i => x (Datatypes.S i) * rsum n (fun j => A (Datatypes.S i) (Datatypes.S j) * x (Datatypes.S j)) - (b / A O O) * (A O (Datatypes.S i) * x (Datatypes.S i)))).
  2: { intros i Hi. rewrite (rsum_ext n _ (fun j => A (Datatypes.S i) (Datatypes.S j) * x (Datatypes.S j) - (A (Datatypes.S i) O / A O O) * (A O (Datatypes.S j) * x (Datatypes.S j)))) by (intros; field; auto).
       rewrite rsum_sub, rsum_scal_l. fold b. rewrite (S (Datatypes.S i) O) by lia. field. auto. }
  rewrite rsum_sub, rsum_scal_l. fold b. field. auto.
Qed.
Lemma schur_sym n A : sym (S n) A -> sym n (schur A).
Proof. intros S i j Hi Hj. unfold schur. rewrite (S (Datatypes.S i) (Datatypes.S j)), (S (Datatypes.S i) O), (S O (Datatypes.S j)) by lia. unfold Rdiv. ring. Qed.
Lemma schur_psd n A : sym (S n) A -> A O O <> 0 -> psd (S n) A -> psd n (schur A).
Proof.
  intros S NZ P y. specialize (P (cons (- rsum n (fun j => A O (Datatypes.S j) * y j) / A O O) y)). rewrite qf_S in P by auto. cbn [cons] in P.
  change (fun i => y i) with y in P. replace (- rsum n (fun j => A 0%nat (Datatypes.S j) * y j) / A 0%nat 0%nat + rsum n (fun j => A 0%nat (Datatypes.S j) * y j) / A 0%nat 0%nat) with 0 in P by (field; auto). lra.
Qed.
Lemma psd_diag n A : psd (S n) A -> 0 <= A O O.
Proof.
  intros P. specialize (P (cons 1 (fun _ => 0))). unfold qf, dot in P. rewrite rsum_S_l in P. unfold mv in P. rewrite rsum_S_l in P. cbn [cons] in P.
  rewrite (rsum_0 n (fun i => A O (S i) * 0)) in P by (intros; ring). rewrite (rsum_0 n) in P by (intros; ring). lra.
Qed.
(** A vanishing diagonal entry empties its row. *)
Lemma psd_row n A : sym (S n) A -> psd (S n) A -> A O O = 0 -> forall i, (i < n)%nat -> A O (S i) = 0.
Proof.
  intros S P Z i Hi.
  assert (Q : forall t, 0 <= 2 * t * A O (Datatypes.S i) + A (Datatypes.S i) (Datatypes.S i)).
  { intros t. specialize (P (cons t (fun j => if (j =? i)%nat then 1 else 0))). unfold qf, dot in P. rewrite rsum_S_l in P. unfold mv in P. rewrite rsum_S_l in P. cbn [cons] in P.
    rewrite (rsum_single n (fun j => A O (Datatypes.S j) * (if (j =? i)%nat then 1 else 0)) i Hi) in P by (intros j _ N; destruct (Nat.eqb_spec j i); [contradiction|ring]).
    rewrite (rsum_single n _ i Hi) in P.
    2: { intros j _ N. destruct (Nat.eqb_spec j i); [contradiction|ring]. }
    rewrite rsum_S_l in P. cbn [cons] in P. rewrite (rsum_single n (fun j => A (Datatypes.S i) (Datatypes.S j) * (if (j =? i)%nat then 1 else 0)) i Hi) in P by (intros j _ N; destruct (Nat.eqb_spec j i); [contradiction|ring]).
    rewrite Nat.eqb_refl, Z, (S (Datatypes.S i) O) in P by lia. nra. }
  set (a := A O (Datatypes.S i)) in *. set (d := A (Datatypes.S i) (Datatypes.S i)) in *.
  destruct (Req_dec a 0) as [|NZ]; auto. exfalso. specialize (Q (- (d + 1) / (2 * a))). replace (2 * (- (d + 1) / (2 * a)) * a) with (- (d + 1)) in Q by (field; auto). lra.
Qed.
Lemma kernel_some n A v : sym n A -> psd n A -> kernel n A = Some v -> (forall i, (i < n)%nat -> mv n A v i = 0) /\ 0 < dot n v v.
Proof.
  revert A v. induction n as [|n IH]; intros A v S P E; [discriminate|]. cbn [kernel] in E. destruct (Req_EM_T (A O O) 0) as [Z|NZ].
  - injection E as <-. split.
    + intros i Hi. unfold mv. rewrite rsum_S_l. rewrite (rsum_0 n) by (intros; ring). destruct i as [|i]; [rewrite Z; ring|]. rewrite (S (Datatypes.S i) O), (psd_row n A S P Z i) by lia. ring.
    + unfold dot. rewrite rsum_S_l. rewrite (rsum_0 n) by (intros; ring). lra.
  - destruct (kernel n (schur A)) as [w|] eqn:K; [|discriminate]. injection E as <-.
    destruct (IH _ _ (schur_sym n A S) (schur_psd n A S NZ P) K) as [IH1 IH2]. split.
    + intros i Hi. unfold mv. rewrite rsum_S_l. set (b := rsum n (fun j => A O (Datatypes.S j) * w j)). destruct i as [|i].
      * fold b. field. auto.
      * specialize (IH1 i ltac:(lia)). unfold mv, schur in IH1.
        rewrite (rsum_ext n _ (fun j => A (Datatypes.S i) (Datatypes.S j) * w j - (A (Datatypes.S i) O / A O O) * (A O (Datatypes.S j) * w j))) in IH1 by (intros; field; auto).
        rewrite rsum_sub, rsum_scal_l in IH1. fold b in IH1. rewrite <- IH1. field. auto.
    + unfold dot. rewrite rsum_S_l. fold (dot n w w). match goal with |- 0 < ?x * ?x + _ => pose proof (Rle_0_sqr x) as Q; unfold Rsqr in Q end. lra.
Qed.
Lemma kernel_none n A : sym n A -> psd n A -> kernel n A = None -> exists c, 0 < c /\ forall x, c * dot n x x <= qf n A x.
Proof.
  revert A. induction n as [|n IH]; intros A S P E.
  - exists 1. split; [lra|]. intros x. unfold qf, dot, rsum, nsum. cbn. lra.
  - cbn [kernel] in E. destruct (Req_EM_T (A O O) 0) as [Z|NZ]; [discriminate|]. destruct (kernel n (schur A)) eqn:K; [discriminate|].
    destruct (IH _ (schur_sym n A S) (schur_psd n A S NZ P) K) as (c & Hc & HQ). pose proof (psd_diag n A P) as D. set (a := A O O) in *. assert (0 < a) by lra.
    set (b := fun j => A O (Datatypes.S j)). set (k := dot n b b / (a * a)).
    assert (Hk : 0 <= k) by (apply Rmult_le_pos; [apply dot_nonneg|left; apply Rinv_0_lt_compat; nra]).
    set (M := 2 / a + (2 * k + 1) / c). assert (M1 : 0 < 2 / a) by (apply Rdiv_lt_0_compat; lra). assert (M2 : 0 < (2 * k + 1) / c) by (apply Rdiv_lt_0_compat; lra).
    exists (/ M). split; [apply Rinv_0_lt_compat; unfold M; lra|]. intros x. rewrite qf_S by auto. fold a. set (y := fun i => x (Datatypes.S i)). fold (dot n b y).
    assert (DB : rsum n (fun j => A O (Datatypes.S j) * x (Datatypes.S j)) = dot n b y) by reflexivity. rewrite DB.
    assert (DX : dot (Datatypes.S n) x x = x O * x O + dot n y y) by (unfold dot; rewrite rsum_S_l; reflexivity). rewrite DX.
    set (s := dot n b y / a). set (t := x O + s). specialize (HQ y). pose proof (dot_nonneg n y) as NY. pose proof (cauchy n b y) as CS.
    assert (SS : s * s <= k * dot n y y).
    { unfold s, k. replace (dot n b y / a * (dot n b y / a)) with (dot n b y * dot n b y / (a * a)) by (field; lra). replace (dot n b b / (a * a) * dot n y y) with (dot n b b * dot n y y / (a * a)) by (field; lra).
      apply Rmult_le_compat_r; [left; apply Rinv_0_lt_compat; nra|exact CS]. }
    assert (X0 : x O * x O <= 2 * (t * t) + 2 * (s * s)).
    { unfold t. pose proof (Rle_0_sqr (x O + 2 * s)) as Q. unfold Rsqr in Q. lra. }
    assert (B1 : x O * x O + dot n y y <= 2 * (t * t) + (2 * k + 1) * dot n y y) by nra.
    assert (B2 : 2 * (t * t) + (2 * k + 1) * dot n y y <= M * (a * t ^ 2 + c * dot n y y)).
    { unfold M. assert (T0 : 0 <= t ^ 2) by (replace (t ^ 2) with (t * t) by ring; apply Rle_0_sqr).
      replace ((2 / a + (2 * k + 1) / c) * (a * t ^ 2 + c * dot n y y)) with (2 * (t * t) + (2 * k + 1) * dot n y y + (2 / a * c * dot n y y + (2 * k + 1) / c * a * t ^ 2)) by (field; lra).
      assert (0 <= 2 / a * c * dot n y y) by (apply Rmult_le_pos; [nra|exact NY]). assert (0 <= (2 * k + 1) / c * a * t ^ 2) by (apply Rmult_le_pos; [nra|exact T0]). lra. }
    assert (MP : 0 < M) by (unfold M; lra). apply (Rmult_le_reg_l M); [exact MP|]. rewrite <- Rmult_assoc, Rinv_r, Rmult_1_l by lra.
    eapply Rle_trans; [exact B1|]. eapply Rle_trans; [exact B2|]. apply Rmult_le_compat_l; [lra|]. fold t. lra.
Qed.

(** ** The largest eigenvalue *)
Definition bound1 (n : nat) (A : nat -> nat -> R) : R := rsum n (fun i => rsum n (fun j => Rabs (A i j))).
Lemma bound1_nonneg n A : 0 <= bound1 n A.
Proof. apply rsum_nonneg. intros. apply rsum_nonneg. intros. apply Rabs_pos. Qed.
Lemma qf_bound n A x : Rabs (qf n A x) <= bound1 n A * dot n x x.
Proof.
  unfold qf, dot, mv. rewrite (rsum_ext n _ (fun i => rsum n (fun j => x i * (A i j * x j)))) by (intros; now rewrite rsum_scal_l).
  eapply Rle_trans; [apply rsum_abs|]. unfold bound1. rewrite <- rsum_scal_r. apply rsum_le. intros i Hi. eapply Rle_trans; [apply rsum_abs|]. rewrite <- rsum_scal_r. apply rsum_le. intros j Hj.
  rewrite !Rabs_mult. pose proof (Rabs_pos (A i j)) as PA. set (N := rsum n (fun i => x i * x i)).
  assert (XI : Rabs (x i) * Rabs (x i) <= N) by (rewrite <- Rabs_mult, Rabs_right by (apply Rle_ge, Rle_0_sqr); apply (rsum_term_le n (fun i => x i * x i) i); auto; intros; apply Rle_0_sqr).
  assert (XJ : Rabs (x j) * Rabs (x j) <= N) by (rewrite <- Rabs_mult, Rabs_right by (apply Rle_ge, Rle_0_sqr); apply (rsum_term_le n (fun i => x i * x i) j); auto; intros; apply Rle_0_sqr).
  assert (Rabs (x i) * Rabs (x j) <= N) by (pose proof (Rle_0_sqr (Rabs (x i) - Rabs (x j))); unfold Rsqr in *; nra).
  replace (Rabs (x i) * (Rabs (A i j) * Rabs (x j))) with (Rabs (A i j) * (Rabs (x i) * Rabs (x j))) by ring. apply Rmult_le_compat_l; auto.
Qed.
Definition ray (n : nat) (A : nat -> nat -> R) (r : R) : Prop := exists x, dot n x x = 1 /\ qf n A x = r.
Lemma ray_bound n A : bound (ray n A).
Proof. exists (bound1 n A). intros r (x & N & <-). pose proof (qf_bound n A x) as B. rewrite N, Rmult_1_r in B. pose proof (Rle_abs (qf n A x)). lra. Qed.
Lemma ray_some n A : exists r, ray (S n) A r.
Proof. exists (qf (S n) A (cons 1 (fun _ => 0))), (cons 1 (fun _ => 0)). split; [|reflexivity]. unfold dot. rewrite rsum_S_l. cbn [cons]. rewrite (rsum_0 n) by (intros; ring). lra. Qed.
Definition top (n : nat) (A : nat -> nat -> R) : R :=
  match n with O => 0 | S n => proj1_sig (completeness (ray (S n) A) (ray_bound (S n) A) (ray_some n A)) end.
Lemma top_lub n A : (0 < n)%nat -> is_lub (ray n A) (top n A).
Proof. destruct n; [lia|]. intros _. unfold top. destruct completeness as [m Hm]. exact Hm. Qed.
Lemma top_ge n A x : (0 < n)%nat -> qf n A x <= top n A * dot n x x.
Proof.
  intros Hn. destruct (top_lub n A Hn) as [UB _]. pose proof (dot_nonneg n x) as P. destruct (Req_dec (dot n x x) 0) as [Z|NZ].
  - rewrite Z, Rmult_0_r. pose proof (qf_bound n A x) as B. rewrite Z, Rmult_0_r in B. pose proof (Rle_abs (qf n A x)). lra.
  - set (c := / sqrt (dot n x x)). assert (SP : 0 < sqrt (dot n x x)) by (apply sqrt_lt_R0; lra). assert (CC : c * c * dot n x x = 1).
    { unfold c. rewrite <- (sqrt_sqrt (dot n x x)) at 3 by auto. field. lra. }
    assert (R1 : ray n A (c * c * qf n A x)). { exists (fun i => c * x i). split; [|apply qf_scal]. rewrite dot_scal, dot_comm, dot_scal. etransitivity; [|exact CC]. ring. }
    apply UB in R1. apply (Rmult_le_reg_l (c * c)); [unfold c; pose proof (Rinv_0_lt_compat _ SP); nra|]. replace (c * c * (top n A * dot n x x)) with (top n A * (c * c * dot n x x)) by ring. rewrite CC. lra.
Qed.
Definition shift (l : R) (A : nat -> nat -> R) (i j : nat) : R := (if (i =? j)%nat then l else 0) - A i j.
Lemma shift_mv n l A x i : (i < n)%nat -> mv n (shift l A) x i = l * x i - mv n A x i.
Proof.
  intros Hi. unfold mv, shift. rewrite (rsum_ext n _ (fun j => (if (i =? j)%nat then l * x j else 0) - A i j * x j)) by (intros j _; destruct (i =? j)%nat; ring).
  rewrite rsum_sub. rewrite (rsum_single n (fun j => if (i =? j)%nat then l * x j else 0) i Hi), Nat.eqb_refl; auto. intros j _ N. destruct (Nat.eqb_spec i j); congruence.
Qed.
Lemma shift_qf n l A x : qf n (shift l A) x = l * dot n x x - qf n A x.
Proof. unfold qf, dot. rewrite <- rsum_scal_l, <- rsum_sub. apply rsum_ext. intros i Hi. rewrite shift_mv by auto. ring. Qed.
Lemma shift_sym n l A : sym n A -> sym n (shift l A).
Proof. intros S i j Hi Hj. unfold shift. rewrite (S i j), (Nat.eqb_sym i j) by auto. reflexivity. Qed.
(** A normalised eigenvector for it. *)
Definition topvec (n : nat) (A : nat -> nat -> R) : nat -> R :=
  match kernel n (shift (top n A) A) with Some v => fun i => / sqrt (dot n v v) * v i | None => fun _ => 0 end.
Lemma topvec_spec n A : (0 < n)%nat -> sym n A -> dot n (topvec n A) (topvec n A) = 1 /\ forall i, (i < n)%nat -> mv n A (topvec n A) i = top n A * topvec n A i.
Proof.
  intros Hn S. assert (P : psd n (shift (top n A) A)) by (intros x; rewrite shift_qf; pose proof (top_ge n A x Hn); lra).
  unfold topvec. destruct (kernel n (shift (top n A) A)) as [v|] eqn:K.
  - destruct (kernel_some n _ v (shift_sym n _ A S) P K) as [E N]. assert (SP : 0 < sqrt (dot n v v)) by (now apply sqrt_lt_R0). split.
    + set (d := dot n v v) in *. set (c := / sqrt d). rewrite (dot_scal n c v), (dot_comm n v), (dot_scal n c v). fold d. unfold c. transitivity (/ sqrt d * (/ sqrt d * (sqrt d * sqrt d))); [now rewrite sqrt_sqrt by lra|field; lra].
    + intros i Hi. rewrite mv_scal. specialize (E i Hi). rewrite shift_mv in E by auto. replace (mv n A v i) with (top n A * v i) by lra. ring.
  - exfalso. destruct (kernel_none n _ (shift_sym n _ A S) P K) as (c & Hc & HQ). destruct (top_lub n A Hn) as [_ LUB].
    assert (UB : is_upper_bound (ray n A) (top n A - c)). { intros r (x & N & <-). specialize (HQ x). rewrite shift_qf, N in HQ. lra. }
    apply LUB in UB. lra.
Qed.

(** ** Deflation *)
Lemma classic_dec_fin n (f : nat -> R) : (exists i, (i < n)%nat /\ f i < 1) \/ forall i, (i < n)%nat -> 1 <= f i.
Proof.
  induction n as [|n [(i & Hi & L)|G]]; [right; intros; lia|left; exists i; split; [lia|exact L]|]. destruct (Rlt_le_dec (f n) 1) as [L|L]; [left; exists n; split; [lia|exact L]|].
  right. intros i Hi. destruct (Nat.eq_dec i n) as [->|]; [exact L|apply G; lia].
Qed.
Definition deflate (mu : R) (m : nat) (v : nat -> nat -> R) (A : nat -> nat -> R) (i j : nat) : R := A i j - mu * rsum m (fun k => v k i * v k j).
Lemma deflate_sym n mu m v A : sym n A -> sym n (deflate mu m v A).
Proof. intros S i j Hi Hj. unfold deflate. rewrite (S i j) by auto. do 2 f_equal. apply rsum_ext. intros. ring. Qed.
Lemma deflate_mv n mu m v A x i : mv n (deflate mu m v A) x i = mv n A x i - mu * rsum m (fun k => dot n (v k) x * v k i).
Proof.
  unfold mv, deflate. rewrite (rsum_ext n _ (fun j => A i j * x j - mu * rsum m (fun k => v k i * (v k j * x j)))).
  2: { intros j Hj. rewrite Rmult_minus_distr_r, Rmult_assoc, <- rsum_scal_r. do 2 f_equal. apply rsum_ext. intros. ring. }
  rewrite rsum_sub, rsum_scal_l, rsum_swap. do 2 f_equal. apply rsum_ext. intros k Hk. rewrite rsum_scal_l. unfold dot. ring.
Qed.
Lemma deflate_off n mu m v A x : (forall k, (k < m)%nat -> dot n (v k) x = 0) -> forall i, mv n (deflate mu m v A) x i = mv n A x i.
Proof. intros H i. rewrite deflate_mv. rewrite (rsum_0 m) by (intros k Hk; rewrite H by auto; ring). ring. Qed.

(** Fewer than [n] orthonormal vectors leave room for another one. *)
Lemma room n m v : orthonormal n m v -> (m < n)%nat -> exists x, 0 < dot n x x /\ forall k, (k < m)%nat -> dot n (v k) x = 0.
Proof.
  intros O Hm. destruct (classic_dec_fin n (fun i => rsum m (fun k => v k i * v k i))) as [(i & Hi & L)|G].
  - exists (fun j => (if (j =? i)%nat then 1 else 0) - rsum m (fun k => v k i * v k j)). split.
    + unfold dot. rewrite (res_norm n m v O i Hi). lra.
    + intros k Hk. unfold dot. rewrite (rsum_ext n _ (fun j => v k j * (if (j =? i)%nat then 1 else 0) - rsum m (fun l => v l i * (v k j * v l j)))).
      2: { intros j Hj. rewrite Rmult_minus_distr_l, <- rsum_scal_l. f_equal. apply rsum_ext. intros. ring. }
      rewrite rsum_sub, rsum_swap. rewrite (rsum_single n _ i Hi) by (intros j _ N; destruct (Nat.eqb_spec j i); [contradiction|ring]). rewrite Nat.eqb_refl.
      rewrite (rsum_single m _ k Hk).
      * rewrite rsum_scal_l, (O k k Hk Hk), Nat.eqb_refl. ring.
      * intros l Hl N. rewrite rsum_scal_l, (O k l Hk Hl). destruct (Nat.eqb_spec k l); [congruence|ring].
  - exfalso. pose proof (trace_m n m v O) as T. assert (Q : rsum n (fun _ => 1) <= rsum n (fun i => rsum m (fun k => v k i * v k i))) by (apply rsum_le; auto).
    rewrite T, rsum_const, Rmult_1_r in Q. apply INR_le in Q. lia.
Qed.

(** [m] eigenpairs in ascending order. *)
Definition vec_of (ps : list (R * (nat -> R))) (k : nat) : nat -> R := snd (nth k ps (0, fun _ => 0)).
Definition val_of (ps : list (R * (nat -> R))) (k : nat) : R := fst (nth k ps (0, fun _ => 0)).
Fixpoint pairs (n : nat) (A : nat -> nat -> R) (m : nat) : list (R * (nat -> R)) :=
  match m with
  | O => []
  | S m => let ps := pairs n A m in
           let B := deflate (2 * bound1 n A + 1) m (vec_of ps) A in
           (top n B, topvec n B) :: ps
  end.
Lemma pairs_length n A m : length (pairs n A m) = m.
Proof. induction m; cbn; auto. Qed.
Lemma pairs_spec n A m : sym n A -> (m <= n)%nat ->
  orthonormal n m (vec_of (pairs n A m)) /\
  (forall k i, (k < m)%nat -> (i < n)%nat -> mv n A (vec_of (pairs n A m) k) i = val_of (pairs n A m) k * vec_of (pairs n A m) k i) /\
  forall k, (S k < m)%nat -> val_of (pairs n A m) k <= val_of (pairs n A m) (S k).
Proof.
  intros S. induction m as [|m IH]; intros Hm; [split; [intros j k Hj; lia|split; intros; lia]|].
  destruct (IH ltac:(lia)) as (O & EV & AS). clear IH. cbn [pairs]. set (ps := pairs n A m) in *. set (mu := 2 * bound1 n A + 1). set (B := deflate mu m (vec_of ps) A).
  assert (SB : sym n B) by (now apply deflate_sym). assert (Hn : (0 < n)%nat) by lia. destruct (topvec_spec n B Hn SB) as [WN WE]. set (w := topvec n B) in *. set (l := top n B) in *.
  pose proof (bound1_nonneg n A) as BN.
  assert (QB : forall x, (forall k, (k < m)%nat -> dot n (vec_of ps k) x = 0) -> qf n B x = qf n A x).
  { intros x H. unfold qf. apply dot_ext; auto. intros i _. now apply deflate_off. }
  assert (LL : - bound1 n A <= l).
  { destruct (room n m (vec_of ps) O ltac:(lia)) as (x & XP & XO). pose proof (top_ge n B x Hn) as T. rewrite QB in T by auto. fold l in T. pose proof (qf_bound n A x) as Q.
    pose proof (Rle_abs (- qf n A x)) as R1. rewrite Rabs_Ropp in R1. apply (Rmult_le_reg_r (dot n x x)); [exact XP|]. lra. }
  assert (UL : forall k, (k < m)%nat -> val_of ps k <= bound1 n A).
  { intros k Hk. pose proof (qf_bound n A (vec_of ps k)) as Q. assert (N1 : dot n (vec_of ps k) (vec_of ps k) = 1) by (pose proof (O k k Hk Hk) as Q1; rewrite Nat.eqb_refl in Q1; exact Q1).
    assert (E : qf n A (vec_of ps k) = val_of ps k).
    { unfold qf. rewrite (dot_ext n _ (vec_of ps k) _ (fun i => val_of ps k * vec_of ps k i)); auto. rewrite dot_comm, dot_scal, N1. ring. }
    rewrite N1, E in Q. pose proof (Rle_abs (val_of ps k)). lra. }
  assert (OW : forall k, (k < m)%nat -> dot n (vec_of ps k) w = 0).
  { intros k Hk. assert (E1 : dot n (vec_of ps k) (mv n B w) = l * dot n (vec_of ps k) w).
    { rewrite (dot_ext n _ (vec_of ps k) _ (fun i => l * w i)); auto. rewrite dot_comm, dot_scal, dot_comm. reflexivity. }
    assert (E2 : dot n (mv n B (vec_of ps k)) w = (val_of ps k - mu) * dot n (vec_of ps k) w).
    { rewrite <- dot_scal. apply dot_ext; auto. intros i Hi. unfold B. rewrite deflate_mv, EV by auto. rewrite (rsum_single m _ k Hk).
      - pose proof (O k k Hk Hk) as Q1. rewrite Nat.eqb_refl in Q1. unfold dot. rewrite Q1. ring.
      - intros j Hj N. pose proof (O j k Hj Hk) as Q1. unfold dot. rewrite Q1. destruct (Nat.eqb_spec j k); [congruence|ring]. }
    rewrite mv_sym, E2 in E1 by auto. specialize (UL k Hk). unfold mu in E1. assert (F : (l - val_of ps k + (2 * bound1 n A + 1)) * dot n (vec_of ps k) w = 0) by lra.
    apply Rmult_integral in F. destruct F as [F|F]; [lra|exact F]. }
  assert (AW : forall i, (i < n)%nat -> mv n A w i = l * w i). { intros i Hi. rewrite <- WE by auto. symmetry. unfold B. now apply deflate_off. }
  split; [|split].
  - intros j k Hj Hk. destruct j as [|j], k as [|k]; cbn [vec_of nth snd Nat.eqb].
    + exact WN.
    + change (rsum n (fun i => w i * vec_of ps k i) = 0). rewrite <- (OW k) by lia. apply rsum_ext. intros. ring.
    + change (rsum n (fun i => vec_of ps j i * w i) = 0). apply (OW j). lia.
    + apply (O j k); lia.
  - intros k i Hk Hi. destruct k as [|k]; [now apply AW|]. apply (EV k i); lia.
  - intros k Hk. destruct k as [|k]; [|apply (AS k); lia]. change (l <= val_of ps 0). destruct m as [|m]; [lia|]. unfold ps, val_of. cbn [pairs nth fst].
    set (ps' := pairs n A m) in *. set (B' := deflate (2 * bound1 n A + 1) m (vec_of ps') A).
    pose proof (top_ge n B' w Hn) as T. rewrite WN, Rmult_1_r in T.
    assert (E : qf n B' w = l).
    { unfold qf. rewrite (dot_ext n w w _ (fun i => l * w i)); auto; [rewrite dot_comm, dot_scal, WN; ring|]. intros i Hi. unfold B'. rewrite deflate_off; [now apply AW|].
      intros k Hk'. apply (OW (Datatypes.S k)). lia. }
    lra.
Qed.
