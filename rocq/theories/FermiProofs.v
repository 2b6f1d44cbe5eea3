(** zero_fermi and integrate_gf. *)
From Coq Require Import Reals List Arith ZArith Bool Lia Lra Psatz.
From Verif Require Import Base RBase RLin CBase FermiModel FermiSpec LambertProofs SpectralProofs ExactMoreProofs.
Import ListNotations.
Local Open Scope R_scope.

(** ** The matrices *)
Lemma fold_B M : forall s B k l, fold_left (fun B i => set2 B i i (2 * INR i - 1)) (seq s M) B k l =
  if ((s <=? k) && (k <? s + M) && (k =? l))%nat then 2 * INR k - 1 else B k l.
Proof.
  induction M as [|M IH]; intros s B k l; cbn [seq fold_left].
  - destruct (Nat.leb_spec s k), (Nat.ltb_spec k (s + 0)); cbn [andb]; try reflexivity; lia.
  - rewrite IH. unfold set2. destruct (Nat.leb_spec (S s) k), (Nat.ltb_spec k (S s + M)), (Nat.leb_spec s k), (Nat.ltb_spec k (s + S M)), (Nat.eqb_spec k l), (Nat.eqb_spec k s), (Nat.eqb_spec l s); cbn [andb]; try lia; subst; auto; lia.
Qed.
Lemma fold_A M : forall s A k l, fold_left (fun A i => set2 (set2 A i (S i) (- (1 / 2))) (S i) i (- (1 / 2))) (seq s M) A k l =
  if ((s <=? k) && (k <? s + M) && (l =? S k) || (s <=? l) && (l <? s + M) && (k =? S l))%nat then - (1 / 2) else A k l.
Proof.
  induction M as [|M IH]; intros s A k l; cbn [seq fold_left].
  - destruct (Nat.leb_spec s k), (Nat.ltb_spec k (s + 0)), (Nat.leb_spec s l), (Nat.ltb_spec l (s + 0)); cbn [andb orb]; try reflexivity; lia.
  - rewrite IH. unfold set2.
    destruct (Nat.eqb_spec l (S k)), (Nat.eqb_spec k (S l)), (Nat.eqb_spec k s), (Nat.eqb_spec l s), (Nat.eqb_spec k (S s)), (Nat.eqb_spec l (S s)); try lia; rewrite ?andb_false_r, ?andb_true_r, ?orb_false_r, ?orb_false_l; cbn [andb orb]; auto;
    destruct (Nat.leb_spec (S s) k), (Nat.ltb_spec k (S s + M)), (Nat.leb_spec s k), (Nat.ltb_spec k (s + S M)); try lia; cbn [andb]; auto;
    destruct (Nat.leb_spec (S s) l), (Nat.ltb_spec l (S s + M)), (Nat.leb_spec s l), (Nat.ltb_spec l (s + S M)); try lia; cbn [andb]; auto.
Qed.
Lemma B_diag M i : (i < M)%nat -> packed (fermi_B M) i i = 2 * INR i + 1.
Proof.
  intros Hi. unfold packed, fermi_B. rewrite fold_B. rewrite Nat.eqb_refl. destruct (Nat.leb_spec 1 (S i)), (Nat.ltb_spec (S i) (1 + M)); try lia. cbn [andb]. rewrite S_INR. ring.
Qed.
Lemma B_off M i j : i <> j -> packed (fermi_B M) i j = 0.
Proof. intros N. unfold packed, fermi_B. rewrite fold_B. destruct (Nat.eqb_spec (S j) (S i)); [lia|]. now rewrite andb_false_r. Qed.
Definition adj (i j : nat) : R := if ((j =? S i) || (i =? S j))%nat then - (1 / 2) else 0.
Lemma A_closed M i j : (i < M)%nat -> (j < M)%nat -> packed (fermi_A M) i j = adj i j.
Proof.
  intros Hi Hj. unfold packed, fermi_A, adj. rewrite fold_A.
  destruct (Nat.leb_spec 1 (S j)), (Nat.ltb_spec (S j) (1 + (M - 1))), (Nat.eqb_spec (S i) (S (S j))), (Nat.leb_spec 1 (S i)), (Nat.ltb_spec (S i) (1 + (M - 1))), (Nat.eqb_spec (S j) (S (S i))),
    (Nat.eqb_spec j (S i)), (Nat.eqb_spec i (S j)); cbn [andb orb]; try lia; reflexivity.
Qed.
Lemma adj_sym i j : adj i j = adj j i.
Proof. unfold adj. now rewrite orb_comm. Qed.
(** Rows of the matrix. *)
Lemma adj_row M v i : (i < M)%nat -> rsum M (fun j => adj i j * v j) = - (1 / 2) * ((if (i =? 0)%nat then 0 else v (i - 1)%nat) + (if (S i <? M)%nat then v (S i) else 0)).
Proof.
  intros Hi.
  rewrite (rsum_ext M _ (fun j => (if (j =? S i)%nat then - (1 / 2) * v (S i) else 0) + (if (S j =? i)%nat then - (1 / 2) * v (i - 1)%nat else 0))).
  - rewrite rsum_add. 
    assert (E1 : rsum M (fun j => if (j =? S i)%nat then - (1 / 2) * v (S i) else 0) = - (1 / 2) * (if (S i <? M)%nat then v (S i) else 0)).
    { destruct (Nat.ltb_spec (S i) M) as [L|L].
      - rewrite (rsum_single M _ (S i) L); [now rewrite Nat.eqb_refl|]. intros j _ N. apply Nat.eqb_neq in N. now rewrite N.
      - rewrite rsum_0; [ring|]. intros j Hj. destruct (Nat.eqb_spec j (S i)); [lia|reflexivity]. }
    assert (E2 : rsum M (fun j => if (S j =? i)%nat then - (1 / 2) * v (i - 1)%nat else 0) = - (1 / 2) * (if (i =? 0)%nat then 0 else v (i - 1)%nat)).
    { destruct (Nat.eqb_spec i 0) as [->|N].
      - rewrite rsum_0; [ring|]. reflexivity.
      - rewrite (rsum_single M _ (i - 1)%nat ltac:(lia)); [destruct (Nat.eqb_spec (S (i - 1)) i); [reflexivity|lia]|]. intros j _ Nj. destruct (Nat.eqb_spec (S j) i); [lia|reflexivity]. }
    rewrite E1, E2. ring.
  - intros j _. unfold adj. rewrite (Nat.eqb_sym i (S j)). destruct (Nat.eqb_spec j (S i)) as [Ej|], (Nat.eqb_spec (S j) i) as [Ei|]; cbn [orb]; try lia; try ring.
    + rewrite Ej. ring.
    + replace (i - 1)%nat with j by lia. ring.
Qed.

Section Poles.
Variable N : nat. Hypothesis HN : (0 < N)%nat.
Let M := (2 * N)%nat.
Let d (j : nat) : R := 2 * INR j + 1.
Variables (lam : nat -> R) (v : nat -> nat -> R).
Hypothesis BO : forall k l, (k < M)%nat -> (l < M)%nat -> rsum M (fun i => d i * v k i * v l i) = if (k =? l)%nat then 1 else 0.
Hypothesis EV : forall k i, (k < M)%nat -> (i < M)%nat -> rsum M (fun j => adj i j * v k j) = lam k * (d i * v k i).
Hypothesis AS : forall j k, (j <= k)%nat -> (k < M)%nat -> lam j <= lam k.

Lemma d_pos j : 0 < d j.
Proof. unfold d. pose proof (pos_INR j). lra. Qed.
(** The components are polynomials in the eigenvalue. *)
Fixpoint pol (j : nat) (x : R) : R := match j with O => 1 | S O => - 2 * x | S (S j as j') => - 2 * x * (2 * INR j' + 1) * pol j' x - pol j x end.
Lemma pol_SS j x : pol (S (S j)) x = - 2 * x * (2 * INR (S j) + 1) * pol (S j) x - pol j x.
Proof. reflexivity. Qed.
Lemma comp_pol k j : (k < M)%nat -> (j < M)%nat -> v k j = v k 0%nat * pol j (lam k).
Proof.
  intros Hk. assert (H : forall j, ((j < M)%nat -> v k j = v k 0%nat * pol j (lam k)) /\ ((S j < M)%nat -> v k (S j) = v k 0%nat * pol (S j) (lam k))).
  2: intros Hj; now apply H.
  clear j. induction j as [|j [IH1 IH2]].
  - split; intros L; [cbn [pol]; ring|]. pose proof (EV k 0%nat Hk ltac:(lia)) as E. rewrite adj_row in E by lia. cbn [Nat.eqb] in E. destruct (Nat.ltb_spec 1 M); [|lia].
    change (pol 1 (lam k)) with (- 2 * lam k). unfold d in E. cbn [INR] in E. lra.
  - split; [exact IH2|]. intros L. pose proof (EV k (S j) Hk ltac:(lia)) as E. rewrite adj_row in E by lia. cbn [Nat.eqb] in E. destruct (Nat.ltb_spec (S (S j)) M); [|lia].
    replace (S j - 1)%nat with j in E by lia. rewrite pol_SS. rewrite IH1, IH2 in E by lia. unfold d in E. nra.
Qed.
Lemma norm_pol k : (k < M)%nat -> v k 0%nat * v k 0%nat * rsum M (fun j => d j * (pol j (lam k) * pol j (lam k))) = 1.
Proof.
  intros Hk. pose proof (BO k k Hk Hk) as E. rewrite Nat.eqb_refl in E. rewrite <- E, <- rsum_scal_l. apply rsum_ext. intros j Hj. rewrite (comp_pol k j) by auto. ring.
Qed.
Lemma pol_even j x : pol j (- x) * pol j (- x) = pol j x * pol j x.
Proof.
  enough (H : (pol j (- x) = pol j x /\ pol (S j) (- x) = - pol (S j) x) \/ (pol j (- x) = - pol j x /\ pol (S j) (- x) = pol (S j) x)) by (destruct H as [[-> _]|[-> _]]; ring).
  induction j as [|j [[I1 I2]|[I1 I2]]].
  - left. cbn [pol]. split; ring.
  - right. split; [exact I2|]. rewrite !pol_SS, I1, I2. ring.
  - left. split; [exact I2|]. rewrite !pol_SS, I1, I2. ring.
Qed.
Lemma lam_nonzero k : (k < M)%nat -> lam k <> 0.
Proof.
  intros Hk E.
  assert (P : forall j, pol (2 * j) 0 * pol (2 * j) 0 = 1).
  { induction j as [|j IH]; [cbn; ring|]. replace (2 * S j)%nat with (S (S (2 * j))) by lia. rewrite pol_SS. replace (- 2 * 0 * (2 * INR (S (2 * j)) + 1) * pol (S (2 * j)) 0 - pol (2 * j) 0) with (- pol (2 * j) 0) by ring. nra. }
  pose proof (EV k (M - 1)%nat Hk ltac:(lia)) as R. rewrite adj_row in R by lia. rewrite E in R. destruct (Nat.eqb_spec (M - 1) 0); [lia|]. destruct (Nat.ltb_spec (S (M - 1)) M); [lia|].
  rewrite comp_pol in R by lia. rewrite E in R. replace (M - 1 - 1)%nat with (2 * (N - 1))%nat in R by lia. specialize (P (N - 1)%nat).
  assert (V0 : v k 0%nat = 0) by nra. pose proof (norm_pol k Hk) as Q. rewrite V0 in Q. lra.
Qed.
(** Orthonormal vectors of the symmetrised problem. *)
Let u k j := sqrt (d j) * v k j.
Lemma u_on : orthonormal M M u.
Proof. intros k l Hk Hl. rewrite <- (BO k l Hk Hl). apply rsum_ext. intros i _. unfold u. replace (sqrt (d i) * v k i * (sqrt (d i) * v l i)) with (sqrt (d i) * sqrt (d i) * v k i * v l i) by ring. rewrite sqrt_sqrt; [reflexivity|left; apply d_pos]. Qed.
Let hat i j := adj i j / (sqrt (d i) * sqrt (d j)).
Lemma sd_pos j : 0 < sqrt (d j).
Proof. apply sqrt_lt_R0, d_pos. Qed.
Lemma u_ev k i : (k < M)%nat -> (i < M)%nat -> mv M hat (u k) i = lam k * u k i.
Proof.
  intros Hk Hi. unfold mv. rewrite (rsum_ext M _ (fun j => / sqrt (d i) * (adj i j * v k j))).
  - rewrite rsum_scal_l, (EV k i Hk Hi). unfold u. pose proof (sd_pos i). pose proof (sqrt_sqrt (d i) ltac:(left; apply d_pos)) as Q. rewrite <- Q at 2. field. lra.
  - intros j _. unfold hat, u. pose proof (sd_pos i). pose proof (sd_pos j). field. lra.
Qed.
Definition sg (j : nat) : R := if Nat.even j then 1 else -1.
Lemma sg_S j : sg (S j) = - sg j.
Proof. unfold sg. rewrite Nat.even_succ, <- Nat.negb_even. destruct (Nat.even j); cbn; ring. Qed.
Lemma sg_sq j : sg j * sg j = 1.
Proof. unfold sg. destruct (Nat.even j); ring. Qed.
Lemma adj_sg i j : adj i j * sg j = - sg i * adj i j.
Proof.
  unfold adj. destruct (Nat.eqb_spec j (S i)) as [->|]; cbn [orb]; [rewrite sg_S; ring|]. destruct (Nat.eqb_spec i (S j)) as [->|]; [rewrite sg_S; ring|ring].
Qed.
Lemma lam_odd k : (k < M)%nat -> lam k = - lam (M - 1 - k)%nat.
Proof.
  intros Hk. apply (spectrum_unique M hat u lam (fun k j => sg j * u (M - 1 - k)%nat j) (fun k => - lam (M - 1 - k)%nat) k); auto.
  - apply u_on.
  - apply u_ev.
  - intros a b Ha Hb. rewrite (rsum_ext M _ (fun j => u (M - 1 - a)%nat j * u (M - 1 - b)%nat j)).
    + rewrite (u_on (M - 1 - a)%nat (M - 1 - b)%nat) by lia. destruct (Nat.eqb_spec (M - 1 - a) (M - 1 - b)), (Nat.eqb_spec a b); auto; lia.
    + intros j _. pose proof (sg_sq j). replace (sg j * u (M - 1 - a)%nat j * (sg j * u (M - 1 - b)%nat j)) with (sg j * sg j * (u (M - 1 - a)%nat j * u (M - 1 - b)%nat j)) by ring. rewrite H. ring.
  - intros a i Ha Hi. transitivity (- sg i * mv M hat (u (M - 1 - a)%nat) i).
    + unfold mv. rewrite <- rsum_scal_l. apply rsum_ext. intros j _. unfold hat. pose proof (adj_sg i j). unfold Rdiv. replace (adj i j * / (sqrt (d i) * sqrt (d j)) * (sg j * u (M - 1 - a)%nat j)) with (adj i j * sg j * (/ (sqrt (d i) * sqrt (d j)) * u (M - 1 - a)%nat j)) by ring. rewrite H. ring.
    + rewrite u_ev by lia. ring.
  - intros a b Hab Hb. apply Ropp_le_contravar. apply AS; lia.
Qed.
Lemma weight_even k : (k < M)%nat -> v k 0%nat * v k 0%nat = v (M - 1 - k)%nat 0%nat * v (M - 1 - k)%nat 0%nat.
Proof.
  intros Hk. pose proof (norm_pol k Hk) as E1. pose proof (norm_pol (M - 1 - k)%nat ltac:(lia)) as E2. rewrite (lam_odd k Hk) in E1.
  rewrite (rsum_ext M _ (fun j => d j * (pol j (lam (M - 1 - k)%nat) * pol j (lam (M - 1 - k)%nat)))) in E1 by (intros j _; now rewrite pol_even).
  set (s := rsum M (fun j => d j * (pol j (lam (M - 1 - k)%nat) * pol j (lam (M - 1 - k)%nat)))) in *. assert (s <> 0) by (intros Z; rewrite Z in E1; lra).
  apply (Rmult_eq_reg_r s); auto. now rewrite E1, E2.
Qed.
Lemma lam_neg k : (k < N)%nat -> lam k < 0.
Proof.
  intros Hk. pose proof (lam_odd k ltac:(lia)). pose proof (lam_nonzero k ltac:(lia)). pose proof (AS k (M - 1 - k)%nat ltac:(lia) ltac:(lia)). lra.
Qed.

(** ** The sum over the poles is the continued fraction *)
Section X.
Variable x : R.
Let t := x / 2.
Fixpoint rr (j : nat) : R := match j with O => lambert M 0 t | S j => t * lambert (M - S j) (S j) t * rr j end.
Lemma rr_row j : (j < M)%nat -> d j * rr j - (if (j =? 0)%nat then 0 else t * rr (j - 1)) + t * rr (S j) = if (j =? 0)%nat then 1 else 0.
Proof.
  intros Hj. change (rr (S j)) with (t * lambert (M - S j) (S j) t * rr j).
  assert (L : lambert (M - j) j t * (d j + t * t * lambert (M - S j) (S j) t) = 1).
  { replace (M - j)%nat with (S (M - S j)) by lia. cbn [lambert]. fold (d j). pose proof (d_pos j). pose proof (lambert_nonneg (M - S j) (S j) t). assert (0 <= t * t * lambert (M - S j) (S j) t) by nra. field. lra. }
  destruct j as [|j].
  - cbn [Nat.eqb]. change (rr 0) with (lambert M 0 t). rewrite Nat.sub_0_r in L. lra.
  - cbn [Nat.eqb]. replace (S j - 1)%nat with j by lia. change (rr (S j)) with (t * lambert (M - S j) (S j) t * rr j).
    set (l := lambert (M - S j) (S j) t) in *. set (l' := lambert (M - S (S j)) (S (S j)) t) in *. transitivity (t * rr j * (l * (d (S j) + t * t * l')) - t * rr j); [ring|]. rewrite L. ring.
Qed.
Lemma rr_M : rr M = 0.
Proof. replace M with (S (M - 1)) by lia. cbn [rr]. replace (M - S (M - 1))%nat with 0%nat by lia. cbn [lambert]. ring. Qed.
(** Real and imaginary part of i^j. *)
Fixpoint pi_ (j : nat) : R * R := match j with O => (1, 0) | S j => (- snd (pi_ j), fst (pi_ j)) end.
Let p j := fst (pi_ j) * rr j.
Let q j := snd (pi_ j) * rr j.
Lemma pi_SS j : pi_ (S (S j)) = (- fst (pi_ j), - snd (pi_ j)).
Proof. reflexivity. Qed.
Lemma rowpq j : (j < M)%nat -> d j * p j - x * rsum M (fun i => adj j i * q i) = (if (j =? 0)%nat then 1 else 0) /\ d j * q j + x * rsum M (fun i => adj j i * p i) = 0.
Proof.
  intros Hj. rewrite !adj_row by auto. pose proof (rr_row j Hj) as RR.
  assert (LAST : forall f, (if (S j <? M)%nat then f (pi_ (S j)) * rr (S j) else 0) = f (pi_ (S j)) * rr (S j)).
  { intros f. destruct (Nat.ltb_spec (S j) M); auto. replace (S j) with M by lia. rewrite rr_M. ring. }
  unfold p, q. rewrite (LAST snd), (LAST fst).
  destruct j as [|j].
  - cbn [Nat.eqb] in *. cbn [pi_ fst snd]. unfold t in RR. split; lra.
  - cbn [Nat.eqb] in *. replace (S j - 1)%nat with j in * by lia. rewrite pi_SS. cbn [pi_ fst snd]. unfold t in RR. set (a := rr (S (S j))) in *. set (b := rr (S j)) in *. set (c := rr j) in *.
    assert (RC : d (S j) * b = x / 2 * c - x / 2 * a) by lra. split.
    + transitivity (- snd (pi_ j) * (d (S j) * b - x / 2 * c + x / 2 * a)); [field|]. rewrite RC. ring.
    + transitivity (fst (pi_ j) * (d (S j) * b - x / 2 * c + x / 2 * a)); [field|]. rewrite RC. ring.
Qed.
Lemma expand f : forall i, (i < M)%nat -> f i = rsum M (fun k => rsum M (fun j => d j * v k j * f j) * v k i).
Proof.
  intros i Hi. transitivity (rsum M (fun j => sqrt (d j) * f j / sqrt (d i) * rsum M (fun k => u k j * u k i))).
  - rewrite (rsum_single M _ i Hi).
    + rewrite (orthonormal_complete M M u u_on eq_refl i i Hi Hi), Nat.eqb_refl. pose proof (sd_pos i). field. lra.
    + intros j Hj Nj. rewrite (orthonormal_complete M M u u_on eq_refl j i Hj Hi). apply Nat.eqb_neq in Nj. rewrite Nj. ring.
  - transitivity (rsum M (fun j => rsum M (fun k => d j * v k j * f j * v k i))).
    + apply rsum_ext. intros j _. rewrite <- rsum_scal_l. apply rsum_ext. intros k _. unfold u. pose proof (sd_pos i).
      transitivity (sqrt (d j) * sqrt (d j) * v k j * f j * v k i); [field; lra|]. rewrite sqrt_sqrt by (left; apply d_pos). ring.
    + rewrite rsum_swap. apply rsum_ext. intros k _. now rewrite rsum_scal_r.
Qed.
Theorem poles_cf_all : rsum M (fun k => v k 0%nat * v k 0%nat / (1 + x * x * (lam k * lam k))) = lambert M 0 t.
Proof.
  set (P := fun k => rsum M (fun j => d j * v k j * p j)). set (Q := fun k => rsum M (fun j => d j * v k j * q j)).
  assert (AQ : forall f k, (k < M)%nat -> rsum M (fun j => v k j * rsum M (fun i => adj j i * f i)) = lam k * rsum M (fun j => d j * v k j * f j)).
  { intros f k Hk. rewrite (rsum_ext M _ (fun j => rsum M (fun i => v k j * (adj j i * f i)))) by (intros; now rewrite rsum_scal_l). rewrite rsum_swap, <- rsum_scal_l. apply rsum_ext. intros i Hi.
    rewrite (rsum_ext M _ (fun j => adj i j * v k j * f i)) by (intros j _; rewrite (adj_sym j i); ring). rewrite rsum_scal_r, (EV k i Hk Hi). ring. }
  assert (E1 : forall k, (k < M)%nat -> P k - x * (lam k * Q k) = v k 0%nat).
  { intros k Hk. unfold Q. rewrite <- AQ by auto. unfold P. rewrite <- rsum_scal_l, <- rsum_sub. rewrite (rsum_ext M _ (fun j => v k j * (if (j =? 0)%nat then 1 else 0))).
    - rewrite (rsum_single M _ 0%nat ltac:(lia)); [rewrite Nat.eqb_refl; ring|]. intros j _ Nj. apply Nat.eqb_neq in Nj. rewrite Nj. ring.
    - intros j Hj. rewrite <- (proj1 (rowpq j Hj)). ring. }
  assert (E2 : forall k, (k < M)%nat -> Q k + x * (lam k * P k) = 0).
  { intros k Hk. unfold P. rewrite <- AQ by auto. unfold Q. rewrite <- rsum_scal_l, <- rsum_add. apply rsum_0. intros j Hj. transitivity (v k j * (d j * q j + x * rsum M (fun i => adj j i * p i))); [ring|].
    rewrite (proj2 (rowpq j Hj)). ring. }
  assert (E3 : forall k, (k < M)%nat -> P k = v k 0%nat / (1 + x * x * (lam k * lam k))).
  { intros k Hk. pose proof (E1 k Hk) as A1. pose proof (E2 k Hk) as A2. assert (0 <= x * lam k * (x * lam k)) by nra.
    assert (QE : Q k = - (x * (lam k * P k))) by lra. rewrite QE in A1. rewrite <- A1. field. nra. }
  transitivity (p 0%nat).
  - rewrite (expand p 0%nat ltac:(lia)). apply rsum_ext. intros k Hk. fold (P k). rewrite E3 by auto. unfold Rdiv. ring.
  - unfold p. cbn [pi_ fst rr]. ring.
Qed.
Lemma half_sum f : (forall k, (k < M)%nat -> f k = f (M - 1 - k)%nat) -> rsum M f = 2 * rsum N f.
Proof.
  intros H. assert (SP : forall a b g, rsum (a + b) g = rsum a g + rsum b (fun i => g (a + i)%nat)).
  { intros a b g. induction b as [|b IH]; [rewrite Nat.add_0_r; change (rsum 0 (fun i => g (a + i)%nat)) with 0; ring|]. rewrite Nat.add_succ_r, !rsum_S, IH. ring. }
  assert (RV : forall n g, rsum n g = rsum n (fun i => g (n - 1 - i)%nat)).
  { induction n as [|n IH]; intros g; [reflexivity|]. rewrite rsum_S, rsum_S_l, IH. rewrite Rplus_comm. f_equal; [f_equal; lia|]. apply rsum_ext. intros i Hi. f_equal. lia. }
  unfold M at 1. replace (2 * N)%nat with (N + N)%nat by lia. rewrite SP, (RV N (fun i => f (N + i)%nat)). rewrite (rsum_ext N (fun i => f (N + (N - 1 - i))%nat) f); [ring|].
  intros i Hi. rewrite (H i) by (unfold M; lia). f_equal. unfold M. lia.
Qed.
Theorem poles_cf : rsum N (fun k => v k 0%nat * v k 0%nat / (1 + x * x * (lam k * lam k))) = lambert M 0 t / 2.
Proof.
  rewrite <- poles_cf_all, half_sum; [field|]. intros k Hk. rewrite <- (weight_even k Hk). rewrite (lam_odd k Hk). f_equal. f_equal. ring.
Qed.
End X.
End Poles.
