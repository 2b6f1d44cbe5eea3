(** The Hamiltonians of related models are equal up to signs of the states and a constant. *)
From Coq Require Import Reals List Arith NArith ZArith Bool Lia Lra Ring Permutation.
From Verif Require Import Base RBase RLin CBase OperatorsModel OperatorsSpec OperatorsProofs LookupSpec LookupProofs SectorModel SectorSpec FockSpec FockProofs LocalModel LocalSpec HoppingModel CsrSpec NonLocalSpec
  MatvecModel MbModel MbSpec EspaceModel ProjSpec GfSpec GmSpec GmFockProofs FlipProofs SymSpec SymProofs RelSpec RelFockProofs.
Import ListNotations.
Local Open Scope R_scope.

Ltac rring := match goal with |- @eq _ ?a ?b => change (@eq R a b) end; ring.
(** ** Orbitals *)
Section Orb.
Variables (n : nat) (hole sw : bool) (rho : nat -> nat) (sg : nat -> bool).
Hypothesis HR : renumbering n rho.
Definition rho2 (k : nat) : nat := if (k <? n)%nat then (rho k + spin' sw 0 * n)%nat else (rho (k - n) + spin' sw 1 * n)%nat.
Definition site (k : nat) : nat := if (k <? n)%nat then k else (k - n)%nat.
Definition zpm (b : bool) : Z := if b then (-1)%Z else 1%Z.
Lemma rho2_orb s x : (s < 2)%nat -> (x < n)%nat -> rho2 (x + s * n) = (rho x + spin' sw s * n)%nat.
Proof.
  intros Hs Hx. unfold rho2. destruct s as [|[|]]; [| |lia].
  - rewrite Nat.mul_0_l, Nat.add_0_r. destruct (Nat.ltb_spec x n); [reflexivity|lia].
  - rewrite Nat.mul_1_l. destruct (Nat.ltb_spec (x + n) n); [lia|]. now rewrite Nat.add_sub.
Qed.
Lemma site_orb s x : (s < 2)%nat -> (x < n)%nat -> site (x + s * n) = x.
Proof. intros Hs Hx. unfold site. destruct s as [|[|]]; [| |lia]; [rewrite Nat.add_0_r; destruct (Nat.ltb_spec x n); lia|rewrite Nat.mul_1_l; destruct (Nat.ltb_spec (x + n) n); lia]. Qed.
Lemma orb_split k : (k < 2 * n)%nat -> exists s x, (s < 2)%nat /\ (x < n)%nat /\ k = (x + s * n)%nat.
Proof. intros H. destruct (Nat.lt_ge_cases k n); [exists 0%nat, k|exists 1%nat, (k - n)%nat]; lia. Qed.
Lemma spin'_lt s : (s < 2)%nat -> (spin' sw s < 2)%nat.
Proof. unfold spin'. destruct sw; lia. Qed.
Lemma orb_eq a b x y : (x < n)%nat -> (y < n)%nat -> (x + a * n = y + b * n)%nat -> x = y /\ a = b.
Proof.
  intros Hx Hy E. assert (x = y).
  { apply (f_equal (fun k => k mod n)%nat) in E. rewrite !Nat.mod_add, !Nat.mod_small in E by lia. exact E. }
  subst. split; [reflexivity|]. nia.
Qed.
Lemma rho2_ren : renumbering (2 * n) rho2.
Proof.
  split.
  - intros k Hk. destruct (orb_split k Hk) as (s & x & Hs & Hx & ->). rewrite rho2_orb by auto. pose proof (spin'_lt s Hs). pose proof (proj1 HR x Hx). nia.
  - intros j k Hj Hk E. destruct (orb_split j Hj) as (s & x & Hs & Hx & ->). destruct (orb_split k Hk) as (t & y & Ht & Hy & ->). rewrite !rho2_orb in E by auto.
    apply orb_eq in E; [|now apply HR|now apply HR]. destruct E as [E1 E2]. apply (proj2 HR) in E1; auto. subst y. f_equal. f_equal. unfold spin' in E2. destruct sw; lia.
Qed.
Definition rinv (k : nat) : nat := match find (fun i => rho2 i =? k)%nat (seq 0 (2 * n)) with Some i => i | None => 0%nat end.
Lemma rinv_spec i : (i < 2 * n)%nat -> rinv (rho2 i) = i.
Proof.
  intros Hi. unfold rinv. destruct (find _ _) as [j|] eqn:E.
  - apply find_some in E. destruct E as [I E]. apply in_seq in I. apply Nat.eqb_eq in E. now apply (proj2 rho2_ren); [lia| |].
  - exfalso. pose proof (find_none _ _ E i ltac:(apply in_seq; lia)) as Q. cbv beta in Q. now rewrite Nat.eqb_refl in Q.
Qed.
Lemma zpm_sign b : zsign (zpm b).
Proof. destruct b; [now right|now left]. Qed.
Theorem trafo_exists : exists tau th, trafo (2 * n) hole rho2 (fun k => zpm (sg (site k))) tau th.
Proof.
  pose proof (trafo_perm (2 * n) rho2 rinv rho2_ren rinv_spec) as TP.
  set (eta := fun k => (zpm (sg (site k)) * (if hole then parity_sign (2 * n - S k) else 1))%Z).
  assert (HE : forall i, (i < 2 * n)%nat -> zsign (eta i)).
  { intros i _. unfold eta. apply zsign_mul; [apply zpm_sign|]. destruct hole; [rewrite <- zpar_nat; apply zpar_sign|now left]. }
  pose proof (trafo_comp _ _ _ _ _ _ _ _ _ _ _ (trafo_gauge (2 * n) eta HE) TP) as T1.
  assert (FIX : forall h r k k' t th, trafo (2 * n) h r k t th -> (forall i, (i < 2 * n)%nat -> k i = k' i) -> trafo (2 * n) h r k' t th).
  { intros h r k k' t th [A B C D E G] HK. constructor; auto; [intros i Hi; rewrite <- HK by auto; auto|intros; rewrite <- HK by auto; auto]. }
  destruct hole eqn:EH.
  - pose proof (trafo_comp _ _ _ _ _ _ _ _ _ _ _ (trafo_hole (2 * n)) T1) as T2. cbn [xorb] in T2. eexists _, _. eapply FIX; [exact T2|].
    intros i Hi. cbv beta. unfold eta. rewrite Z.mul_1_l, <- Z.mul_assoc, par_sq. ring.
  - cbn [xorb] in T1. eexists _, _. eapply FIX; [exact T1|]. intros i Hi. unfold eta. ring.
Qed.
End Orb.

(** ** Two related models *)
Lemma pm_sq b : pm b * pm b = 1.
Proof. destruct b; unfold pm; ring. Qed.
Definition rnum (s : N) (i : nat) : R := if occ s i then 1 else 0.
Definition kvec (n : nat) (u d : N) (s i : nat) : R := rnum (match s with O => u | _ => d end) i - / 2.
(** The energy in terms of n - 1/2. *)
Definition centred_energy (n : nat) (P : params) (u d : N) : R :=
  rsum n (fun i => centred n P 0 i * kvec n u d 0 i + centred n P 1 i * kvec n u d 1 i + P_U P i i * (kvec n u d 0 i * kvec n u d 1 i)) +
  / 2 * rsum n (fun i => rsum n (fun j => if (i =? j)%nat then 0 else P_U P i j * ((kvec n u d 0 i + kvec n u d 1 i) * (kvec n u d 0 j + kvec n u d 1 j)))).
Lemma energy_centred n P u d : fock_energy RRing (/ 2) n (P_e P 0%nat) (P_e P 1%nat) (P_U P) (P_z P) (P_hf P) u d = centred_energy n P u d + offset n P.
Proof.
  unfold fock_energy. cbv zeta.
  set (a := kvec n u d 0). set (b := kvec n u d 1). set (c := p_shift P).
  assert (NU : forall i, num RRing u i = a i + / 2) by (intros i; unfold a, kvec, rnum, num; destruct (occ u i); change (c1 RRing) with 1; change (c0 RRing) with 0; lra).
  assert (ND : forall i, num RRing d i = b i + / 2) by (intros i; unfold b, kvec, rnum, num; destruct (occ d i); change (c1 RRing) with 1; change (c0 RRing) with 0; lra).
  assert (SH : (if P_hf P then / 2 else 0) = / 2 - c) by (unfold c, p_shift; destruct (P_hf P); lra).
  assert (G : rsum n (fun i => P_e P 0%nat i * num RRing u i + P_e P 1%nat i * num RRing d i) +
    rsum n (fun i => P_U P i i * ((num RRing u i - (if P_hf P then / 2 else 0)) * (num RRing d i - (if P_hf P then / 2 else 0)))) +
    / 2 * rsum n (fun i => rsum n (fun j => if (i =? j)%nat then 0 else P_U P i j * ((num RRing u i + num RRing d i - P_z P i) * (num RRing u j + num RRing d j - P_z P j)))) =
    centred_energy n P u d + offset n P); [|exact G].
  rewrite (rsum_ext n (fun i => P_e P 0%nat i * num RRing u i + P_e P 1%nat i * num RRing d i) (fun i => P_e P 0%nat i * (a i + / 2) + P_e P 1%nat i * (b i + / 2))) by (intros i _; now rewrite NU, ND).
  rewrite (rsum_ext n (fun i => P_U P i i * _) (fun i => P_U P i i * ((a i + c) * (b i + c)))) by (intros i _; rewrite NU, ND, SH; ring).
  set (m := fun i => a i + b i). set (w := fun i => 1 - P_z P i).
  rewrite (rsum_ext n (fun i => rsum n (fun j => if (i =? j)%nat then 0 else P_U P i j * ((num RRing u i + num RRing d i - P_z P i) * (num RRing u j + num RRing d j - P_z P j))))
    (fun i => rsum n (fun j => if (i =? j)%nat then 0 else P_U P i j * ((m i + w i) * (m j + w j))))).
  2:{ intros i _. apply rsum_ext. intros j _. destruct (i =? j)%nat; [reflexivity|]. rewrite !NU, !ND. unfold m, w. field. }
  unfold centred_energy, offset. fold a b c.
  set (X := rsum n (fun i => rsum n (fun j => if (i =? j)%nat then 0 else P_U P i j * (m i * m j)))).
  change (rsum n (fun i => rsum n (fun j => if (i =? j)%nat then 0 else P_U P i j * ((a i + b i) * (a j + b j))))) with X.
  set (W := rsum n (fun i => rsum n (fun j => if (i =? j)%nat then 0 else P_U P i j * (w i * w j)))).
  change (rsum n (fun i => rsum n (fun j => if (i =? j)%nat then 0 else P_U P i j * ((1 - P_z P i) * (1 - P_z P j))))) with W.
  set (Y := rsum n (fun i => m i * rsum n (fun j => if (i =? j)%nat then 0 else (P_U P i j + P_U P j i) * w j))).
  assert (E3 : rsum n (fun i => rsum n (fun j => if (i =? j)%nat then 0 else P_U P i j * ((m i + w i) * (m j + w j)))) = X + W + Y).
  { assert (E4 : Y = rsum n (fun i => rsum n (fun j => if (i =? j)%nat then 0 else P_U P i j * (m i * w j))) + rsum n (fun i => rsum n (fun j => if (i =? j)%nat then 0 else P_U P i j * (w i * m j)))).
    { rewrite (rsum_swap n n (fun i j => if (i =? j)%nat then 0 else P_U P i j * (w i * m j))), <- rsum_add. unfold Y. apply rsum_ext. intros i _. rewrite <- rsum_scal_l, <- rsum_add. apply rsum_ext. intros j _.
      rewrite (Nat.eqb_sym j i). destruct (i =? j)%nat; ring. }
    rewrite E4. unfold X, W. rewrite <- !rsum_add. apply rsum_ext. intros i _. rewrite <- !rsum_add. apply rsum_ext. intros j _. destruct (i =? j)%nat; ring. }
  rewrite E3.
  assert (E5 : rsum n (fun i => centred n P 0 i * a i + centred n P 1 i * b i + P_U P i i * (a i * b i)) =
    rsum n (fun i => P_e P 0%nat i * a i + P_e P 1%nat i * b i + P_U P i i * (a i * b i + c * (a i + b i))) + / 2 * Y).
  { unfold Y. rewrite <- rsum_scal_l, <- rsum_add. apply rsum_ext. intros i _. unfold centred. fold c. unfold m. fold w.
    change (rsum n (fun j => if (i =? j)%nat then 0 else (P_U P i j + P_U P j i) * (1 - P_z P j))) with (rsum n (fun j => if (i =? j)%nat then 0 else (P_U P i j + P_U P j i) * w j)). ring. }
  rewrite E5.
  assert (E6 : rsum n (fun i => P_e P 0%nat i * (a i + / 2) + P_e P 1%nat i * (b i + / 2)) + rsum n (fun i => P_U P i i * ((a i + c) * (b i + c))) =
    rsum n (fun i => P_e P 0%nat i * a i + P_e P 1%nat i * b i + P_U P i i * (a i * b i + c * (a i + b i))) + rsum n (fun i => / 2 * (P_e P 0%nat i + P_e P 1%nat i) + P_U P i i * (c * c))).
  { rewrite <- !rsum_add. apply rsum_ext. intros i _. ring. }
  match goal with |- ?x = ?y => change (@eq R x y) end.
  set (A1 := rsum n (fun i => P_e P 0%nat i * (a i + / 2) + P_e P 1%nat i * (b i + / 2))) in *. set (A2 := rsum n (fun i => P_U P i i * ((a i + c) * (b i + c)))) in *. rewrite E6. ring.
Qed.

Lemma combine_lt n u d : (u < 2 ^ N.of_nat n)%N -> (d < 2 ^ N.of_nat n)%N -> (combine n u d < 2 ^ N.of_nat (2 * n))%N.
Proof. intros Hu Hd. apply occ_lt_pow2. intros k Hk. rewrite occ_combine by auto. destruct (Nat.ltb_spec k n); [lia|]. apply (occ_high d n); auto. lia. Qed.
Section Rel.
Variables (n : nat) (hole sw : bool) (rho : nat -> nat) (sg : nat -> bool) (P P' : params) (tau : N -> N) (th : N -> Z).
Hypothesis HRel : related n hole sw rho sg P P'.
Hypothesis HT : trafo (2 * n) hole (rho2 n sw rho) (fun k => zpm (sg (site n k))) tau th.
Hypothesis HTs : forall s x y, (s < 2)%nat -> (x < n)%nat -> (y < n)%nat -> P_T P s x y = P_T P s y x.
Hypothesis HT0 : forall s x, (s < 2)%nat -> (x < n)%nat -> P_T P s x x = 0.
Notation small := (fun s => (s < 2 ^ N.of_nat (2 * n))%N).
Definition rth (s : N) : R := @z2k RRing (th s).
Notation z2r := (@z2k RRing).
Notation M := (2 * n)%nat.
Lemma z2r_mul x y : z2r (x * y)%Z = z2r x * z2r y.
Proof. exact (z2k_mul RRing x y). Qed.
Lemma rth_sign s : small s -> is_sign (rth s).
Proof. intros H. unfold rth, is_sign. destruct (tf_th _ _ _ _ _ _ HT s H) as [-> | ->]; cbn; [now left|now right]. Qed.
Lemma z2r_zpm b : z2r (zpm b) = pm b.
Proof. destruct b; reflexivity. Qed.
Lemma orb_lt s x : (s < 2)%nat -> (x < n)%nat -> (x + s * n < M)%nat.
Proof. nia. Qed.
Lemma orbM s x : (s < 2)%nat -> (x < n)%nat -> (rho x + spin' sw s * n)%nat = rho2 n sw rho (x + s * n).
Proof. intros. now rewrite rho2_orb. Qed.

Lemma coupling_rel J J' W W' t s : (forall x y, (x < n)%nat -> (y < n)%nat -> J' (rho x) (rho y) * z2r (elem M (W' (rho x) (rho y)) (tau t) (tau s)) = rth t * rth s * (J x y * z2r (elem M (W x y) t s))) ->
  coupling RRing n J' W' (tau t) (tau s) = rth t * rth s * coupling RRing n J W t s.
Proof.
  intros H. unfold coupling. change (@nsum RRing) with rsum. rewrite <- (rsum_renumber n rho _ (rel_rho _ _ _ _ _ _ _ HRel)), <- rsum_scal_l. apply rsum_ext. intros x Hx.
  rewrite <- (rsum_renumber n rho _ (rel_rho _ _ _ _ _ _ _ HRel)), <- rsum_scal_l. apply rsum_ext. intros y Hy. now apply H.
Qed.
Lemma coupling_T J W t s : coupling RRing n J W t s = coupling RRing n (fun i j => J j i) (fun i j => W j i) t s.
Proof. unfold coupling. change (@nsum RRing) with rsum. now rewrite rsum_swap. Qed.
Lemma elem_img l t s : small s -> small t -> Forall (fun o => (orb_of o < M)%nat) l ->
  z2r (elem M (map (flip_op hole (rho2 n sw rho)) l) (tau t) (tau s)) = z2r (kaps (fun k => zpm (sg (site n k))) l) * (rth t * rth s * z2r (elem M l t s)).
Proof. intros Hs Ht F. rewrite (tf_elem _ _ _ _ _ _ HT l t s Hs Ht F), !z2r_mul. unfold rth. rring. Qed.

Lemma hop_rel sp t s : (sp < 2)%nat -> small s -> small t -> hop_op RRing n (P_T P' (spin' sw sp)) (spin' sw sp) (tau t) (tau s) = rth t * rth s * hop_op RRing n (P_T P sp) sp t s.
Proof.
  intros Hsp Hs Ht. unfold hop_op. destruct (Bool.bool_dec hole true) as [EH|EH].
  - rewrite (coupling_T (P_T P sp)). apply coupling_rel. intros x y Hx Hy. rewrite !orbM by auto.
    replace [Cr (rho2 n sw rho (x + sp * n)); An (rho2 n sw rho (y + sp * n))] with (map (flip_op hole (rho2 n sw rho)) [An (x + sp * n); Cr (y + sp * n)]) by (rewrite EH; reflexivity).
    rewrite elem_img by (auto; repeat constructor; cbn [orb_of]; now apply orb_lt). cbn [kaps fold_right orb_of]. rewrite !site_orb, Z.mul_1_r, z2r_mul, !z2r_zpm by auto.
    rewrite (rel_T _ _ _ _ _ _ _ HRel) by auto. destruct (Nat.eq_dec x y) as [->|NE]; [rewrite HT0 by auto; ring|].
    pose proof (car M (x + sp * n) (y + sp * n) t s (orb_lt sp x Hsp Hx) (orb_lt sp y Hsp Hy)) as C. destruct (Nat.eqb_spec (x + sp * n) (y + sp * n)); [lia|]. cbn [andb] in C.
    replace (elem M [An (x + sp * n); Cr (y + sp * n)] t s) with (- elem M [Cr (y + sp * n); An (x + sp * n)] t s)%Z by lia. rewrite (z2k_opp RRing). change (copp RRing) with Ropp.
    rewrite (HTs sp x y) by auto. rewrite EH. change (pm true) with (-1). pose proof (pm_sq (sg x)) as Q1. pose proof (pm_sq (sg y)) as Q2.
    set (E := z2r (elem M [Cr (y + sp * n); An (x + sp * n)] t s)). transitivity ((pm (sg x) * pm (sg x)) * (pm (sg y) * pm (sg y)) * (rth t * rth s * (P_T P sp y x * E))); [rring|rewrite Q1, Q2; ring].
  - apply not_true_is_false in EH. apply coupling_rel. intros x y Hx Hy. rewrite !orbM by auto.
    replace [Cr (rho2 n sw rho (x + sp * n)); An (rho2 n sw rho (y + sp * n))] with (map (flip_op hole (rho2 n sw rho)) [Cr (x + sp * n); An (y + sp * n)]) by (rewrite EH; reflexivity).
    rewrite elem_img by (auto; repeat constructor; cbn [orb_of]; now apply orb_lt). cbn [kaps fold_right orb_of]. rewrite !site_orb, Z.mul_1_r, z2r_mul, !z2r_zpm by auto.
    rewrite (rel_T _ _ _ _ _ _ _ HRel) by auto. rewrite EH. change (pm false) with 1. pose proof (pm_sq (sg x)) as Q1. pose proof (pm_sq (sg y)) as Q2.
    set (E := z2r (elem M [Cr (x + sp * n); An (y + sp * n)] t s)). transitivity ((pm (sg x) * pm (sg x)) * (pm (sg y) * pm (sg y)) * (rth t * rth s * (P_T P sp x y * E))); [rring|rewrite Q1, Q2; ring].
Qed.

(** Words in which every site occurs twice. *)
Lemma quartic_rel J J' W W' t s : small s -> small t -> (forall x y, (x < n)%nat -> (y < n)%nat -> J' (rho x) (rho y) = J x y /\ (hole = true -> J x y = 0)) ->
  (forall x y, (x < n)%nat -> (y < n)%nat -> (hole = false -> W' (rho x) (rho y) = map (flip_op hole (rho2 n sw rho)) (W x y)) /\ Forall (fun o => (orb_of o < M)%nat) (W x y) /\
     kaps (fun k => zpm (sg (site n k))) (W x y) = 1%Z) ->
  coupling RRing n J' W' (tau t) (tau s) = rth t * rth s * coupling RRing n J W t s.
Proof.
  intros Hs Ht HJ HW. apply coupling_rel. intros x y Hx Hy. destruct (HJ x y Hx Hy) as [-> Z]. destruct (HW x y Hx Hy) as (E & F & K). destruct (Bool.bool_dec hole true) as [EH|EH].
  - rewrite (Z EH). ring.
  - apply not_true_is_false in EH. rewrite (E EH), elem_img, K by auto. change (z2r 1) with 1. ring.
Qed.
Lemma zpm_sq b c : (zpm b * (zpm c * (zpm b * (zpm c * 1))) = 1)%Z /\ (zpm b * (zpm b * (zpm c * (zpm c * 1))) = 1)%Z.
Proof. destruct b, c; split; reflexivity. Qed.
Lemma exch_word_rel a b x y : (a < 2)%nat -> (b < 2)%nat -> (x < n)%nat -> (y < n)%nat ->
  (hole = false -> exch_word n (rho x) (rho y) (spin' sw a) (spin' sw b) = map (flip_op hole (rho2 n sw rho)) (exch_word n x y a b)) /\ Forall (fun o => (orb_of o < M)%nat) (exch_word n x y a b) /\
  kaps (fun k => zpm (sg (site n k))) (exch_word n x y a b) = 1%Z.
Proof.
  intros Ha Hb Hx Hy. split; [|split].
  - intros EH. unfold exch_word. cbn [map flip_op]. rewrite EH. cbn [tr_op negb]. rewrite !rho2_orb by auto. reflexivity.
  - unfold exch_word. repeat constructor; cbn [orb_of]; now apply orb_lt.
  - unfold exch_word, kaps. cbn [fold_right orb_of]. rewrite !site_orb by auto. apply zpm_sq.
Qed.
Lemma pair_word_rel a x y : (a < 2)%nat -> (x < n)%nat -> (y < n)%nat ->
  (hole = false -> pair_word n (rho x) (rho y) (spin' sw a) = map (flip_op hole (rho2 n sw rho)) (pair_word n x y a)) /\ Forall (fun o => (orb_of o < M)%nat) (pair_word n x y a) /\
  kaps (fun k => zpm (sg (site n k))) (pair_word n x y a) = 1%Z.
Proof.
  intros Ha Hx Hy. assert (Hb : (1 - a < 2)%nat) by lia. split; [|split].
  - intros EH. unfold pair_word. cbn [map flip_op]. rewrite EH. cbn [tr_op negb]. rewrite !rho2_orb by auto. replace (1 - spin' sw a)%nat with (spin' sw (1 - a)) by (unfold spin'; destruct sw; lia). reflexivity.
  - unfold pair_word. repeat constructor; cbn [orb_of]; now apply orb_lt.
  - unfold pair_word, kaps. cbn [fold_right orb_of]. rewrite !site_orb by auto. apply zpm_sq.
Qed.
Lemma exch_rel J J' a b t s : (a < 2)%nat -> (b < 2)%nat -> small s -> small t -> (forall x y, (x < n)%nat -> (y < n)%nat -> J' (rho x) (rho y) = J x y /\ (hole = true -> J x y = 0)) ->
  coupling RRing n J' (fun i j => exch_word n i j (spin' sw a) (spin' sw b)) (tau t) (tau s) = rth t * rth s * coupling RRing n J (fun i j => exch_word n i j a b) t s.
Proof. intros. apply quartic_rel; auto. intros. now apply exch_word_rel. Qed.
Lemma pair_rel J J' a t s : (a < 2)%nat -> small s -> small t -> (forall x y, (x < n)%nat -> (y < n)%nat -> J' (rho x) (rho y) = J x y /\ (hole = true -> J x y = 0)) ->
  coupling RRing n J' (fun i j => pair_word n i j (spin' sw a)) (tau t) (tau s) = rth t * rth s * coupling RRing n J (fun i j => pair_word n i j a) t s.
Proof. intros. apply quartic_rel; auto. intros. now apply pair_word_rel. Qed.

(** The diagonal. *)
Lemma kvec_rel u d u' d' s x : (u < 2 ^ N.of_nat n)%N -> (u' < 2 ^ N.of_nat n)%N -> small (combine n u d) -> combine n u' d' = tau (combine n u d) -> (s < 2)%nat -> (x < n)%nat ->
  kvec n u' d' (spin' sw s) (rho x) = pm hole * kvec n u d s x.
Proof.
  intros Hu Hu' Hc E Hs Hx. pose proof (tf_occ _ _ _ _ _ _ HT (combine n u d) (x + s * n) Hc (orb_lt s x Hs Hx)) as Q. rewrite <- E, rho2_orb in Q by auto.
  assert (C : forall u d s x, (u < 2 ^ N.of_nat n)%N -> (s < 2)%nat -> (x < n)%nat -> occ (combine n u d) (x + s * n) = occ (match s with O => u | _ => d end) x).
  { clear. intros u d s x Hu Hs Hx. rewrite occ_combine by auto. destruct s as [|[|]]; [| |lia].
    - rewrite Nat.add_0_r. destruct (Nat.ltb_spec x n); [reflexivity|lia].
    - rewrite Nat.mul_1_l, Nat.add_sub. destruct (Nat.ltb_spec (x + n) n); [lia|reflexivity]. }
  rewrite !C in Q; auto; [|now apply spin'_lt|now apply (rel_rho _ _ _ _ _ _ _ HRel)]. unfold kvec, rnum. rewrite Q. destruct hole, (occ _ x); cbn [xorb negb pm]; lra.
Qed.
Lemma energy_rel u d u' d' : (u < 2 ^ N.of_nat n)%N -> (u' < 2 ^ N.of_nat n)%N -> small (combine n u d) -> combine n u' d' = tau (combine n u d) ->
  centred_energy n P' u' d' = centred_energy n P u d.
Proof.
  intros Hu Hu' Hc E. pose proof (kvec_rel u d u' d') as KV. set (HRr := rel_rho _ _ _ _ _ _ _ HRel).
  assert (S2 : forall (f : nat -> R), f (spin' sw 0) + f (spin' sw 1) = f 0%nat + f 1%nat) by (intros f; unfold spin'; destruct sw; cbn; lra).
  assert (M2 : forall (f : nat -> R), f (spin' sw 0) * f (spin' sw 1) = f 0%nat * f 1%nat) by (intros f; unfold spin'; destruct sw; cbn; ring).
  unfold centred_energy. f_equal.
  - rewrite <- (rsum_renumber n rho _ HRr). apply rsum_ext. intros x Hx. rewrite (rel_U _ _ _ _ _ _ _ HRel) by auto.
    rewrite <- (S2 (fun s => centred n P' s (rho x) * kvec n u' d' s (rho x))), <- (M2 (fun s => kvec n u' d' s (rho x))).
    rewrite !KV, !(rel_e _ _ _ _ _ _ _ HRel) by (auto; lia). pose proof (pm_sq hole) as Q.
    transitivity (pm hole * pm hole * (centred n P 0 x * kvec n u d 0 x + centred n P 1 x * kvec n u d 1 x + P_U P x x * (kvec n u d 0 x * kvec n u d 1 x))); [ring|rewrite Q; ring].
  - f_equal. rewrite <- (rsum_renumber n rho _ HRr). apply rsum_ext. intros x Hx. rewrite <- (rsum_renumber n rho _ HRr). apply rsum_ext. intros y Hy.
    assert (EB : (rho x =? rho y)%nat = (x =? y)%nat).
    { destruct (Nat.eqb_spec x y) as [->|NE]; [apply Nat.eqb_refl|]. apply Nat.eqb_neq. intros C. apply NE. now apply (proj2 HRr). }
    rewrite EB. destruct (x =? y)%nat; [reflexivity|]. rewrite (rel_U _ _ _ _ _ _ _ HRel) by auto.
    rewrite <- (S2 (fun s => kvec n u' d' s (rho x))), <- (S2 (fun s => kvec n u' d' s (rho y))), !KV by (auto; lia). pose proof (pm_sq hole) as Q.
    transitivity (pm hole * pm hole * (P_U P x y * ((kvec n u d 0 x + kvec n u d 1 x) * (kvec n u d 0 y + kvec n u d 1 y)))); [ring|rewrite Q; ring].
Qed.

Definition ham_of (P : params) (ub db ua da : N) : R :=
  hamiltonian RRing (/ 2) (- 1) n (P_e P) (P_U P) (P_z P) (P_hf P) (P_T P) (P_Jx P) (P_Jp P) ub db ua da.
Theorem ham_rel ub db ua da ub' db' ua' da' : (ub < 2 ^ N.of_nat n)%N -> (db < 2 ^ N.of_nat n)%N -> (ua < 2 ^ N.of_nat n)%N -> (da < 2 ^ N.of_nat n)%N ->
  (ub' < 2 ^ N.of_nat n)%N -> (db' < 2 ^ N.of_nat n)%N -> (ua' < 2 ^ N.of_nat n)%N -> (da' < 2 ^ N.of_nat n)%N ->
  combine n ub' db' = tau (combine n ub db) -> combine n ua' da' = tau (combine n ua da) ->
  ham_of P' ub' db' ua' da' = rth (combine n ub db) * rth (combine n ua da) * ham_of P ub db ua da + (if N.eqb (combine n ub db) (combine n ua da) then offset n P' - offset n P else 0).
Proof.
  intros Bub Bdb Bua Bda Bub' Bdb' Bua' Bda' Eb Ea. set (t := combine n ub db) in *. set (s := combine n ua da) in *.
  assert (Ht : small t) by (now apply combine_lt). assert (Hs : small s) by (now apply combine_lt).
  unfold ham_of, hamiltonian. cbv zeta. fold t s. rewrite Eb, Ea.
  assert (EQ : N.eqb (tau t) (tau s) = N.eqb t s).
  { destruct (N.eqb_spec t s) as [->|NE]; [apply N.eqb_refl|]. apply N.eqb_neq. intros C. apply NE. now apply (tf_inj _ _ _ _ _ _ HT). }
  rewrite EQ, !energy_centred.
  assert (HOP : hop_op RRing n (P_T P' 0%nat) 0 (tau t) (tau s) + hop_op RRing n (P_T P' 1%nat) 1 (tau t) (tau s) = rth t * rth s * (hop_op RRing n (P_T P 0%nat) 0 t s + hop_op RRing n (P_T P 1%nat) 1 t s)).
  { rewrite Rmult_plus_distr_l, <- !hop_rel by (auto; lia). unfold spin'. destruct sw; cbn [Nat.sub]; lra. }
  assert (X1 : exch_same RRing (/ 2) n (P_Jx P') (tau t) (tau s) = rth t * rth s * exch_same RRing (/ 2) n (P_Jx P) t s).
  { unfold exch_same. pose proof (exch_rel (P_Jx P) (P_Jx P') 0 0 t s ltac:(lia) ltac:(lia) Hs Ht (rel_Jx _ _ _ _ _ _ _ HRel)) as A. pose proof (exch_rel (P_Jx P) (P_Jx P') 1 1 t s ltac:(lia) ltac:(lia) Hs Ht (rel_Jx _ _ _ _ _ _ _ HRel)) as B.
    match goal with |- ?x = _ => change x with (/ 2 * (coupling RRing n (P_Jx P') (fun i j => exch_word n i j 0 0) (tau t) (tau s) + coupling RRing n (P_Jx P') (fun i j => exch_word n i j 1 1) (tau t) (tau s))) end.
    match goal with |- _ = _ * ?x => change x with (/ 2 * (coupling RRing n (P_Jx P) (fun i j => exch_word n i j 0 0) t s + coupling RRing n (P_Jx P) (fun i j => exch_word n i j 1 1) t s)) end.
    unfold spin' in A, B. destruct sw; cbn [Nat.sub] in A, B; rewrite A, B; rring. }
  assert (X2 : exch_opp RRing (/ 2) n (P_Jx P') (tau t) (tau s) = rth t * rth s * exch_opp RRing (/ 2) n (P_Jx P) t s).
  { unfold exch_opp. pose proof (exch_rel (P_Jx P) (P_Jx P') 0 1 t s ltac:(lia) ltac:(lia) Hs Ht (rel_Jx _ _ _ _ _ _ _ HRel)) as A. pose proof (exch_rel (P_Jx P) (P_Jx P') 1 0 t s ltac:(lia) ltac:(lia) Hs Ht (rel_Jx _ _ _ _ _ _ _ HRel)) as B.
    match goal with |- ?x = _ => change x with (/ 2 * (coupling RRing n (P_Jx P') (fun i j => exch_word n i j 0 1) (tau t) (tau s) + coupling RRing n (P_Jx P') (fun i j => exch_word n i j 1 0) (tau t) (tau s))) end.
    match goal with |- _ = _ * ?x => change x with (/ 2 * (coupling RRing n (P_Jx P) (fun i j => exch_word n i j 0 1) t s + coupling RRing n (P_Jx P) (fun i j => exch_word n i j 1 0) t s)) end.
    unfold spin' in A, B. destruct sw; cbn [Nat.sub] in A, B; rewrite A, B; rring. }
  assert (X3 : pair_hop RRing (/ 2) n (P_Jp P') (tau t) (tau s) = rth t * rth s * pair_hop RRing (/ 2) n (P_Jp P) t s).
  { unfold pair_hop. pose proof (pair_rel (P_Jp P) (P_Jp P') 0 t s ltac:(lia) Hs Ht (rel_Jp _ _ _ _ _ _ _ HRel)) as A. pose proof (pair_rel (P_Jp P) (P_Jp P') 1 t s ltac:(lia) Hs Ht (rel_Jp _ _ _ _ _ _ _ HRel)) as B.
    match goal with |- ?x = _ => change x with (/ 2 * (coupling RRing n (P_Jp P') (fun i j => pair_word n i j 0) (tau t) (tau s) + coupling RRing n (P_Jp P') (fun i j => pair_word n i j 1) (tau t) (tau s))) end.
    match goal with |- _ = _ * ?x => change x with (/ 2 * (coupling RRing n (P_Jp P) (fun i j => pair_word n i j 0) t s + coupling RRing n (P_Jp P) (fun i j => pair_word n i j 1) t s)) end.
    unfold spin' in A, B. destruct sw; cbn [Nat.sub] in A, B; rewrite A, B; rring. }
  set (h1 := hop_op RRing n (P_T P' 0%nat) 0 (tau t) (tau s)) in *. set (h2 := hop_op RRing n (P_T P' 1%nat) 1 (tau t) (tau s)) in *. set (g1 := hop_op RRing n (P_T P 0%nat) 0 t s) in *. set (g2 := hop_op RRing n (P_T P 1%nat) 1 t s) in *.
  set (y1 := exch_same RRing (/ 2) n (P_Jx P) t s) in *. set (y2 := exch_opp RRing (/ 2) n (P_Jx P) t s) in *. set (y3 := pair_hop RRing (/ 2) n (P_Jp P) t s) in *. rewrite X1, X2, X3.
  assert (G : forall D D' k, D' = rth t * rth s * D + k -> D' + h1 + h2 + rth t * rth s * y1 + - 1 * (rth t * rth s * y2) + rth t * rth s * y3 = rth t * rth s * (D + g1 + g2 + y1 + - 1 * y2 + y3) + k).
  { intros D D' k ED. rewrite ED. replace (rth t * rth s * D + k + h1 + h2) with (rth t * rth s * D + k + (h1 + h2)) by ring. rewrite HOP. ring. }
  apply G. destruct (N.eqb_spec t s) as [Ets|NE].
  - assert (Q : rth t * rth s = 1) by (rewrite <- Ets; apply sign_sq, rth_sign; exact Ht). rewrite Q. rewrite (energy_rel ua da ua' da') by auto. ring.
  - change (c0 RRing) with 0. ring.
Qed.
End Rel.
