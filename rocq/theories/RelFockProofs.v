(** Permutations of orbitals, signs of orbitals and exchange of electrons and holes, as
    transformations of the Fock space. *)
From Coq Require Import Reals List Arith NArith ZArith Bool Lia Ring Permutation.
From Verif Require Import Base OperatorsModel OperatorsSpec OperatorsProofs SectorModel FockSpec FockProofs FlipProofs SymSpec SymProofs.
Import ListNotations.
Local Open Scope nat_scope.

(** ** Sums *)
Lemma nsum_renumber (K : CRing) n pi (f : nat -> K) : renumbering n pi -> nsum n (fun k => f (pi k)) = nsum n f.
Proof.
  intros H. unfold nsum. rewrite <- (bsum_map K f pi). pose proof (perm_seq n pi H) as P. revert P. generalize (map pi (seq 0 n)) (seq 0 n). clear. intros q q' P.
  induction P as [|x l l' P IH|x y l|l l' l'' P1 IH1 P2 IH2]; cbn; [reflexivity|now rewrite IH| |congruence].
  rewrite !(Radd_assoc (cth K)). f_equal. apply (Radd_comm (cth K)).
Qed.
Notation zsum := (@nsum ZRing).
Definition bit (s : N) (k : nat) : Z := if occ s k then 1%Z else 0%Z.
Lemma nocc_zsum M s a : a <= M -> Z.of_nat (nocc s a M) = zsum M (fun k => (if (a <=? k)%nat then bit s k else 0)%Z).
Proof.
  intros Ha. replace M with (a + (M - a)) by lia. rewrite (nsum_split ZRing). rewrite (nsum_0 ZRing a) by (intros i Hi; destruct (Nat.leb_spec a i); [lia|reflexivity]).
  change (cadd ZRing) with Z.add. change (c0 ZRing) with 0%Z. rewrite Z.add_0_l. unfold nocc. replace (a + (M - a) - a) with (M - a) by lia. generalize (M - a). clear. intros m.
  rewrite (nsum_ext ZRing m _ (fun i => bit s (a + i))) by (intros i _; destruct (Nat.leb_spec a (a + i)); [reflexivity|lia]).
  revert a. induction m as [|m IH]; intros a; [reflexivity|]. rewrite (nsum_S_l ZRing). cbn [seq filter]. rewrite Nat.add_0_r. change (cadd ZRing) with Z.add.
  rewrite (nsum_ext ZRing m (fun i => bit s (a + S i)) (fun i => bit s (S a + i))) by (intros; f_equal; lia). rewrite <- (IH (S a)). unfold bit. destruct (occ s a); cbn [length]; lia.
Qed.
Definition zpar (x : Z) : Z := if Z.even x then 1%Z else (-1)%Z.
Lemma zpar_nat m : zpar (Z.of_nat m) = parity_sign m.
Proof. unfold zpar, parity_sign. replace (Z.even (Z.of_nat m)) with (Nat.even m); [reflexivity|]. induction m as [|m IH]; [reflexivity|]. rewrite Nat2Z.inj_succ, Z.even_succ, <- Z.negb_even, <- IH, Nat.even_succ, <- Nat.negb_even. reflexivity. Qed.
Lemma zpar_add x y : zpar (x + y) = (zpar x * zpar y)%Z.
Proof. unfold zpar. rewrite Z.even_add. destruct (Z.even x), (Z.even y); reflexivity. Qed.
Lemma zpar_twice x : zpar (x + x) = 1%Z.
Proof. rewrite zpar_add. unfold zpar. destruct (Z.even x); reflexivity. Qed.
Definition zsign (x : Z) : Prop := x = 1%Z \/ x = (-1)%Z.
Lemma zpar_sign x : zsign (zpar x).
Proof. unfold zpar, zsign. destruct (Z.even x); auto. Qed.
Lemma zsign_sq x : zsign x -> (x * x = 1)%Z.
Proof. intros [->| ->]; reflexivity. Qed.
Lemma zsign_mul x y : zsign x -> zsign y -> zsign (x * y).
Proof. intros [->| ->] [->| ->]; unfold zsign; auto. Qed.

(** ** Transformations *)
Definition tr_op (hole : bool) (i : nat) : ladder_op := if hole then An i else Cr i.
Definition flip_op (hole : bool) (rho : nat -> nat) (o : ladder_op) : ladder_op := match o with Cr i => tr_op hole (rho i) | An i => tr_op (negb hole) (rho i) end.
Record trafo (M : nat) (hole : bool) (rho : nat -> nat) (kap : nat -> Z) (tau : N -> N) (th : N -> Z) : Prop := mktrafo {
  tf_rho : forall i, i < M -> rho i < M;
  tf_kap : forall i, i < M -> zsign (kap i);
  tf_th : forall s, (s < 2 ^ N.of_nat M)%N -> zsign (th s);
  tf_lt : forall s, (s < 2 ^ N.of_nat M)%N -> (tau s < 2 ^ N.of_nat M)%N;
  tf_occ : forall s i, (s < 2 ^ N.of_nat M)%N -> i < M -> occ (tau s) (rho i) = xorb hole (occ s i);
  tf_app : forall s i z t, (s < 2 ^ N.of_nat M)%N -> i < M -> app1 M (Cr i) s = Some (z, t) -> app1 M (tr_op hole (rho i)) (tau s) = Some ((kap i * z * th s * th t)%Z, tau t) }.

Section Use.
Variables (M : nat) (hole : bool) (rho : nat -> nat) (kap : nat -> Z) (tau : N -> N) (th : N -> Z).
Hypothesis HT : trafo M hole rho kap tau th.
Definition orb_of (o : ladder_op) : nat := match o with Cr i | An i => i end.
Lemma tf_inj s t : (s < 2 ^ N.of_nat M)%N -> (t < 2 ^ N.of_nat M)%N -> tau s = tau t -> s = t.
Proof.
  intros Hs Ht E. apply OperatorsProofs.occ_ext. intros k. destruct (Nat.lt_ge_cases k M); [|now rewrite !(occ_high _ M)].
  pose proof (tf_occ _ _ _ _ _ _ HT s k Hs H) as A. pose proof (tf_occ _ _ _ _ _ _ HT t k Ht H) as B. rewrite E in A. rewrite A in B. destruct hole, (occ s k), (occ t k); auto; discriminate.
Qed.
Lemma app1_small o s z t : (s < 2 ^ N.of_nat M)%N -> orb_of o < M -> app1 M o s = Some (z, t) -> (t < 2 ^ N.of_nat M)%N.
Proof.
  intros Hs Ho E. pose proof (app1_toggles _ _ _ _ _ E) as T. apply occ_lt_pow2. intros k Hk. rewrite T. fold (orb_of o). destruct (Nat.eqb_spec k (orb_of o)); [lia|]. now apply (occ_high _ M).
Qed.
Lemma tf_app1 o s z t : (s < 2 ^ N.of_nat M)%N -> orb_of o < M -> app1 M o s = Some (z, t) -> app1 M (flip_op hole rho o) (tau s) = Some ((kap (orb_of o) * z * th s * th t)%Z, tau t).
Proof.
  intros Hs Ho E. destruct o as [i|i]; cbn [flip_op orb_of] in *; [now apply (tf_app _ _ _ _ _ _ HT)|].
  pose proof (app1_small (An i) s z t Hs Ho E) as Ht. pose proof (app1_adj _ _ _ _ _ E) as E'. cbn [adj] in E'. pose proof (tf_app _ _ _ _ _ _ HT t i z s Ht Ho E') as Q. apply app1_adj in Q.
  replace (adj (tr_op hole (rho i))) with (tr_op (negb hole) (rho i)) in Q by (destruct hole; reflexivity). rewrite Q. do 2 f_equal. ring.
Qed.
Lemma tf_app1_none o s : (s < 2 ^ N.of_nat M)%N -> orb_of o < M -> app1 M o s = None -> app1 M (flip_op hole rho o) (tau s) = None.
Proof.
  intros Hs Ho E. destruct o as [i|i]; cbn [flip_op orb_of app1] in *; pose proof (tf_occ _ _ _ _ _ _ HT s i Hs Ho) as Q; destruct (occ s i); try discriminate; destruct hole; cbn [tr_op negb app1]; rewrite Q; reflexivity.
Qed.
Definition kaps (l : list ladder_op) : Z := fold_right (fun o z => (kap (orb_of o) * z)%Z) 1%Z l.
Lemma tf_word l : forall s, (s < 2 ^ N.of_nat M)%N -> Forall (fun o => orb_of o < M) l ->
  word M (map (flip_op hole rho) l) (tau s) = match word M l s with None => None | Some (z, t) => Some ((kaps l * z * th s * th t)%Z, tau t) end /\
  forall z t, word M l s = Some (z, t) -> (t < 2 ^ N.of_nat M)%N.
Proof.
  induction l as [|o l IH]; intros s Hs F.
  - cbn [map word]. split; [|intros z t E; injection E as <- <-; auto]. pose proof (zsign_sq _ (tf_th _ _ _ _ _ _ HT s Hs)). do 2 f_equal. cbn [kaps fold_right]. nia.
  - inversion F as [|? ? Ho F']; subst. destruct (IH s Hs F') as [W S]. cbn [map word]. rewrite W. destruct (word M l s) as [[z t]|]; [|split; [reflexivity|discriminate]].
    specialize (S z t eq_refl). destruct (app1 M o t) as [[z' t']|] eqn:A.
    + rewrite (tf_app1 o t z' t' S Ho A). split; [|intros ? ? E; injection E as <- <-; now apply (app1_small o t z' t')].
      do 2 f_equal. pose proof (zsign_sq _ (tf_th _ _ _ _ _ _ HT t S)) as Q. cbn [kaps fold_right]. fold (kaps l).
      transitivity (kap (orb_of o) * kaps l * z' * z * th s * th t' * (th t * th t))%Z; [ring|]. rewrite Q. ring.
    + rewrite (tf_app1_none o t S Ho A). split; [reflexivity|discriminate].
Qed.
Lemma tf_elem l t s : (s < 2 ^ N.of_nat M)%N -> (t < 2 ^ N.of_nat M)%N -> Forall (fun o => orb_of o < M) l ->
  elem M (map (flip_op hole rho) l) (tau t) (tau s) = (kaps l * th s * th t * elem M l t s)%Z.
Proof.
  intros Hs Ht F. unfold elem. destruct (tf_word l s Hs F) as [-> S]. destruct (word M l s) as [[z u]|]; [|ring]. specialize (S z u eq_refl).
  destruct (N.eqb_spec u t) as [->|NE]; [rewrite N.eqb_refl; ring|]. destruct (N.eqb_spec (tau u) (tau t)) as [E|]; [|ring]. exfalso. apply NE. now apply tf_inj.
Qed.
End Use.
Lemma trafo_comp M h1 r1 k1 t1 th1 h2 r2 k2 t2 th2 : trafo M h1 r1 k1 t1 th1 -> trafo M h2 r2 k2 t2 th2 ->
  trafo M (xorb h1 h2) (fun i => r2 (r1 i)) (fun i => (k2 (r1 i) * k1 i)%Z) (fun s => t2 (t1 s)) (fun s => (th1 s * th2 (t1 s))%Z).
Proof.
  intros A B. constructor.
  - intros i Hi. now apply (tf_rho _ _ _ _ _ _ B), (tf_rho _ _ _ _ _ _ A).
  - intros i Hi. apply zsign_mul; [apply (tf_kap _ _ _ _ _ _ B), (tf_rho _ _ _ _ _ _ A)|apply (tf_kap _ _ _ _ _ _ A)]; auto.
  - intros s Hs. apply zsign_mul; [apply (tf_th _ _ _ _ _ _ A)|apply (tf_th _ _ _ _ _ _ B), (tf_lt _ _ _ _ _ _ A)]; auto.
  - intros s Hs. now apply (tf_lt _ _ _ _ _ _ B), (tf_lt _ _ _ _ _ _ A).
  - intros s i Hs Hi. rewrite (tf_occ _ _ _ _ _ _ B), (tf_occ _ _ _ _ _ _ A); auto; [|now apply (tf_lt _ _ _ _ _ _ A)|now apply (tf_rho _ _ _ _ _ _ A)]. destruct h1, h2, (occ s i); reflexivity.
  - intros s i z t Hs Hi E. assert (Ht : (t < 2 ^ N.of_nat M)%N) by (now apply (app1_small M (Cr i) s z t)).
    pose proof (tf_app _ _ _ _ _ _ A s i z t Hs Hi E) as E1.
    pose proof (tf_app1 M h2 r2 k2 t2 th2 B (tr_op h1 (r1 i)) (t1 s) _ _ (tf_lt _ _ _ _ _ _ A s Hs) ltac:(destruct h1; cbn [tr_op orb_of]; now apply (tf_rho _ _ _ _ _ _ A)) E1) as E2.
    replace (flip_op h2 r2 (tr_op h1 (r1 i))) with (tr_op (xorb h1 h2) (r2 (r1 i))) in E2 by (destruct h1, h2; reflexivity). rewrite E2. do 2 f_equal. destruct h1; cbn [tr_op orb_of]; ring.
Qed.

(** ** Signs of orbitals *)
Definition gauge (M : nat) (eta : nat -> Z) (s : N) : Z := fold_right Z.mul 1%Z (map (fun i => if occ s i then eta i else 1%Z) (seq 0 M)).
Lemma gauge_set M eta s i : i < M -> occ s i = false -> gauge M eta (N.setbit s (N.of_nat i)) = (eta i * gauge M eta s)%Z.
Proof.
  intros Hi O. unfold gauge. assert (G : forall l, NoDup l -> fold_right Z.mul 1%Z (map (fun j => if occ (N.setbit s (N.of_nat i)) j then eta j else 1%Z) l) =
    ((if in_dec Nat.eq_dec i l then eta i else 1) * fold_right Z.mul 1 (map (fun j => if occ s j then eta j else 1) l))%Z).
  { induction l as [|j l IH]; intros ND; [reflexivity|]. inversion ND as [|? ? NI ND']; subst. cbn [map fold_right]. rewrite IH by auto. rewrite occ_setbit.
    destruct (Nat.eqb_spec j i) as [->|NE]; cbn [orb].
    - rewrite O. destruct (in_dec Nat.eq_dec i l); [tauto|]. destruct (in_dec Nat.eq_dec i (i :: l)) as [_|C]; [|exfalso; apply C; now left]. cbn [orb]. ring.
    - cbn [orb]. destruct (in_dec Nat.eq_dec i l), (in_dec Nat.eq_dec i (j :: l)) as [C|C]; try ring.
      + exfalso. apply C. now right.
      + exfalso. destruct C; [congruence|tauto]. }
  rewrite G by apply seq_NoDup. destruct (in_dec Nat.eq_dec i (seq 0 M)) as [_|C]; [reflexivity|]. exfalso. apply C, in_seq. lia.
Qed.
Lemma gauge_sign M eta s : (forall i, i < M -> zsign (eta i)) -> zsign (gauge M eta s).
Proof.
  intros H. unfold gauge. assert (G : forall l, (forall i, In i l -> i < M) -> zsign (fold_right Z.mul 1%Z (map (fun i => if occ s i then eta i else 1%Z) l))).
  { induction l as [|i l IH]; intros B; [now left|]. cbn [map fold_right]. apply zsign_mul; [|apply IH; intros; apply B; now right]. destruct (occ s i); [apply H, B; now left|now left]. }
  apply G. intros i Hi. apply in_seq in Hi. lia.
Qed.
Lemma trafo_gauge M eta : (forall i, i < M -> zsign (eta i)) -> trafo M false (fun i => i) eta (fun s => s) (gauge M eta).
Proof.
  intros H. constructor; auto.
  - intros. now apply gauge_sign.
  - intros s i _ _. now destruct (occ s i).
  - intros s i z t Hs Hi E. cbn [tr_op]. rewrite E. do 2 f_equal. cbn [app1] in E. destruct (occ s i) eqn:O; [discriminate|]. injection E as _ <-.
    rewrite gauge_set by auto. pose proof (zsign_sq _ (H i Hi)). pose proof (zsign_sq _ (gauge_sign M eta s H)).
    transitivity (z * (eta i * eta i) * (gauge M eta s * gauge M eta s))%Z; [rewrite H0, H1; ring|ring].
Qed.

(** ** Electrons and holes *)
Definition hole_state (M : nat) (s : N) : N := N.lnot s (N.of_nat M).
Lemma occ_hole M s k : k < M -> occ (hole_state M s) k = negb (occ s k).
Proof. intros H. unfold occ, hole_state. apply N.lnot_spec_low. lia. Qed.
Lemma hole_lt M s : (s < 2 ^ N.of_nat M)%N -> (hole_state M s < 2 ^ N.of_nat M)%N.
Proof. intros H. apply occ_lt_pow2. intros k Hk. unfold occ, hole_state. rewrite N.lnot_spec_high by lia. now apply (occ_high _ M). Qed.
Lemma nocc_hole M s a : a <= M -> nocc (hole_state M s) a M + nocc s a M = M - a.
Proof.
  intros Ha. unfold nocc. transitivity (length (seq a (M - a))); [|apply seq_length].
  assert (G : forall l, (forall k, In k l -> k < M) -> length (filter (occ (hole_state M s)) l) + length (filter (occ s) l) = length l).
  { induction l as [|k l IH]; intros B; [reflexivity|]. cbn [filter]. rewrite occ_hole by (apply B; now left). specialize (IH ltac:(intros; apply B; now right)). destruct (occ s k); cbn [negb length]; lia. }
  apply G. intros k Hk. apply in_seq in Hk. lia.
Qed.
Lemma trafo_hole M : trafo M true (fun i => i) (fun i => parity_sign (M - S i)) (hole_state M) (fun _ => 1%Z).
Proof.
  constructor; auto.
  - intros i Hi. rewrite <- zpar_nat. apply zpar_sign.
  - intros. now left.
  - intros. now apply hole_lt.
  - intros s i _ Hi. now apply occ_hole.
  - intros s i z t Hs Hi E. cbn [tr_op app1] in *. destruct (occ s i) eqn:O; [discriminate|]. injection E as <- <-. rewrite occ_hole, O by auto. cbn [negb]. do 2 f_equal.
    + pose proof (nocc_hole M s (S i) ltac:(lia)) as Q. rewrite <- Q. rewrite par_add. pose proof (par_sq (nocc s (S i) M)) as P.
      transitivity (parity_sign (nocc (hole_state M s) (S i) M) * (parity_sign (nocc s (S i) M) * parity_sign (nocc s (S i) M)))%Z; [rewrite P; ring|ring].
    + apply OperatorsProofs.occ_ext. intros k. destruct (Nat.lt_ge_cases k M).
      * rewrite occ_clearbit, !occ_hole, occ_setbit by auto. destruct (Nat.eqb_spec k i); cbn; auto.
      * rewrite !(occ_high _ M); auto; [apply hole_lt, setbit_lt; auto|apply clearbit_lt, hole_lt; auto].
Qed.

(** ** Permutations of orbitals *)
Definition build (M : nat) (f : nat -> bool) : N := fold_right (fun k a => if f k then N.setbit a (N.of_nat k) else a) 0%N (seq 0 M).
Lemma occ_build M f k : occ (build M f) k = (k <? M) && f k.
Proof.
  unfold build. assert (G : forall l, occ (fold_right (fun k a => if f k then N.setbit a (N.of_nat k) else a) 0%N l) k = (if in_dec Nat.eq_dec k l then f k else false)).
  { induction l as [|j l IH]; [unfold occ; now rewrite N.bits_0|]. cbn [fold_right]. destruct (f j) eqn:F.
    - rewrite occ_setbit, IH. destruct (Nat.eqb_spec k j) as [->|NE]; cbn [orb].
      + destruct (in_dec Nat.eq_dec j (j :: l)) as [_|C]; [auto|exfalso; apply C; now left].
      + destruct (in_dec Nat.eq_dec k l), (in_dec Nat.eq_dec k (j :: l)) as [C|C]; auto; exfalso; [apply C; now right|destruct C; [congruence|tauto]].
    - rewrite IH. destruct (in_dec Nat.eq_dec k l), (in_dec Nat.eq_dec k (j :: l)) as [C|C]; auto; [exfalso; apply C; now right|]. destruct C; [congruence|tauto]. }
  rewrite G. destruct (in_dec Nat.eq_dec k (seq 0 M)) as [I|I].
  - apply in_seq in I. destruct (Nat.ltb_spec k M); [reflexivity|lia].
  - destruct (Nat.ltb_spec k M); [exfalso; apply I, in_seq; lia|reflexivity].
Qed.
Lemma build_lt M f : (build M f < 2 ^ N.of_nat M)%N.
Proof. apply occ_lt_pow2. intros k Hk. rewrite occ_build. destruct (Nat.ltb_spec k M); [lia|reflexivity]. Qed.

Section Perm.
Variables (M : nat) (rho inv : nat -> nat).
Hypothesis HR : renumbering M rho.
Hypothesis HI : forall i, i < M -> inv (rho i) = i.
Definition perm_state (s : N) : N := build M (fun k => occ s (inv k)).
Lemma occ_perm s i : i < M -> occ (perm_state s) (rho i) = occ s i.
Proof. intros Hi. unfold perm_state. rewrite occ_build, HI by auto. destruct (Nat.ltb_spec (rho i) M); [reflexivity|]. apply HR in Hi. lia. Qed.
Definition cross (i j : nat) : Z := if ((i <? j) && (rho j <? rho i))%bool then 1%Z else 0%Z.
Definition crossings (s : N) : Z := zsum M (fun i => zsum M (fun j => (cross i j * (bit s i * bit s j))%Z)).
Ltac zring := match goal with |- @eq _ ?a ?b => change (@eq Z a b) end; ring.
Lemma rho_surj k : k < M -> exists i, i < M /\ rho i = k.
Proof.
  intros Hk. assert (I : In k (map rho (seq 0 M))).
  { apply (Permutation_in (l := seq 0 M)); [symmetry; apply perm_seq, HR|apply in_seq; lia]. }
  apply in_map_iff in I. destruct I as (i & <- & Hi). apply in_seq in Hi. exists i. split; [lia|reflexivity].
Qed.
Lemma crossings_set s x : x < M -> occ s x = false ->
  crossings (N.setbit s (N.of_nat x)) = (crossings s + zsum M (fun j => cross x j * bit s j)%Z + zsum M (fun i => cross i x * bit s i)%Z)%Z.
Proof.
  intros Hx O. set (t := N.setbit s (N.of_nat x)). assert (B : forall k, bit t k = (bit s k + (if (k =? x)%nat then 1 else 0))%Z).
  { intros k. unfold bit, t. rewrite occ_setbit. destruct (Nat.eqb_spec k x) as [->|]; cbn [orb]; [now rewrite O|]. destruct (occ s k); reflexivity. }
  unfold crossings. transitivity (zsum M (fun i => zsum M (fun j => cross i j * (bit s i * bit s j))%Z + (if (i =? x)%nat then zsum M (fun j => cross x j * bit s j)%Z else 0) + cross i x * bit s i)%Z).
  - apply (nsum_ext ZRing). intros i Hi. transitivity (zsum M (fun j => cross i j * (bit s i * bit s j) + (if (i =? x)%nat then cross x j * bit s j else 0) + (if (j =? x)%nat then cross i x * bit s i else 0))%Z).
    + apply (nsum_ext ZRing). intros j Hj. rewrite !B. destruct (Nat.eqb_spec i x) as [->|], (Nat.eqb_spec j x) as [->|]; try zring.
      assert (C : cross x x = 0%Z) by (unfold cross; rewrite Nat.ltb_irrefl; reflexivity). rewrite C. zring.
    + change Z.add with (cadd ZRing). rewrite !(nsum_add ZRing). f_equal; [f_equal|].
      * destruct (i =? x); [reflexivity|]. now apply (nsum_0 ZRing).
      * rewrite (nsum_single ZRing M _ x Hx); [now rewrite Nat.eqb_refl|]. intros j _ N. apply Nat.eqb_neq in N. now rewrite N.
  - change Z.add with (cadd ZRing). rewrite !(nsum_add ZRing). f_equal. f_equal. rewrite (nsum_single ZRing M _ x Hx); [now rewrite Nat.eqb_refl|]. intros i _ N. apply Nat.eqb_neq in N. now rewrite N.
Qed.
Lemma perm_nocc s x : x < M -> Z.of_nat (nocc (perm_state s) (S (rho x)) M) = zsum M (fun i => if (rho x <? rho i)%nat then bit s i else 0)%Z.
Proof.
  intros Hx. pose proof (proj1 HR x Hx). rewrite nocc_zsum by lia. rewrite <- (nsum_renumber ZRing M rho (fun k => if (S (rho x) <=? k)%nat then bit (perm_state s) k else 0%Z) HR).
  apply (nsum_ext ZRing). intros i Hi. unfold Nat.ltb. destruct (S (rho x) <=? rho i); [|reflexivity]. unfold bit. now rewrite occ_perm.
Qed.
Lemma trafo_perm : trafo M false rho (fun _ => 1%Z) perm_state (fun s => zpar (crossings s)).
Proof.
  constructor.
  - apply HR.
  - intros. now left.
  - intros. apply zpar_sign.
  - intros. apply build_lt.
  - intros s i _ Hi. rewrite occ_perm by auto. now destruct (occ s i).
  - intros s x z t Hs Hx E. cbn [tr_op app1] in *. destruct (occ s x) eqn:O; [discriminate|]. injection E as <- <-. rewrite occ_perm, O by auto. do 2 f_equal.
    + rewrite crossings_set by auto. rewrite <- !zpar_nat, perm_nocc by auto. rewrite nocc_zsum by lia. rewrite Z.mul_1_l, <- !zpar_add.
      set (a := zsum M (fun j => cross x j * bit s j)%Z). set (b := zsum M (fun i => cross i x * bit s i)%Z). set (A := zsum M (fun i => if (rho x <? rho i)%nat then bit s i else 0)%Z).
      match goal with |- context[zsum M ?f] => set (B := zsum M f) end.
      assert (Q : (A + a = B + b)%Z).
      { unfold A, a, B, b. change Z.add with (cadd ZRing). rewrite <- !(nsum_add ZRing). apply (nsum_ext ZRing). intros i Hi. unfold cross. change (cadd ZRing) with Z.add.
        destruct (Nat.eq_dec i x) as [->|N]; [rewrite !Nat.ltb_irrefl; destruct (Nat.leb_spec (S x) x); [lia|reflexivity]|].
        assert (rho i <> rho x) by (intros C; apply N; now apply HR).
        destruct (Nat.ltb_spec (rho x) (rho i)), (Nat.leb_spec (S x) i), (Nat.ltb_spec x i), (Nat.ltb_spec (rho i) (rho x)), (Nat.ltb_spec i x); cbn [andb]; try lia. }
      replace (B + crossings s + (crossings s + a + b))%Z with (A + ((a + a) + (crossings s + crossings s)))%Z by lia. rewrite zpar_add, (zpar_add (a + a)), !zpar_twice. ring.
    + apply OperatorsProofs.occ_ext. intros k. destruct (Nat.lt_ge_cases k M).
      * destruct (rho_surj k H) as (i & Hi & <-). rewrite occ_setbit, !occ_perm, occ_setbit by auto.
        destruct (Nat.eqb_spec i x) as [->|N]; [now rewrite Nat.eqb_refl|]. destruct (Nat.eqb_spec (rho i) (rho x)) as [C|]; [exfalso; apply N; now apply HR|reflexivity].
      * rewrite !(occ_high _ M); auto; [apply build_lt|apply setbit_lt; [apply build_lt|now apply HR]].
Qed.
End Perm.
