(** Spectra, Green's functions and occupations of related models. *)
From Coq Require Import Reals List Arith NArith ZArith Bool Lia Lra Ring Permutation Factorial.
From Verif Require Import Base RBase RLin CBase OperatorsModel OperatorsSpec OperatorsProofs LookupModel LookupSpec LookupProofs SectorModel SectorSpec SectorProofs FockSpec FockProofs LocalModel LocalSpec HoppingModel CsrSpec NonLocalSpec
  MatvecModel MbModel MbSpec EspaceModel ProjModel ProjSpec ProjProofs ProjFinalProofs GfSpec GmSpec GmFockProofs SpectralProofs ExactMoreProofs FlipProofs SymSpec SymProofs RelSpec RelLinProofs RelFockProofs RelHamProofs.
Import ListNotations.
Local Open Scope R_scope.

Lemma binom_sym n p : (p <= n)%nat -> binom n (n - p) = binom n p.
Proof.
  intros H. pose proof (binom_fact n p H) as A. pose proof (binom_fact n (n - p) ltac:(lia)) as B. replace (n - (n - p))%nat with p in B by lia. rewrite (Nat.mul_comm (fact (n - p))) in B.
  pose proof (lt_O_fact p). pose proof (lt_O_fact (n - p)). apply (Nat.mul_cancel_r _ _ (fact p * fact (n - p))%nat); [nia|congruence].
Qed.
Lemma small_split n u : (u < 2 ^ N.of_nat (2 * n))%N -> exists a b, u = combine n a b /\ (a < 2 ^ N.of_nat n)%N /\ (b < 2 ^ N.of_nat n)%N.
Proof.
  intros H. pose proof (N.pow_nonzero 2 (N.of_nat n) ltac:(lia)) as NZ. exists (u mod 2 ^ N.of_nat n)%N, (u / 2 ^ N.of_nat n)%N. split; [|split].
  - unfold combine. rewrite (N.div_mod u (2 ^ N.of_nat n) NZ) at 1. lia.
  - now apply N.mod_lt.
  - apply N.div_lt_upper_bound; [exact NZ|]. rewrite <- N.pow_add_r. replace (N.of_nat n + N.of_nat n)%N with (N.of_nat (2 * n)) by lia. exact H.
Qed.
Lemma combine_parts n a b : (a < 2 ^ N.of_nat n)%N -> (combine n a b mod 2 ^ N.of_nat n = a)%N /\ (combine n a b / 2 ^ N.of_nat n = b)%N.
Proof.
  intros H. pose proof (N.pow_nonzero 2 (N.of_nat n) ltac:(lia)) as NZ. unfold combine. split.
  - rewrite N.mod_add by auto. now apply N.mod_small.
  - rewrite N.div_add by auto. rewrite N.div_small by auto. reflexivity.
Qed.
(** Electrons of one spin. *)
Definition count (n : nat) (s : nat) (u : N) : Z := zsum n (fun x => bit u (x + s * n)).
Lemma count_combine n a b : (a < 2 ^ N.of_nat n)%N -> (b < 2 ^ N.of_nat n)%N -> count n 0 (combine n a b) = Z.of_nat (popcount a) /\ count n 1 (combine n a b) = Z.of_nat (popcount b).
Proof.
  intros Ha Hb. unfold count. rewrite <- (nocc_popcount n a Ha), <- (nocc_popcount n b Hb), !nocc_zsum by lia. split; apply (nsum_ext ZRing); intros x Hx; unfold bit; rewrite occ_combine by auto.
  - rewrite Nat.mul_0_l, Nat.add_0_r. destruct (Nat.ltb_spec x n); [reflexivity|lia].
  - rewrite Nat.mul_1_l, Nat.add_sub. destruct (Nat.ltb_spec (x + n) n); [lia|reflexivity].
Qed.
Lemma sec_small n p q u : sec n p q u -> (u < 2 ^ N.of_nat (2 * n))%N.
Proof. intros (a & b & -> & [A _] & [B _]). now apply combine_lt. Qed.
Lemma sec_count n p q u : sec n p q u <-> (u < 2 ^ N.of_nat (2 * n))%N /\ count n 0 u = Z.of_nat p /\ count n 1 u = Z.of_nat q.
Proof.
  split.
  - intros S. split; [now apply (sec_small n p q)|]. destruct S as (a & b & -> & [A <-] & [B <-]). now apply count_combine.
  - intros (S & E0 & E1). destruct (small_split n u S) as (a & b & -> & A & B). destruct (count_combine n a b A B) as [C0 C1]. exists a, b. split; [reflexivity|]. split; split; auto; lia.
Qed.

(** ** Two families *)
(** Complete eigenbases of the matrix [Hm], all sectors, energies in ascending order. *)
Definition solved (n : nat) (Hm : N -> N -> R) (F : family) : Prop := forall p q, (p <= n)%nat -> (q <= n)%nat ->
  is_sector RRing n p q (F p q) /\ nvals (F p q) = sdim RRing (F p q) /\ sdim RRing (F p q) = (binom n p * binom n q)%nat /\
  eigen (sdim RRing (F p q)) (fun a b => Hm (basis RRing n (F p q) b) (basis RRing n (F p q) a)) (fun k a => nth a (vec RRing (F p q) k) 0) (energy (F p q)) /\
  forall j k, (j <= k)%nat -> (k < sdim RRing (F p q))%nat -> energy (F p q) j <= energy (F p q) k.

Section Two.
Variables (n : nat) (hole sw : bool) (rho : nat -> nat) (sg : nat -> bool) (tau : N -> N) (th : N -> Z) (Hm Hm' : N -> N -> R) (k0 : R).
Hypothesis HRr : renumbering n rho.
Hypothesis HT : trafo (2 * n) hole (rho2 n sw rho) (fun k => zpm (sg (site n k))) tau th.
Notation small := (fun s => (s < 2 ^ N.of_nat (2 * n))%N).
Notation rt := (rth th).
Hypothesis HH : forall p q t s, sec n p q t -> sec n p q s -> Hm' (tau t) (tau s) = rt t * rt s * Hm t s + (if N.eqb t s then k0 else 0).
Variables F F' : family.
Hypothesis HF : solved n Hm F. Hypothesis HF' : solved n Hm' F'.
Notation iu := (image_up n hole sw). Notation idw := (image_dw n hole sw).

Lemma image_le p q : (p <= n)%nat -> (q <= n)%nat -> (iu p q <= n)%nat /\ (idw p q <= n)%nat.
Proof. intros. unfold image_up, image_dw. destruct hole, sw; lia. Qed.
Lemma count_tau s u : (s < 2)%nat -> small u -> count n (spin' sw s) (tau u) = (if hole then Z.of_nat n - count n s u else count n s u)%Z.
Proof.
  intros Hs Hu. unfold count. rewrite <- (nsum_renumber ZRing n rho (fun x => bit (tau u) (x + spin' sw s * n)) HRr).
  assert (B : forall x, (x < n)%nat -> bit (tau u) (rho x + spin' sw s * n) = (if hole then 1 - bit u (x + s * n) else bit u (x + s * n))%Z).
  { intros x Hx. rewrite <- (rho2_orb n sw rho sg s x Hs Hx). unfold bit. rewrite (tf_occ _ _ _ _ _ _ HT) by (auto; nia). destruct hole, (occ u (x + s * n)); reflexivity. }
  rewrite (nsum_ext ZRing n _ _ B). clear B. destruct hole; [|reflexivity]. change Z.sub with (csub ZRing). rewrite (nsum_sub ZRing). f_equal.
  clear. induction n as [|m IH]; [reflexivity|]. rewrite (nsum_S ZRing), IH. change (cadd ZRing) with Z.add. lia.
Qed.
Lemma sec_tau p q u : sec n p q u -> sec n (iu p q) (idw p q) (tau u).
Proof.
  intros S. destruct (sec_bound n p q u S) as [Hp Hq]. apply sec_count in S. destruct S as (S & C0 & C1). apply sec_count. split; [now apply (tf_lt _ _ _ _ _ _ HT)|].
  pose proof (count_tau 0 u ltac:(lia) S) as A0. pose proof (count_tau 1 u ltac:(lia) S) as A1. rewrite C0 in A0. rewrite C1 in A1. unfold image_up, image_dw, spin' in *. destruct sw, hole; cbn [Nat.sub] in A0, A1; lia.
Qed.
Lemma image_dim p q : (p <= n)%nat -> (q <= n)%nat -> sdim RRing (F' (iu p q) (idw p q)) = sdim RRing (F p q).
Proof.
  intros Hp Hq. destruct (image_le p q Hp Hq) as [A B]. destruct (HF p q Hp Hq) as (_ & _ & -> & _). destruct (HF' _ _ A B) as (_ & _ & -> & _). unfold image_up, image_dw. destruct hole, sw; cbv zeta; rewrite ?binom_sym by auto; lia.
Qed.
Definition ix (p q a : nat) : nat :=
  match find (fun b => N.eqb (basis RRing n (F' (iu p q) (idw p q)) b) (tau (basis RRing n (F p q) a))) (seq 0 (sdim RRing (F p q))) with Some b => b | None => 0%nat end.
Lemma ix_spec p q a : (p <= n)%nat -> (q <= n)%nat -> (a < sdim RRing (F p q))%nat ->
  (ix p q a < sdim RRing (F p q))%nat /\ basis RRing n (F' (iu p q) (idw p q)) (ix p q a) = tau (basis RRing n (F p q) a).
Proof.
  intros Hp Hq Ha. destruct (image_le p q Hp Hq) as [A B]. destruct (HF p q Hp Hq) as (IS & _). destruct (HF' _ _ A B) as (IS' & _).
  destruct (basis_find n _ _ (F' (iu p q) (idw p q)) (tau (basis RRing n (F p q) a)) IS' (sec_tau p q _ (basis_sec n p q _ a IS Ha))) as (b & Hb & E). rewrite image_dim in Hb by auto.
  unfold ix. destruct (find _ _) as [c|] eqn:FE.
  - apply find_some in FE. destruct FE as [I E']. apply in_seq in I. apply N.eqb_eq in E'. split; [lia|exact E'].
  - exfalso. pose proof (find_none _ _ FE b ltac:(apply in_seq; lia)) as Q. cbv beta in Q. rewrite E, N.eqb_refl in Q. discriminate.
Qed.
Lemma basis_small p q a : (p <= n)%nat -> (q <= n)%nat -> (a < sdim RRing (F p q))%nat -> small (basis RRing n (F p q) a).
Proof. intros Hp Hq Ha. apply (sec_small n p q), basis_sec; auto. now apply HF. Qed.
Lemma ix_ren p q : (p <= n)%nat -> (q <= n)%nat -> renumbering (sdim RRing (F p q)) (ix p q).
Proof.
  intros Hp Hq. split; [intros a Ha; now apply ix_spec|]. intros a b Ha Hb E. destruct (HF p q Hp Hq) as (IS & _). apply (basis_inj n p q (F p q)); auto.
  apply (tf_inj _ _ _ _ _ _ HT); [now apply basis_small|now apply basis_small|]. rewrite <- (proj2 (ix_spec p q a Hp Hq Ha)), <- (proj2 (ix_spec p q b Hp Hq Hb)). now rewrite E.
Qed.
Definition bth (p q a : nat) : R := rt (basis RRing n (F p q) a).
Lemma bth_sign p q a : (p <= n)%nat -> (q <= n)%nat -> (a < sdim RRing (F p q))%nat -> is_sign (bth p q a).
Proof. intros Hp Hq Ha. unfold bth, rth. pose proof (basis_small p q a Hp Hq Ha) as S. destruct (tf_th _ _ _ _ _ _ HT _ S) as [-> | ->]; [now left|now right]. Qed.
Notation vv G p q := (fun k a => nth a (vec RRing (G p q) k) 0).
Definition mm (p q : nat) : nat -> nat -> R := moved (ix p q) (bth p q) (vv F' (iu p q) (idw p q)).
Lemma image_eigen p q : (p <= n)%nat -> (q <= n)%nat ->
  eigen (sdim RRing (F p q)) (fun a b => Hm (basis RRing n (F p q) b) (basis RRing n (F p q) a)) (mm p q) (fun k => energy (F' (iu p q) (idw p q)) k - k0).
Proof.
  intros Hp Hq. destruct (image_le p q Hp Hq) as [A B]. destruct (HF' _ _ A B) as (_ & _ & _ & E' & _). rewrite image_dim in E' by auto.
  refine (moved_eigen (sdim RRing (F p q)) (ix p q) (bth p q) _ _ k0 (ix_ren p q Hp Hq) (fun a Ha => bth_sign p q a Hp Hq Ha) _ _ _ E').
  intros a b Ha Hb. cbv beta. destruct (HF p q Hp Hq) as (IS & _). rewrite (proj2 (ix_spec p q a Hp Hq Ha)), (proj2 (ix_spec p q b Hp Hq Hb)).
  rewrite (HH p q) by (now apply basis_sec). f_equal; [unfold bth; ring|]. destruct (Nat.eqb_spec a b) as [->|NE]; [now rewrite N.eqb_refl|]. destruct (N.eqb_spec (basis RRing n (F p q) b) (basis RRing n (F p q) a)) as [C|]; [|reflexivity].
  exfalso. apply NE. now apply (basis_inj n p q (F p q)).
Qed.
Lemma own_eigen p q : (p <= n)%nat -> (q <= n)%nat -> eigen (sdim RRing (F p q)) (fun a b => Hm (basis RRing n (F p q) b) (basis RRing n (F p q) a)) (vv F p q) (energy (F p q)).
Proof. intros Hp Hq. now apply HF. Qed.
Theorem energy_image p q k : (p <= n)%nat -> (q <= n)%nat -> (k < sdim RRing (F p q))%nat -> energy (F' (iu p q) (idw p q)) k = energy (F p q) k + k0.
Proof.
  intros Hp Hq Hk. destruct (image_le p q Hp Hq) as [A B]. destruct (own_eigen p q Hp Hq) as [O1 E1]. destruct (image_eigen p q Hp Hq) as [O2 E2]. destruct (HF p q Hp Hq) as (_ & _ & _ & _ & AS). destruct (HF' _ _ A B) as (_ & _ & _ & _ & AS').
  rewrite image_dim in AS' by auto. rewrite (spectrum_unique (sdim RRing (F p q)) (fun a b => Hm (basis RRing n (F p q) b) (basis RRing n (F p q) a)) _ _ _ _ k O1 E1 AS O2 E2); auto; [ring|].
  intros j l Hj Hl. specialize (AS' j l Hj Hl). lra.
Qed.
Lemma image_vals p q : (p <= n)%nat -> (q <= n)%nat -> nvals (F' (iu p q) (idw p q)) = nvals (F p q).
Proof. intros Hp Hq. destruct (image_le p q Hp Hq) as [A B]. destruct (HF p q Hp Hq) as (_ & -> & _). destruct (HF' _ _ A B) as (_ & -> & _). now apply image_dim. Qed.

(** Sums over all sectors. *)
Definition im (r : nat) : nat := if hole then (n - r)%nat else r.
Lemma im_ren : renumbering (S n) im.
Proof. unfold im. destruct hole; split; intros; lia. Qed.
Lemma grid_image f : rsum (S n) (fun p => rsum (S n) (fun q => f p q)) = rsum (S n) (fun p => rsum (S n) (fun q => f (iu p q) (idw p q))).
Proof.
  transitivity (rsum (S n) (fun p => rsum (S n) (fun q => f (im p) (im q)))).
  - rewrite <- (rsum_renumber (S n) im _ im_ren). apply rsum_ext. intros p _. now rewrite <- (rsum_renumber (S n) im _ im_ren).
  - unfold image_up, image_dw, im. destruct sw; [|reflexivity]. rewrite rsum_swap. reflexivity.
Qed.
Lemma Z_image beta egs : Zsum n beta (egs + k0) F' = Zsum n beta egs F.
Proof.
  unfold Zsum. rewrite (grid_image (fun p q => rsum (nvals (F' p q)) (fun i => weight beta (egs + k0) (energy (F' p q) i)))). apply rsum_ext. intros p Hp. apply rsum_ext. intros q Hq. rewrite image_vals by lia. apply rsum_ext. intros i Hi.
  destruct (HF p q ltac:(lia) ltac:(lia)) as (_ & NV & _). rewrite energy_image by lia. unfold weight. f_equal. ring.
Qed.

(** Occupation of an orbital. *)
Definition occ_mean (G : family) (orb : nat) (phi : R -> R) : R := rsum (S n) (fun p => rsum (S n) (fun q => rsum (nvals (G p q)) (fun j =>
  phi (energy (G p q) j) * rsum (sdim RRing (G p q)) (fun a => rnum (basis RRing n (G p q) a) orb * (nth a (vec RRing (G p q) j) 0 * nth a (vec RRing (G p q) j) 0))))).
Definition phi_sum (G : family) (phi : R -> R) : R := rsum (S n) (fun p => rsum (S n) (fun q => rsum (nvals (G p q)) (fun j => phi (energy (G p q) j)))).
Theorem occ_image s x phi phi' : (s < 2)%nat -> (x < n)%nat -> (forall e, phi' (e + k0) = phi e) ->
  occ_mean F' (rho x + spin' sw s * n) phi' = (if hole then phi_sum F phi - occ_mean F (x + s * n) phi else occ_mean F (x + s * n) phi).
Proof.
  intros Hs Hx HP.
  assert (G : occ_mean F' (rho x + spin' sw s * n) phi' = rsum (S n) (fun p => rsum (S n) (fun q => rsum (nvals (F p q)) (fun j => phi (energy (F p q) j) *
      rsum (sdim RRing (F p q)) (fun a => (if hole then 1 - rnum (basis RRing n (F p q) a) (x + s * n) else rnum (basis RRing n (F p q) a) (x + s * n)) * (nth a (vec RRing (F p q) j) 0 * nth a (vec RRing (F p q) j) 0)))))).
  { unfold occ_mean. rewrite (grid_image (fun p q => rsum (nvals (F' p q)) (fun j => phi' (energy (F' p q) j) *
      rsum (sdim RRing (F' p q)) (fun a => rnum (basis RRing n (F' p q) a) (rho x + spin' sw s * n) * (nth a (vec RRing (F' p q) j) 0 * nth a (vec RRing (F' p q) j) 0))))).
    apply rsum_ext. intros p Hp'. apply rsum_ext. intros q Hq'. assert (Hp : (p <= n)%nat) by lia. assert (Hq : (q <= n)%nat) by lia. clear Hp' Hq'.
    rewrite image_vals, image_dim by auto. destruct (HF p q Hp Hq) as (_ & -> & _). set (d := sdim RRing (F p q)). set (B := basis RRing n (F p q)).
    set (qq := fun a => if hole then 1 - rnum (B a) (x + s * n) else rnum (B a) (x + s * n)).
    transitivity (rsum d (fun j => phi (energy (F' (iu p q) (idw p q)) j - k0) * rsum d (fun a => qq a * (mm p q j a * mm p q j a)))).
    - apply rsum_ext. intros j Hj. rewrite <- (HP (energy (F' (iu p q) (idw p q)) j - k0)). replace (energy (F' (iu p q) (idw p q)) j - k0 + k0) with (energy (F' (iu p q) (idw p q)) j) by ring. f_equal.
      rewrite <- (rsum_renumber d (ix p q) _ (ix_ren p q Hp Hq)). apply rsum_ext. intros a Ha. unfold mm, moved. pose proof (sign_sq _ (bth_sign p q a Hp Hq Ha)) as SQ.
      set (w := nth (ix p q a) (vec RRing (F' (iu p q) (idw p q)) j) 0). replace (bth p q a * w * (bth p q a * w)) with (bth p q a * bth p q a * (w * w)) by ring. rewrite SQ, Rmult_1_l. f_equal.
      rewrite (proj2 (ix_spec p q a Hp Hq Ha)), <- (rho2_orb n sw rho sg s x Hs Hx). unfold rnum, qq. rewrite (tf_occ _ _ _ _ _ _ HT) by (nia || (now apply basis_small)). unfold rnum. fold B. destruct hole, (occ (B a) (x + s * n)); cbn [xorb negb]; ring.
    - exact (single_indep d _ _ _ _ _ phi qq (image_eigen p q Hp Hq) (own_eigen p q Hp Hq)). }
  rewrite G. unfold occ_mean, phi_sum. destruct hole; [|reflexivity].
  rewrite <- rsum_sub. apply rsum_ext. intros p Hp. rewrite <- rsum_sub. apply rsum_ext. intros q Hq. rewrite <- rsum_sub. apply rsum_ext. intros j Hj.
  destruct (HF p q ltac:(lia) ltac:(lia)) as (_ & NV & _ & [ON _] & _). rewrite NV in Hj. specialize (ON j j Hj Hj). rewrite Nat.eqb_refl in ON. unfold dot in ON.
  rewrite (rsum_ext _ _ (fun a => nth a (vec RRing (F p q) j) 0 * nth a (vec RRing (F p q) j) 0 - rnum (basis RRing n (F p q) a) (x + s * n) * (nth a (vec RRing (F p q) j) 0 * nth a (vec RRing (F p q) j) 0))) by (intros; ring).
  rewrite rsum_sub, ON. ring.
Qed.

(** Green's functions: real sums of Lehmann type. *)
Definition cmat (G : family) (o : ladder_op) (p q p' q' a b : nat) : R := @z2k RRing (elem (2 * n) [o] (basis RRing n (G p q) a) (basis RRing n (G p' q') b)).
Definition pair_sum (G : family) (ox oy : ladder_op) (p q p' q' : nat) (g : R -> R -> R) : R :=
  double (sdim RRing (G p q)) (sdim RRing (G p' q')) (cmat G ox p q p' q') (cmat G oy p q p' q') g (vv G p q) (energy (G p q)) (vv G p' q') (energy (G p' q')).
Lemma double_energies dJ dI C D g g' v e e' u f f' : (forall j i, (j < dJ)%nat -> (i < dI)%nat -> g (e j) (f i) = g' (e' j) (f' i)) -> double dJ dI C D g v e u f = double dJ dI C D g' v e' u f'.
Proof. intros H. unfold double. apply rsum_ext. intros j Hj. apply rsum_ext. intros i Hi. now rewrite H. Qed.
Lemma cmat_image o p q p' q' a b : (p <= n)%nat -> (q <= n)%nat -> (p' <= n)%nat -> (q' <= n)%nat -> (orb_of o < 2 * n)%nat -> (a < sdim RRing (F p q))%nat -> (b < sdim RRing (F p' q'))%nat ->
  cmat F' (flip_op hole (rho2 n sw rho) o) (iu p q) (idw p q) (iu p' q') (idw p' q') (ix p q a) (ix p' q' b) = pm (sg (site n (orb_of o))) * (bth p q a * bth p' q' b * cmat F o p q p' q' a b).
Proof.
  intros Hp Hq Hp' Hq' Ho Ha Hb. unfold cmat. rewrite (proj2 (ix_spec p q a Hp Hq Ha)), (proj2 (ix_spec p' q' b Hp' Hq' Hb)).
  rewrite (elem_img n hole sw rho sg tau th HT [o]) by (try (now apply basis_small); repeat constructor; exact Ho). cbn [kaps fold_right]. rewrite Z.mul_1_r, z2r_zpm. unfold bth. ring.
Qed.
Theorem pair_image ox oy p q p' q' g g' : (p <= n)%nat -> (q <= n)%nat -> (p' <= n)%nat -> (q' <= n)%nat -> (orb_of ox < 2 * n)%nat -> (orb_of oy < 2 * n)%nat -> (forall a b, g' (a + k0) (b + k0) = g a b) ->
  pair_sum F' (flip_op hole (rho2 n sw rho) ox) (flip_op hole (rho2 n sw rho) oy) (iu p q) (idw p q) (iu p' q') (idw p' q') g' = pm (sg (site n (orb_of ox))) * pm (sg (site n (orb_of oy))) * pair_sum F ox oy p q p' q' g.
Proof.
  intros Hp Hq Hp' Hq' Hx Hy HG. unfold pair_sum. rewrite !image_dim by auto.
  rewrite (moved_double (sdim RRing (F p q)) (sdim RRing (F p' q')) (cmat F ox p q p' q') (cmat F oy p q p' q') _ _ _ _ _ _ _ (ix p q) (bth p q) (ix p' q') (bth p' q') (pm (sg (site n (orb_of ox)))) (pm (sg (site n (orb_of oy))))
    (ix_ren p q Hp Hq) (ix_ren p' q' Hp' Hq') (fun a b Ha Hb => cmat_image ox p q p' q' a b Hp Hq Hp' Hq' Hx Ha Hb) (fun a b Ha Hb => cmat_image oy p q p' q' a b Hp Hq Hp' Hq' Hy Ha Hb)).
  f_equal. fold (mm p q) (mm p' q').
  rewrite (double_energies _ _ _ _ g' g _ _ (fun k => energy (F' (iu p q) (idw p q)) k - k0) _ _ (fun k => energy (F' (iu p' q') (idw p' q')) k - k0)).
  2:{ intros j i _ _. rewrite <- HG. f_equal; ring. }
  rewrite (double_left _ _ _ _ g _ _ _ _ _ _ _ (image_eigen p q Hp Hq) (own_eigen p q Hp Hq)). now rewrite (double_right _ _ _ _ g _ _ _ _ _ _ _ (image_eigen p' q' Hp' Hq') (own_eigen p' q' Hp' Hq')).
Qed.
End Two.
