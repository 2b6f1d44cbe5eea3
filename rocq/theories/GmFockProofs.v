(** Sums over the basis of a sector and the anticommutation relations. *)
From Coq Require Import Reals List Arith NArith ZArith Bool Lia Lra.
From Verif Require Import Base RBase RLin CBase OperatorsModel OperatorsSpec OperatorsProofs LookupModel LookupSpec LookupProofs SectorModel SectorSpec SectorProofs
  FockSpec FockProofs LocalModel MatvecModel EspaceModel ProjModel ProjSpec ProjProofs ProjFinalProofs GfModel GfSpec GfProofs GfSumProofs GmModel GmSpec.
Import ListNotations.
Local Open Scope R_scope.

(** Fock states with [p] up and [q] down electrons. *)
Definition sec (n p q : nat) (u : N) : Prop := exists a b, u = combine n a b /\ in_sector n p a /\ in_sector n q b.

Lemma basis_sec n p q (J : sct RRing) a : is_sector RRing n p q J -> (a < sdim RRing J)%nat -> sec n p q (basis RRing n J a).
Proof.
  intros (P1 & P2 & P3 & _ & EU & ED & _) H. unfold sdim in H. set (u := length (ups RRing J)) in *. set (w := length (dws RRing J)) in *.
  assert (u <> 0)%nat by lia. eexists _, _. split; [reflexivity|].
  split; [apply (states_facts n p _ P1 P3 EU)|apply (states_facts n q _ P2 P3 ED)]; apply nth_In.
  - apply Nat.mod_upper_bound. lia.
  - apply Nat.div_lt_upper_bound; lia.
Qed.
Lemma basis_find n p q (J : sct RRing) u : is_sector RRing n p q J -> sec n p q u -> exists a, (a < sdim RRing J)%nat /\ basis RRing n J a = u.
Proof.
  intros (P1 & P2 & P3 & _ & EU & ED & _) (x & y & -> & X & Y).
  apply (states_facts n p _ P1 P3 EU) in X. apply (states_facts n q _ P2 P3 ED) in Y.
  destruct (In_nth _ _ 0%N X) as (i & Hi & <-). destruct (In_nth _ _ 0%N Y) as (k & Hk & <-).
  exists (i + k * length (ups RRing J))%nat. split; [unfold sdim; nia|]. unfold basis.
  destruct (divmod (i + k * length (ups RRing J)) _ i k Hi eq_refl) as [-> ->]. reflexivity.
Qed.
Lemma basis_inj n p q (J : sct RRing) a b : is_sector RRing n p q J -> (a < sdim RRing J)%nat -> (b < sdim RRing J)%nat ->
  basis RRing n J a = basis RRing n J b -> a = b.
Proof.
  intros (P1 & P2 & P3 & _ & EU & ED & _) Ha Hb E. unfold basis, sdim in *. set (u := length (ups RRing J)) in *. set (w := length (dws RRing J)) in *.
  assert (U : (u <> 0)%nat) by lia.
  assert (A1 : (a mod u < u)%nat) by (apply Nat.mod_upper_bound; lia). assert (B1 : (b mod u < u)%nat) by (apply Nat.mod_upper_bound; lia).
  assert (A2 : (a / u < w)%nat) by (apply Nat.div_lt_upper_bound; lia). assert (B2 : (b / u < w)%nat) by (apply Nat.div_lt_upper_bound; lia).
  apply combine_inj in E; [|now apply (in_states n p _ _ P1 P3 EU)|now apply (in_states n p _ _ P1 P3 EU)]. destruct E as [E1 E2].
  apply (NoDup_nth _ 0%N) in E1; auto; [|now apply (nodup_of n p)]. apply (NoDup_nth _ 0%N) in E2; auto; [|now apply (nodup_of n q)].
  rewrite (Nat.div_mod a u U), (Nat.div_mod b u U). congruence.
Qed.

(** Particle numbers after an operator. *)
Definition shifted (op : fop) (s p q p' q' : nat) : Prop := match s with O => neighbour op p p' /\ q' = q | _ => p' = p /\ neighbour op q q' end.
Lemma one_step op n p s x z t : in_sector n p s -> (x < n)%nat -> app1 n (lad op x) s = Some (z, t) -> exists p', neighbour op p p' /\ in_sector n p' t.
Proof.
  intros [L P] Hx A. pose proof (app1_toggles _ _ _ _ _ A) as T. assert (T' : toggles s t x) by (destruct op; exact T).
  destruct (popcount_toggle s t x n L Hx T') as [Lt Pt].
  destruct op; cbn [lad app1] in A; destruct (occ s x) eqn:O; try discriminate.
  - exists (popcount s - 1)%nat. split; [|split; auto]. cbn. destruct (popcount s) as [|m] eqn:Q; [|lia].
    exfalso. assert (T2 : toggles t s x) by (intros k; rewrite (T' k); destruct (k =? x)%nat; auto; now rewrite negb_involutive).
    destruct (popcount_toggle t s x n Lt Hx T2) as [_ P2]. rewrite (T' x), Nat.eqb_refl, O in P2. cbn in P2. lia.
  - exists (S p). split; [reflexivity|]. split; auto. lia.
Qed.
Lemma sec_step op n s x p q u z t : (s <= 1)%nat -> (x < n)%nat -> sec n p q u -> app1 (2 * n) (lad op (x + s * n)) u = Some (z, t) ->
  exists p' q', shifted op s p q p' q' /\ sec n p' q' t.
Proof.
  intros Hs Hx (a & b & -> & A & B) E. destruct s as [|[|]]; [| |lia].
  - rewrite Nat.mul_0_l, Nat.add_0_r in E. rewrite app1_up in E by (apply A || now apply lad_lt).
    destruct (app1 n (lad op x) a) as [[z' v]|] eqn:Q; [|discriminate]. injection E as <- <-.
    destruct (one_step op n p a x z' v A Hx Q) as (p' & N & S). exists p', q. split; [split; auto|]. now exists v, b.
  - rewrite Nat.mul_1_l in E. replace (lad op (x + n)) with (dw_op n (lad op x)) in E by (destruct op; reflexivity). rewrite app1_dw in E by apply A.
    destruct (app1 n (lad op x) b) as [[z' v]|] eqn:Q; [|discriminate]. injection E as <- <-.
    destruct (one_step op n q b x z' v B Hx Q) as (q' & N & S). exists p, q'. split; [split; auto|]. now exists a, v.
Qed.
Lemma sec_bound n p q u : sec n p q u -> (p <= n)%nat /\ (q <= n)%nat.
Proof. intros (a & b & _ & [L <-] & [L' <-]). split; now apply popcount_upper. Qed.

(** Inserting the basis between two words. *)
Lemma insert_basis n p q (J : sct RRing) l o t s : is_sector RRing n p q J -> (forall z u, word (2 * n) o s = Some (z, u) -> sec n p q u) ->
  rsum (sdim RRing J) (fun a => @z2k RRing (elem (2 * n) l t (basis RRing n J a)) * @z2k RRing (elem (2 * n) o (basis RRing n J a) s)) = @z2k RRing (elem (2 * n) (l ++ o) t s).
Proof.
  intros HJ H. set (m := (2 * n)%nat) in *. unfold elem at 3. rewrite word_app. destruct (word m o s) as [[z u]|] eqn:A.
  - destruct (basis_find n p q J u HJ (H z u eq_refl)) as (a & Ha & E).
    rewrite (rsum_single _ _ a Ha).
    + unfold elem. rewrite A, E, N.eqb_refl. destruct (word m l u) as [[z' v]|]; [|cbn; apply Rmult_0_l].
      destruct (N.eqb v t); [symmetry; apply (z2k_mul RRing)|cbn; apply Rmult_0_l].
    + intros b Hb Nb. unfold elem. rewrite A. destruct (N.eqb_spec u (basis RRing n J b)) as [Q|_]; [|cbn; apply Rmult_0_r].
      exfalso. apply Nb. apply (basis_inj n p q J); auto. congruence.
  - apply rsum_0. intros b _. unfold elem. rewrite A. cbn. apply Rmult_0_r.
Qed.
Lemma elem_cons m o l t s : elem m (o :: l) t s = match app1 m (adj o) t with Some (z, w) => (z * elem m l w s)%Z | None => 0%Z end.
Proof.
  unfold elem. cbn [word]. destruct (word m l s) as [[z u]|]; [|destruct (app1 m (adj o) t) as [[? ?]|]; now rewrite ?Z.mul_0_r].
  destruct (app1 m o u) as [[z' v]|] eqn:A.
  - destruct (N.eqb_spec v t) as [->|NE].
    + rewrite (app1_adj _ _ _ _ _ A). now rewrite N.eqb_refl.
    + destruct (app1 m (adj o) t) as [[y w]|] eqn:B; auto. destruct (N.eqb_spec u w) as [->|]; [|now rewrite Z.mul_0_r].
      apply app1_adj in B. replace (adj (adj o)) with o in B by (destruct o; reflexivity). congruence.
  - destruct (app1 m (adj o) t) as [[y w]|] eqn:B; auto. destruct (N.eqb_spec u w) as [->|]; [|now rewrite Z.mul_0_r].
    apply app1_adj in B. replace (adj (adj o)) with o in B by (destruct o; reflexivity). congruence.
Qed.
Lemma elem_snoc m l o t s : elem m (l ++ [o]) t s = match app1 m o s with Some (z, u) => (z * elem m l t u)%Z | None => 0%Z end.
Proof.
  unfold elem. rewrite word_app. cbn [word]. destruct (app1 m o s) as [[z u]|]; auto. destruct (word m l u) as [[z' v]|]; [|lia].
  destruct (N.eqb v t); lia.
Qed.

(** The anticommutation relation in any number of orbitals. *)
Lemma occ_ext s t : (forall k, occ s k = occ t k) -> s = t.
Proof. intros H. apply N.bits_inj. intros k. specialize (H (N.to_nat k)). unfold occ in H. now rewrite N2Nat.id in H. Qed.
Lemma parity_sq k : (parity_sign k * parity_sign k = 1)%Z.
Proof. unfold parity_sign. now destruct (Nat.even k). Qed.
Lemma car m x y t s : (x < m)%nat -> (y < m)%nat ->
  (elem m [An x; Cr y] t s + elem m [Cr y; An x] t s = if (x =? y)%nat && N.eqb t s then 1 else 0)%Z.
Proof.
  intros Hx Hy. unfold elem. cbn [word app1]. destruct (Nat.eqb_spec x y) as [->|NE].
  - destruct (occ s y) eqn:O.
    + pose proof (toggles_clearbit s y O) as T. rewrite (T y), Nat.eqb_refl, O. cbn [negb].
      assert (Q : N.setbit (N.clearbit s (N.of_nat y)) (N.of_nat y) = s).
      { apply occ_ext. intros k. rewrite occ_setbit, occ_clearbit. destruct (Nat.eqb_spec k y) as [->|]; cbn; auto. }
      rewrite Q, (parity_toggle_out s _ y (S y) m T) by lia. rewrite Z.mul_1_r, parity_sq, (N.eqb_sym t s). reflexivity.
    + pose proof (toggles_setbit s y O) as T. rewrite (T y), Nat.eqb_refl, O. cbn [negb].
      assert (Q : N.clearbit (N.setbit s (N.of_nat y)) (N.of_nat y) = s).
      { apply occ_ext. intros k. rewrite occ_clearbit, occ_setbit. destruct (Nat.eqb_spec k y) as [->|]; cbn; auto. }
      rewrite Q, (parity_toggle_out s _ y (S y) m T) by lia. rewrite Z.mul_1_r, parity_sq, (N.eqb_sym t s), Z.add_0_r. reflexivity.
  - cbn [andb]. destruct (occ s y) eqn:OY, (occ s x) eqn:OX.
    + pose proof (toggles_clearbit s x OX) as T. rewrite (T y). destruct (Nat.eqb_spec y x); [congruence|]. rewrite OY. reflexivity.
    + reflexivity.
    + pose proof (toggles_clearbit s x OX) as Tx. pose proof (toggles_setbit s y OY) as Ty.
      rewrite (Tx y), (Ty x). destruct (Nat.eqb_spec y x); [congruence|]. destruct (Nat.eqb_spec x y); [congruence|]. rewrite OX, OY.
      replace (N.setbit (N.clearbit s (N.of_nat x)) (N.of_nat y)) with (N.clearbit (N.setbit s (N.of_nat y)) (N.of_nat x)).
      2: { apply occ_ext. intros k. rewrite occ_clearbit, !occ_setbit, occ_clearbit. destruct (Nat.eqb_spec k x), (Nat.eqb_spec k y); cbn; auto; congruence. }
      destruct (N.eqb _ t); [|reflexivity]. rewrite !Z.mul_1_r.
      rewrite (parity_toggle s _ y (S x) m Ty), (parity_toggle s _ x (S y) m Tx).
      replace ((S x <=? y) && (y <? m))%nat with (x <? y)%nat by (destruct (Nat.ltb_spec x y), (Nat.leb_spec (S x) y), (Nat.ltb_spec y m); cbn; lia).
      replace ((S y <=? x) && (x <? m))%nat with (y <? x)%nat by (destruct (Nat.ltb_spec y x), (Nat.leb_spec (S y) x), (Nat.ltb_spec x m); cbn; lia).
      destruct (Nat.ltb_spec x y), (Nat.ltb_spec y x); lia.
    + pose proof (toggles_setbit s y OY) as T. rewrite (T x). destruct (Nat.eqb_spec x y); [congruence|]. rewrite OX. reflexivity.
Qed.

Lemma crcr m x y t s : (x < m)%nat -> (y < m)%nat -> (elem m [Cr x; Cr y] t s + elem m [Cr y; Cr x] t s = 0)%Z.
Proof.
  intros Hx Hy. unfold elem. cbn [word app1]. destruct (Nat.eq_dec x y) as [->|NE].
  - destruct (occ s y) eqn:O; [reflexivity|]. pose proof (toggles_setbit s y O) as T. rewrite (T y), Nat.eqb_refl, O. reflexivity.
  - destruct (occ s y) eqn:OY, (occ s x) eqn:OX.
    + reflexivity.
    + pose proof (toggles_setbit s x OX) as T. rewrite (T y). destruct (Nat.eqb_spec y x); [congruence|]. rewrite OY. reflexivity.
    + pose proof (toggles_setbit s y OY) as T. rewrite (T x). destruct (Nat.eqb_spec x y); [congruence|]. rewrite OX. reflexivity.
    + pose proof (toggles_setbit s x OX) as Tx. pose proof (toggles_setbit s y OY) as Ty.
      rewrite (Tx y), (Ty x). destruct (Nat.eqb_spec y x); [congruence|]. destruct (Nat.eqb_spec x y); [congruence|]. rewrite OX, OY.
      replace (N.setbit (N.setbit s (N.of_nat y)) (N.of_nat x)) with (N.setbit (N.setbit s (N.of_nat x)) (N.of_nat y)).
      2: { apply occ_ext. intros k. rewrite !occ_setbit. destruct (Nat.eqb_spec k x), (Nat.eqb_spec k y); cbn; auto; congruence. }
      destruct (N.eqb _ t); [|reflexivity]. rewrite !Z.mul_1_r.
      rewrite (parity_toggle s _ y (S x) m Ty), (parity_toggle s _ x (S y) m Tx).
      replace ((S x <=? y) && (y <? m))%nat with (x <? y)%nat by (destruct (Nat.ltb_spec x y), (Nat.leb_spec (S x) y), (Nat.ltb_spec y m); cbn; lia).
      replace ((S y <=? x) && (x <? m))%nat with (y <? x)%nat by (destruct (Nat.ltb_spec y x), (Nat.leb_spec (S y) x), (Nat.ltb_spec x m); cbn; lia).
      destruct (Nat.ltb_spec x y), (Nat.ltb_spec y x); lia.
Qed.
(** [c+_x c_y, c+_w] = delta_yw c+_x *)
Lemma commutator m x y w t s : (x < m)%nat -> (y < m)%nat -> (w < m)%nat ->
  (elem m [Cr x; An y; Cr w] t s - elem m [Cr w; Cr x; An y] t s = if (y =? w)%nat then elem m [Cr x] t s else 0)%Z.
Proof.
  intros Hx Hy Hw.
  assert (A : (elem m [Cr x; An y; Cr w] t s + elem m [Cr x; Cr w; An y] t s = if (y =? w)%nat then elem m [Cr x] t s else 0)%Z).
  { rewrite !(elem_cons m (Cr x)). destruct (app1 m (adj (Cr x)) t) as [[z u]|]; [|now destruct (y =? w)%nat].
    pose proof (car m y w u s Hy Hw) as C. destruct (y =? w)%nat; cbn [andb] in C; [|lia].
    unfold elem at 3. cbn [word]. rewrite (N.eqb_sym s u). destruct (N.eqb u s); lia. }
  assert (B : (elem m [Cr x; Cr w; An y] t s + elem m [Cr w; Cr x; An y] t s = 0)%Z).
  { change [Cr x; Cr w; An y] with ([Cr x; Cr w] ++ [An y]). change [Cr w; Cr x; An y] with ([Cr w; Cr x] ++ [An y]). rewrite !elem_snoc.
    destruct (app1 m (An y) s) as [[z u]|]; [|reflexivity]. pose proof (crcr m x w t u Hx Hw). lia. }
  lia.
Qed.
