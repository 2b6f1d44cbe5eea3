(** Weights of the matrix of Green's functions, and free electrons. *)
From Coq Require Import Reals List Arith NArith ZArith Bool Lia Lra Psatz Ring Field.
From Verif Require Import Base RBase RLin CBase OperatorsSpec FockSpec FockProofs SectorModel LocalModel MatvecModel EspaceModel ProjModel ProjSpec ProjProofs ProjFinalProofs
  CfModel GfModel GfSpec GfProofs GfSumProofs GfMoreProofs GmModel GmSpec GmFockProofs GmProofs.
Import ListNotations.
Local Open Scope R_scope.

(** <i| l |i> for a word [l] that conserves the sector. *)
Definition quad (n : nat) (I : sct RRing) (l : list ladder_op) (i : nat) : R :=
  rsum (sdim RRing I) (fun b => rsum (sdim RRing I) (fun b' =>
    nth b (vec RRing I i) 0 * nth b' (vec RRing I i) 0 * @z2k RRing (elem (2 * n) l (basis RRing n I b) (basis RRing n I b')))).

(** Polarised Parseval identity. *)
Lemma parseval2 d (v : nat -> nat -> R) (x y : nat -> R) : orthonormal d d v ->
  rsum d (fun j => rsum d (fun a => v j a * x a) * rsum d (fun a => v j a * y a)) = rsum d (fun a => x a * y a).
Proof.
  intros H.
  pose proof (parseval d v x H) as X. pose proof (parseval d v y H) as Y. pose proof (parseval d v (fun a => x a + y a) H) as S.
  assert (A : rsum d (fun j => rsum d (fun a => v j a * (x a + y a)) ^ 2) =
    rsum d (fun j => rsum d (fun a => v j a * x a) ^ 2) + rsum d (fun j => rsum d (fun a => v j a * y a) ^ 2) +
    2 * rsum d (fun j => rsum d (fun a => v j a * x a) * rsum d (fun a => v j a * y a))).
  { rewrite <- rsum_scal_l, <- !rsum_add. apply rsum_ext. intros j _.
    rewrite (rsum_ext d _ (fun a => v j a * x a + v j a * y a)) by (intros; ring). rewrite rsum_add. ring. }
  assert (B : rsum d (fun a => (x a + y a) ^ 2) = rsum d (fun a => x a ^ 2) + rsum d (fun a => y a ^ 2) + 2 * rsum d (fun a => x a * y a)).
  { rewrite <- rsum_scal_l, <- !rsum_add. apply rsum_ext. intros a _. ring. }
  lra.
Qed.

Lemma word1 m o s z u : word m [o] s = Some (z, u) -> app1 m o s = Some (z, u).
Proof. cbn [word]. destruct (app1 m o s) as [[z' u']|]; [|discriminate]. intros E. injection E as <- <-. now rewrite Z.mul_1_r. Qed.

Lemma shifted_det op s p q a b c d : shifted op s p q a b -> shifted op s p q c d -> a = c /\ b = d.
Proof. destruct s, op; cbn; lia. Qed.
Lemma to_sector op n s x p q p' q' u z t : (s <= 1)%nat -> (x < n)%nat -> shifted op s p q p' q' -> sec n p q u -> app1 (2 * n) (lad op (x + s * n)) u = Some (z, t) -> sec n p' q' t.
Proof.
  intros Hs Hx SH U A. destruct (sec_step op n s x p q u z t Hs Hx U A) as (a & b & SH' & T).
  destruct (shifted_det _ _ _ _ _ _ _ _ SH SH') as [-> ->]. exact T.
Qed.

(** Completeness of the neighbouring sector. *)
Lemma amp_sum n s p q p' q' op x y (I J : sct RRing) i : (s <= 1)%nat -> shifted op s p q p' q' -> is_sector RRing n p q I -> is_sector RRing n p' q' J ->
  (x < n)%nat -> (y < n)%nat -> eigenbasis J ->
  rsum (nvals J) (fun j => bracket RRing n (lad op (x + s * n)) J I (vec RRing J j) (vec RRing I i) * bracket RRing n (lad op (y + s * n)) J I (vec RRing J j) (vec RRing I i))
  = quad n I [lad (opp_op op) (x + s * n); lad op (y + s * n)] i.
Proof.
  intros Hs SH HI HJ Hx Hy [D O]. rewrite D. unfold bracket.
  etransitivity; [exact (parseval2 (sdim RRing J) (fun j a => nth a (vec RRing J j) 0) (applied RRing n (lad op (x + s * n)) J I (vec RRing I i))
     (applied RRing n (lad op (y + s * n)) J I (vec RRing I i)) O)|].
  unfold applied, quad. set (v := vec RRing I i).
  transitivity (rsum (sdim RRing J) (fun a => rsum (sdim RRing I) (fun b => rsum (sdim RRing I) (fun b' =>
    nth b v 0 * nth b' v 0 * (@z2k RRing (elem (2 * n) [lad (opp_op op) (x + s * n)] (basis RRing n I b) (basis RRing n J a)) *
      @z2k RRing (elem (2 * n) [lad op (y + s * n)] (basis RRing n J a) (basis RRing n I b'))))))).
  - apply rsum_ext. intros a _. etransitivity; [symmetry; apply rsum_scal_r|]. apply rsum_ext. intros b _.
    etransitivity; [symmetry; apply rsum_scal_l|]. apply rsum_ext. intros b' _.
    rewrite (elem_adj _ [lad op (x + s * n)]). cbn [rev map app]. replace (adj (lad op (x + s * n))) with (lad (opp_op op) (x + s * n)) by (destruct op; reflexivity).
    change (cmul RRing) with Rmult. change (c0 RRing) with 0. ring.
  - rewrite rsum_swap. apply rsum_ext. intros b Hb. rewrite rsum_swap. apply rsum_ext. intros b' Hb'.
    rewrite rsum_scal_l. f_equal.
    apply (insert_basis n p' q' J [lad (opp_op op) (x + s * n)] [lad op (y + s * n)]); auto.
    intros z u W. apply word1 in W. exact (to_sector op n s y p q p' q' _ z u Hs Hy SH (basis_sec n p q I b' HI Hb') W).
Qed.

Lemma quad_edge n s p q op x y (I : sct RRing) i : (s <= 1)%nat -> is_sector RRing n p q I -> (y < n)%nat ->
  (forall p' q', shifted op s p q p' q' -> (n < p')%nat \/ (n < q')%nat) -> quad n I [x; lad op (y + s * n)] i = 0.
Proof.
  intros Hs HI Hy HE. apply rsum_0. intros b Hb. apply rsum_0. intros b' Hb'.
  replace (elem (2 * n) [x; lad op (y + s * n)] (basis RRing n I b) (basis RRing n I b')) with 0%Z; [change (@z2k RRing 0%Z) with 0; ring|].
  change [x; lad op (y + s * n)] with ([x] ++ [lad op (y + s * n)]). rewrite elem_snoc.
  destruct (app1 (2 * n) (lad op (y + s * n)) (basis RRing n I b')) as [[z u]|] eqn:A; [|reflexivity]. exfalso.
  destruct (sec_step op n s y p q _ z u Hs Hy (basis_sec n p q I b' HI Hb') A) as (p' & q' & SH & U). apply sec_bound in U. destruct (HE p' q' SH); lia.
Qed.

Lemma quad_sym n I x y i : quad n I [Cr x; An y] i = quad n I [Cr y; An x] i.
Proof.
  unfold quad. rewrite rsum_swap. apply rsum_ext. intros b _. apply rsum_ext. intros b' _. rewrite elem_adj. cbn [rev map app adj]. ring.
Qed.
Lemma quad_car n p q (I : sct RRing) s x y i : (s <= 1)%nat -> is_sector RRing n p q I -> eigenbasis I -> (i < nvals I)%nat -> (x < n)%nat -> (y < n)%nat ->
  quad n I [An (x + s * n); Cr (y + s * n)] i + quad n I [Cr (y + s * n); An (x + s * n)] i = if (x =? y)%nat then 1 else 0.
Proof.
  intros Hs HI [D O] Hi Hx Hy. unfold quad. rewrite <- rsum_add.
  transitivity (rsum (sdim RRing I) (fun b => rsum (sdim RRing I) (fun b' => nth b (vec RRing I i) 0 * nth b' (vec RRing I i) 0 * (if (x =? y)%nat && (b =? b')%nat then 1 else 0)))).
  - apply rsum_ext. intros b Hb. rewrite <- rsum_add. apply rsum_ext. intros b' Hb'. rewrite <- Rmult_plus_distr_l. f_equal.
    etransitivity; [symmetry; apply (z2k_add RRing)|]. rewrite car by nia.
    replace (x + s * n =? y + s * n)%nat with (x =? y)%nat by (destruct (Nat.eqb_spec x y), (Nat.eqb_spec (x + s * n) (y + s * n)); auto; lia).
    destruct (x =? y)%nat; [|reflexivity]. cbn [andb].
    destruct (N.eqb_spec (basis RRing n I b) (basis RRing n I b')) as [Q|Q], (Nat.eqb_spec b b') as [E|E]; try reflexivity.
    + exfalso. apply E. now apply (basis_inj n p q I).
    + subst. congruence.
  - destruct (x =? y)%nat; cbn [andb].
    + rewrite D in Hi. specialize (O i i Hi Hi). rewrite Nat.eqb_refl in O. etransitivity; [|exact O]. apply rsum_ext. intros b Hb.
      rewrite (rsum_single _ _ b Hb); [rewrite Nat.eqb_refl; apply Rmult_1_r|]. intros b' _ N. destruct (Nat.eqb_spec b b'); [congruence|apply Rmult_0_r].
    + apply rsum_0. intros b _. apply rsum_0. intros b' _. apply Rmult_0_r.
Qed.

Section Total.
Variables (n : nat) (es : espace RRing) (F : family) (beta egs : R) (s : nat).
Hypothesis HF : lists_family n es F. Hypothesis Hs : (s <= 1)%nat.
Hypothesis HB : forall p q, (p <= n)%nat -> (q <= n)%nat -> eigenbasis (F p q).

Lemma spin_sector m o : (m <= n)%nat -> (o <= n)%nat -> exists p q, of_spin F s m o = F p q /\ (p <= n)%nat /\ (q <= n)%nat /\ (p, q) = match s with O => (m, o) | _ => (o, m) end.
Proof. intros Hm Ho. unfold of_spin. destruct s; eauto 8. Qed.

Lemma gm_sum_rule x y : (x < n)%nat -> (y < n)%nat ->
  rsum n (fun m => rsum (S n) (fun o => rsum (nvals (of_spin F s (S m) o)) (fun j => rsum (nvals (of_spin F s m o)) (fun i =>
    pair_w n s x y beta egs (of_spin F s m o) (of_spin F s (S m) o) j i)))) = if (x =? y)%nat then Zsum n beta egs F else 0.
Proof.
  intros Hx Hy. pose proof HF as (_ & _ & HS).
  set (S0 := fun m o => of_spin F s m o).
  assert (HS0 : forall m o, (m <= n)%nat -> (o <= n)%nat -> exists p q, is_sector RRing n p q (S0 m o) /\ (p, q) = match s with O => (m, o) | _ => (o, m) end /\ eigenbasis (S0 m o)).
  { intros m o Hm Ho. destruct (spin_sector m o Hm Ho) as (p & q & E & P1 & P2 & P3). exists p, q. unfold S0. rewrite E. auto. }
  set (A := fun m o => rsum (nvals (S0 m o)) (fun i => quad n (S0 m o) [An (x + s * n); Cr (y + s * n)] i * weight beta egs (energy (S0 m o) i))).
  set (B := fun m o => rsum (nvals (S0 m o)) (fun i => quad n (S0 m o) [Cr (y + s * n); An (x + s * n)] i * weight beta egs (energy (S0 m o) i))).
  transitivity (rsum n (fun m => rsum (S n) (fun o => B (S m) o)) + rsum n (fun m => rsum (S n) (fun o => A m o))).
  - rewrite <- rsum_add. apply rsum_ext. intros m Hm. rewrite <- rsum_add. apply rsum_ext. intros o Ho.
    destruct (HS0 m o ltac:(lia) ltac:(lia)) as (p & q & HI & PQ & EI). destruct (HS0 (S m) o ltac:(lia) ltac:(lia)) as (p' & q' & HJ & PQ' & EJ).
    assert (SH : shifted OpCdg s p q p' q' /\ shifted OpC s p' q' p q).
    { clear - PQ PQ' Hs. destruct s as [|[|]]; [| |lia]; injection PQ as -> ->; injection PQ' as -> ->; cbn; auto. }
    destruct SH as [SH SH'].
    unfold A, B. fold (S0 m o) (S0 (S m) o). set (I := S0 m o) in *. set (J := S0 (S m) o) in *.
    rewrite (rsum_ext (nvals J) _ (fun j => weight beta egs (energy J j) * rsum (nvals I) (fun i => add_amp n s x J I j i * add_amp n s y J I j i)
       + rsum (nvals I) (fun i => weight beta egs (energy I i) * (add_amp n s x J I j i * add_amp n s y J I j i)))).
    + rewrite rsum_add. f_equal.
      * apply rsum_ext. intros j Hj. rewrite Rmult_comm. f_equal.
        transitivity (quad n J [Cr (x + s * n); An (y + s * n)] j); [|apply quad_sym].
        etransitivity; [|exact (amp_sum n s p' q' p q OpC x y J I j Hs SH' HJ HI Hx Hy EI)].
        apply rsum_ext. intros i _. unfold add_amp. rewrite (bracket_adj RRing n OpCdg (x + s * n) I J), (bracket_adj RRing n OpCdg (y + s * n) I J). reflexivity.
      * rewrite rsum_swap. apply rsum_ext. intros i Hi. rewrite rsum_scal_l, Rmult_comm. f_equal.
        exact (amp_sum n s p q p' q' OpCdg x y I J i Hs SH HI HJ Hx Hy EJ).
    + intros j _. rewrite <- rsum_scal_l, <- rsum_add. apply rsum_ext. intros i _. unfold pair_w. ring.
  - assert (E1 : rsum (S n) (fun o => B 0%nat o) = 0).
    { apply rsum_0. intros o Ho. destruct (HS0 0%nat o ltac:(lia) ltac:(lia)) as (p & q & HI & PQ & _). apply rsum_0. intros i _.
      assert (HE : forall p' q', shifted OpC s p q p' q' -> (n < p')%nat \/ (n < q')%nat)
        by (clear - PQ Hs; intros p' q' SH; exfalso; destruct s; injection PQ as -> ->; cbn in SH; lia).
      pose proof (quad_edge n s p q OpC (Cr (y + s * n)) x _ i Hs HI Hx HE) as Q. cbn [lad] in Q. rewrite Q. ring. }
    assert (E2 : rsum (S n) (fun o => A n o) = 0).
    { apply rsum_0. intros o Ho. destruct (HS0 n o ltac:(lia) ltac:(lia)) as (p & q & HI & PQ & _). apply rsum_0. intros i _.
      assert (HE : forall p' q', shifted OpCdg s p q p' q' -> (n < p')%nat \/ (n < q')%nat)
        by (clear - PQ Hs; intros p' q' SH; destruct s; injection PQ as -> ->; cbn in SH; lia).
      pose proof (quad_edge n s p q OpCdg (An (x + s * n)) y _ i Hs HI Hy HE) as Q. cbn [lad] in Q. rewrite Q. ring. }
    transitivity (rsum (S n) (fun m => rsum (S n) (fun o => B m o)) + rsum (S n) (fun m => rsum (S n) (fun o => A m o))).
    + rewrite (rsum_S_l n (fun m => rsum (S n) (fun o => B m o))), (rsum_S n (fun m => rsum (S n) (fun o => A m o))), E1, E2. ring.
    + rewrite <- rsum_add. transitivity (rsum (S n) (fun m => rsum (S n) (fun o => rsum (nvals (S0 m o)) (fun i => (if (x =? y)%nat then 1 else 0) * weight beta egs (energy (S0 m o) i))))).
      * apply rsum_ext. intros m Hm. rewrite <- rsum_add. apply rsum_ext. intros o Ho. unfold A, B. rewrite <- rsum_add. apply rsum_ext. intros i Hi.
        rewrite <- Rmult_plus_distr_r. f_equal. destruct (HS0 m o ltac:(lia) ltac:(lia)) as (p & q & HI & _ & EI).
        rewrite Rplus_comm. now apply (quad_car n p q).
      * unfold Zsum, S0, of_spin. destruct (x =? y)%nat.
        -- destruct s; [|rewrite rsum_swap]; apply rsum_ext; intros; apply rsum_ext; intros; apply rsum_ext; intros; apply Rmult_1_l.
        -- apply rsum_0. intros; apply rsum_0; intros; apply rsum_0; intros; apply Rmult_0_l.
Qed.
End Total.
