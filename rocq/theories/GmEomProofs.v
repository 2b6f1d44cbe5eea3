(** Free electrons: the matrix of Green's functions is the resolvent of the hopping
    matrix. *)
From Coq Require Import Reals List Arith NArith ZArith Bool Lia Lra Psatz Ring Field.
From Verif Require Import Base RBase RLin CBase OperatorsSpec FockSpec FockProofs SectorModel LocalModel MatvecModel EspaceModel ProjModel ProjSpec ProjProofs ProjFinalProofs
  CfModel GfModel GfSpec GfProofs GfSumProofs GfMoreProofs GmModel GmSpec GmFockProofs GmProofs GmFreeProofs.
Import ListNotations.
Local Open Scope R_scope.

Lemma z2k_sub a b : @z2k RRing (a - b) = @z2k RRing a - @z2k RRing b.
Proof. unfold Z.sub. etransitivity; [apply (z2k_add RRing)|]. exact (f_equal (Rplus (@z2k RRing a)) (z2k_opp RRing b)). Qed.

Section Eom.
Variables (n : nat) (h : nat -> nat -> nat -> R).
Hypothesis Hh : forall s x y, (s < 2)%nat -> (x < n)%nat -> (y < n)%nat -> h s x y = h s y x.

(** Sum over the hoppings of the matrix elements of a word. *)
Definition hop_sum (w : nat -> nat -> list ladder_op) (u t : N) : R :=
  rsum 2 (fun s => rsum n (fun x => rsum n (fun y => h s x y * @z2k RRing (elem (2 * n) (w (x + s * n)%nat (y + s * n)%nat) u t)))).

Lemma ham_sym u t : free_ham n h u t = free_ham n h t u.
Proof.
  unfold free_ham. apply rsum_ext. intros s Hs. rewrite rsum_swap. apply rsum_ext. intros y Hy. apply rsum_ext. intros x Hx.
  rewrite (Hh s x y Hs Hx Hy), elem_adj. reflexivity.
Qed.
Lemma hop_sum_ins p q (J : sct RRing) o t s : is_sector RRing n p q J -> (forall z u, word (2 * n) o s = Some (z, u) -> sec n p q u) ->
  rsum (sdim RRing J) (fun a => free_ham n h t (basis RRing n J a) * @z2k RRing (elem (2 * n) o (basis RRing n J a) s)) = hop_sum (fun x y => [Cr x; An y] ++ o) t s.
Proof.
  intros HJ H. unfold free_ham, hop_sum.
  rewrite (rsum_ext _ _ (fun a => rsum 2 (fun r => rsum n (fun x => rsum n (fun y => h r x y *
    (@z2k RRing (elem (2 * n) [Cr (x + r * n); An (y + r * n)] t (basis RRing n J a)) * @z2k RRing (elem (2 * n) o (basis RRing n J a) s))))))).
  2: { intros a _. rewrite <- rsum_scal_r. apply rsum_ext. intros r _. rewrite <- rsum_scal_r. apply rsum_ext. intros x _. rewrite <- rsum_scal_r. apply rsum_ext. intros y _. ring. }
  rewrite rsum_swap. apply rsum_ext. intros r _. rewrite rsum_swap. apply rsum_ext. intros x _. rewrite rsum_swap. apply rsum_ext. intros y _.
  rewrite rsum_scal_l. f_equal. now apply (insert_basis n p q J).
Qed.
Lemma ins_hop_sum p q (J : sct RRing) o t s : is_sector RRing n p q J -> sec n p q s ->
  rsum (sdim RRing J) (fun a => @z2k RRing (elem (2 * n) o t (basis RRing n J a)) * free_ham n h (basis RRing n J a) s) = hop_sum (fun x y => o ++ [Cr x; An y]) t s.
Proof.
  intros HJ H. unfold free_ham, hop_sum.
  rewrite (rsum_ext _ _ (fun a => rsum 2 (fun r => rsum n (fun x => rsum n (fun y => h r x y *
    (@z2k RRing (elem (2 * n) o t (basis RRing n J a)) * @z2k RRing (elem (2 * n) [Cr (x + r * n); An (y + r * n)] (basis RRing n J a) s))))))).
  2: { intros a _. rewrite <- rsum_scal_l. apply rsum_ext. intros r _. rewrite <- rsum_scal_l. apply rsum_ext. intros x _. rewrite <- rsum_scal_l. apply rsum_ext. intros y _. ring. }
  rewrite rsum_swap. apply rsum_ext. intros r Hr. rewrite rsum_swap. apply rsum_ext. intros x Hx. rewrite rsum_swap. apply rsum_ext. intros y Hy.
  rewrite rsum_scal_l. f_equal. apply (insert_basis n p q J); auto.
  intros z u W. cbn [word] in W. destruct (app1 (2 * n) (An (y + r * n)) s) as [[z1 v]|] eqn:A; [|discriminate].
  destruct (app1 (2 * n) (Cr (x + r * n)) v) as [[z2 u2]|] eqn:B; [|discriminate]. injection W as _ <-.
  destruct (sec_step OpC n r y p q s z1 v ltac:(lia) Hy H A) as (p1 & q1 & S1 & V).
  apply (to_sector OpCdg n r x p1 q1 p q v z2 u2 ltac:(lia) Hx); auto. clear - S1. destruct r; cbn in *; lia.
Qed.

Variable F : family.
Hypothesis HS : forall p q, (p <= n)%nat -> (q <= n)%nat -> is_sector RRing n p q (F p q).
Hypothesis HP : free_pairs n h F.

(** <j| [H, c+_y] |i> *)
Lemma eom s p q p' q' y j i : (s <= 1)%nat -> (p <= n)%nat -> (q <= n)%nat -> (p' <= n)%nat -> (q' <= n)%nat -> shifted OpCdg s p q p' q' ->
  (y < n)%nat -> (j < nvals (F p' q'))%nat -> (i < nvals (F p q))%nat ->
  (energy (F p' q') j - energy (F p q) i) * add_amp n s y (F p' q') (F p q) j i = rsum n (fun x => h s x y * add_amp n s x (F p' q') (F p q) j i).
Proof.
  intros Hs Hp Hq Hp' Hq' SH Hy Hj Hi. pose proof (HS p q Hp Hq) as HI. pose proof (HS p' q' Hp' Hq') as HJ.
  pose proof (HP p q Hp Hq i) as EI. pose proof (HP p' q' Hp' Hq' j) as EJ.
  unfold add_amp, bracket, applied. set (I := F p q) in *. set (J := F p' q') in *. set (u := vec RRing J j) in *. set (v := vec RRing I i) in *.
  change (@nsum RRing) with rsum. change (cmul RRing) with Rmult. change (c0 RRing) with 0. change (Base.car RRing) with R in *.
  set (e := fun x a b => @z2k RRing (elem (2 * n) [Cr (x + s * n)] (basis RRing n J a) (basis RRing n I b))).
  change ((energy J j - energy I i) * rsum (sdim RRing J) (fun a => nth a u 0 * rsum (sdim RRing I) (fun b => e y a b * nth b v 0)) =
    rsum n (fun x => h s x y * rsum (sdim RRing J) (fun a => nth a u 0 * rsum (sdim RRing I) (fun b => e x a b * nth b v 0)))).
  assert (A : energy J j * rsum (sdim RRing J) (fun a => nth a u 0 * rsum (sdim RRing I) (fun b => e y a b * nth b v 0)) =
    rsum (sdim RRing J) (fun a => rsum (sdim RRing I) (fun b => nth a u 0 * nth b v 0 * hop_sum (fun x z => [Cr x; An z; Cr (y + s * n)]) (basis RRing n J a) (basis RRing n I b)))).
  { rewrite <- rsum_scal_l.
    rewrite (rsum_ext _ _ (fun a => rsum (sdim RRing J) (fun a' => rsum (sdim RRing I) (fun b => nth a' u 0 * nth b v 0 * (free_ham n h (basis RRing n J a') (basis RRing n J a) * e y a b))))).
    - rewrite rsum_swap. apply rsum_ext. intros a' _. rewrite rsum_swap. apply rsum_ext. intros b Hb. rewrite rsum_scal_l. f_equal.
      apply (hop_sum_ins p' q' J [Cr (y + s * n)]); auto. intros z t W. apply word1 in W.
      exact (to_sector OpCdg n s y p q p' q' _ z t Hs Hy SH (basis_sec n p q I b HI Hb) W).
    - intros a Ha. rewrite <- Rmult_assoc. rewrite <- (EJ a Hj Ha). rewrite <- rsum_scal_r. apply rsum_ext. intros a' _. rewrite (ham_sym (basis RRing n J a)).
      rewrite <- rsum_scal_l. apply rsum_ext. intros b _. ring. }
  assert (B : energy I i * rsum (sdim RRing J) (fun a => nth a u 0 * rsum (sdim RRing I) (fun b => e y a b * nth b v 0)) =
    rsum (sdim RRing J) (fun a => rsum (sdim RRing I) (fun b => nth a u 0 * nth b v 0 * hop_sum (fun x z => [Cr (y + s * n); Cr x; An z]) (basis RRing n J a) (basis RRing n I b)))).
  { rewrite <- rsum_scal_l. apply rsum_ext. intros a _.
    rewrite (rsum_ext (sdim RRing I) (fun b => nth a u 0 * nth b v 0 * _) (fun b => rsum (sdim RRing I) (fun b' => nth a u 0 * (e y a b' * (free_ham n h (basis RRing n I b') (basis RRing n I b) * nth b v 0))))).
    - rewrite rsum_swap. rewrite <- Rmult_assoc, (Rmult_comm (energy I i)), Rmult_assoc. rewrite <- rsum_scal_l, <- rsum_scal_l. apply rsum_ext. intros b' Hb'.
      rewrite rsum_scal_l, rsum_scal_l. rewrite (EI b' Hi Hb'). ring.
    - intros b Hb. pose proof (ins_hop_sum p q I [Cr (y + s * n)] (basis RRing n J a) (basis RRing n I b) HI (basis_sec n p q I b HI Hb)) as Q. cbn [app] in Q.
      rewrite <- Q. rewrite <- rsum_scal_l. apply rsum_ext. intros b' _. unfold e. ring. }
  rewrite Rmult_minus_distr_r, A, B. rewrite <- rsum_sub.
  rewrite (rsum_ext n _ (fun x => rsum (sdim RRing J) (fun a => rsum (sdim RRing I) (fun b => nth a u 0 * nth b v 0 * (h s x y * e x a b))))).
  2: { intros x _. rewrite <- rsum_scal_l. apply rsum_ext. intros a _. rewrite <- Rmult_assoc, <- rsum_scal_l. apply rsum_ext. intros b _. fold (e x a b). ring. }
  rewrite rsum_swap. apply rsum_ext. intros a _. rewrite <- rsum_sub. rewrite rsum_swap. apply rsum_ext. intros b _. rewrite rsum_scal_l.
  rewrite <- Rmult_minus_distr_l. f_equal. unfold hop_sum. rewrite <- rsum_sub.
  rewrite (rsum_single 2 _ s ltac:(lia)).
  - rewrite <- rsum_sub. apply rsum_ext. intros x Hx. rewrite <- rsum_sub. rewrite (rsum_single n _ y Hy).
    + rewrite <- Rmult_minus_distr_l. f_equal. etransitivity; [symmetry; apply z2k_sub|]. rewrite commutator by nia. rewrite Nat.eqb_refl. reflexivity.
    + intros z Hz NE. rewrite <- Rmult_minus_distr_l. etransitivity; [apply f_equal; symmetry; apply z2k_sub|]. rewrite commutator by nia.
      destruct (Nat.eqb_spec (z + s * n) (y + s * n)); [lia|]. apply Rmult_0_r.
  - intros r Hr NE. rewrite <- rsum_sub. apply rsum_0. intros x Hx. rewrite <- rsum_sub. apply rsum_0. intros z Hz.
    rewrite <- Rmult_minus_distr_l. etransitivity; [apply f_equal; symmetry; apply z2k_sub|]. rewrite commutator by nia.
    destruct (Nat.eqb_spec (z + r * n) (y + s * n)) as [E|]; [|apply Rmult_0_r]. exfalso. destruct r as [|[|]], s as [|[|]]; lia.
Qed.
End Eom.

Add Ring Cxring : cx_ring.
Add Field Cxfield : cx_field.

Section Resolvent.
Variables (n : nat) (es : espace RRing) (F : family) (beta egs : R) (s : nat) (h : nat -> nat -> nat -> R).
Hypothesis HF : lists_family n es F. Hypothesis Hs : (s <= 1)%nat.
Hypothesis HB : forall p q, (p <= n)%nat -> (q <= n)%nat -> eigenbasis (F p q).
Hypothesis Hh : forall s x y, (s < 2)%nat -> (x < n)%nat -> (y < n)%nat -> h s x y = h s y x.
Hypothesis HP : free_pairs n h F.

Lemma pole_ne z x : im z <> 0 -> cxsub z (rcx x) <> rcx 0.
Proof. intros H E. apply H. apply (f_equal im) in E. destruct z as [a b]. cbv [im cxsub cxadd cxopp rcx re fst snd] in *. lra. Qed.

Lemma resolvent x y z : (x < n)%nat -> (y < n)%nat -> im z <> 0 ->
  csum n (fun c => cxmul (lehmann n s x c beta egs F z) (shifted_mat z (h s) c y)) = if (x =? y)%nat then rcx (Zsum n beta egs F) else rcx 0.
Proof.
  intros Hx Hy Hz. pose proof HF as (_ & _ & HS).
  transitivity (rcx (if (x =? y)%nat then Zsum n beta egs F else 0)); [|destruct (x =? y)%nat; reflexivity].
  rewrite <- (gm_sum_rule n es F beta egs s HF Hs HB x y Hx Hy). unfold lehmann.
  rewrite (csum_ext n _ (fun c => csum n (fun m => csum (S n) (fun o => csum (nvals (of_spin F s (S m) o)) (fun j => csum (nvals (of_spin F s m o)) (fun i =>
    cxmul (cxdiv (rcx (add_amp n s x (of_spin F s (S m) o) (of_spin F s m o) j i * add_amp n s c (of_spin F s (S m) o) (of_spin F s m o) j i *
       (weight beta egs (energy (of_spin F s (S m) o) j) + weight beta egs (energy (of_spin F s m o) i))))
       (cxsub z (rcx (energy (of_spin F s (S m) o) j - energy (of_spin F s m o) i)))) (shifted_mat z (h s) c y))))))).
  2: { intros c Hc. etransitivity; [apply (Rmul_comm cx_ring)|]. rewrite <- csum_scal_l. apply csum_ext. intros m _. rewrite <- csum_scal_l. apply csum_ext. intros o _. cbv zeta.
       rewrite <- csum_scal_l. apply csum_ext. intros j _. rewrite <- csum_scal_l. apply csum_ext. intros i _. ring. }
  rewrite csum_swap, rcx_sum. apply csum_ext. intros m Hm. rewrite csum_swap, rcx_sum. apply csum_ext. intros o Ho.
  rewrite csum_swap, rcx_sum. apply csum_ext. intros j Hj. rewrite csum_swap, rcx_sum. apply csum_ext. intros i Hi.
  assert (E : (energy (of_spin F s (S m) o) j - energy (of_spin F s m o) i) * add_amp n s y (of_spin F s (S m) o) (of_spin F s m o) j i =
     rsum n (fun c => h s c y * add_amp n s c (of_spin F s (S m) o) (of_spin F s m o) j i)).
  { clear - Hs Hm Ho Hj Hi Hy HS Hh HP. destruct s as [|[|]]; [| |lia]; cbn [of_spin] in *.
    - apply (eom n h Hh F HS HP 0 m o (S m) o); auto; try lia. split; reflexivity.
    - apply (eom n h Hh F HS HP 1 o m o (S m)); auto; try lia. split; reflexivity. }
  set (D := energy (of_spin F s (S m) o) j - energy (of_spin F s m o) i) in *. unfold pair_w.
  set (W := weight beta egs (energy (of_spin F s (S m) o) j) + weight beta egs (energy (of_spin F s m o) i)).
  set (A := fun c => add_amp n s c (of_spin F s (S m) o) (of_spin F s m o) j i) in *.
  change (csum n (fun c => cxmul (cxdiv (rcx (A x * A c * W)) (cxsub z (rcx D))) (shifted_mat z (h s) c y)) = rcx (A x * A y * W)).
  change (D * A y = rsum n (fun c => h s c y * A c)) in E.
  rewrite (csum_ext n _ (fun c => cxmul (cxdiv (rcx (A x * W)) (cxsub z (rcx D))) (cxsub (if (c =? y)%nat then cxmul z (rcx (A y)) else rcx 0) (rcx (h s c y * A c))))).
  2: { intros c _. unfold shifted_mat, delta. destruct (Nat.eqb_spec c y) as [->|]; rewrite !rcx_mul; unfold cxdiv; ring. }
  rewrite csum_scal_l, csum_sub, <- rcx_sum, <- E.
  rewrite (csum_single n (fun c => if (c =? y)%nat then cxmul z (rcx (A y)) else rcx 0) y Hy).
  2: { intros c _ N. destruct (Nat.eqb_spec c y); [congruence|reflexivity]. }
  rewrite Nat.eqb_refl, !rcx_mul. pose proof (pole_ne z D Hz) as NZ.
  transitivity (cxmul (cxmul (rcx (A x)) (rcx W)) (cxmul (rcx (A y)) (cxdiv (cxsub z (rcx D)) (cxsub z (rcx D))))); [unfold cxdiv; ring|].
  replace (cxdiv (cxsub z (rcx D)) (cxsub z (rcx D))) with (rcx 1) by (field; exact NZ). ring.
Qed.

Theorem gm_free : exists g, build_gf2_exact n es beta egs (Z.of_nat s) = Ok g /\
  forall e eta, im (zpoint e eta) <> 0 -> exists G, gm_call g e eta = Ok G /\ length G = n /\ (forall r, In r G -> length r = n) /\
    inverse_mat n (entry G) (shifted_mat (zpoint e eta) (h s)).
Proof.
  destruct (gm_lehmann n es F beta egs s HF Hs) as (g & E & _ & H). exists g. split; [exact E|]. intros e eta Hz.
  eexists. split; [apply H|]. split; [now rewrite map_length, seq_length|].
  split. { intros r Hr. apply in_map_iff in Hr. destruct Hr as (x & <- & _). now rewrite map_length, seq_length. }
  set (z := zpoint e eta) in *.
  assert (EN : forall x y, (x < n)%nat -> (y < n)%nat -> entry (map (fun x => map (fun y => cxdiv (lehmann n s x y beta egs F z) (rcx (Zsum n beta egs F))) (seq 0 n)) (seq 0 n)) x y
     = cxdiv (lehmann n s x y beta egs F z) (rcx (Zsum n beta egs F))).
  { intros x y Hx Hy. unfold entry.
    rewrite (nth_indep _ [] (map (fun y => cxdiv (lehmann n s 0 y beta egs F z) (rcx (Zsum n beta egs F))) (seq 0 n))) by (now rewrite map_length, seq_length).
    rewrite (map_nth (fun x => map (fun y => cxdiv (lehmann n s x y beta egs F z) (rcx (Zsum n beta egs F))) (seq 0 n)) (seq 0 n) 0%nat), seq_nth by auto. cbn [Nat.add].
    rewrite (nth_indep _ (rcx 0) (cxdiv (lehmann n s x 0 beta egs F z) (rcx (Zsum n beta egs F)))) by (now rewrite map_length, seq_length).
    rewrite (map_nth (fun y => cxdiv (lehmann n s x y beta egs F z) (rcx (Zsum n beta egs F))) (seq 0 n) 0%nat), seq_nth by auto. reflexivity. }
  intros x y Hx Hy.
  assert (ZP : rcx (Zsum n beta egs F) <> rcx 0).
  { intros Q. apply rcx_inj in Q. pose proof (Zsum_pos n es F beta egs x HF Hx HB). lra. }
  assert (R : forall x y, (x < n)%nat -> (y < n)%nat -> csum n (fun c => cxmul (cxdiv (lehmann n s x c beta egs F z) (rcx (Zsum n beta egs F))) (shifted_mat z (h s) c y)) = delta x y).
  { intros x' y' Hx' Hy'. rewrite (csum_ext n _ (fun c => cxmul (cxinv (rcx (Zsum n beta egs F))) (cxmul (lehmann n s x' c beta egs F z) (shifted_mat z (h s) c y')))) by (intros; unfold cxdiv; ring).
    rewrite csum_scal_l, resolvent by auto. unfold delta. destruct (x' =? y')%nat; [field; exact ZP|ring]. }
  split.
  - rewrite (csum_ext n _ (fun c => cxmul (cxdiv (lehmann n s x c beta egs F z) (rcx (Zsum n beta egs F))) (shifted_mat z (h s) c y))); [now apply R|].
    intros c Hc. now rewrite EN.
  - rewrite (csum_ext n _ (fun c => cxmul (cxdiv (lehmann n s y c beta egs F z) (rcx (Zsum n beta egs F))) (shifted_mat z (h s) c x))).
    + rewrite R by auto. unfold delta. now rewrite Nat.eqb_sym.
    + intros c Hc. rewrite EN by auto. rewrite (lehmann_sym n s c y). unfold shifted_mat, delta. rewrite (Nat.eqb_sym x c), (Hh s x c) by lia. ring.
Qed.
End Resolvent.
