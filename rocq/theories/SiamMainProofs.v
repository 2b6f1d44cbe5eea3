(** The self-energy of an impurity in a star of bath levels. *)
From Coq Require Import Reals List Arith NArith ZArith Bool Lia Lra Psatz Ring Field.
From Verif Require Import Base RBase RLin CBase OperatorsSpec FockSpec FockProofs SectorModel LocalModel MatvecModel EspaceModel ProjModel ProjSpec ProjProofs ProjFinalProofs
  CfModel CfSpec GfModel GfSpec GfProofs GfSumProofs GfMoreProofs GmModel GmSpec GmFockProofs GmProofs GmFreeProofs GmEomProofs GflSpec GflLoopProofs GflMainProofs GflPairProofs AgrProofs
  VisSpec VisMainProofs SiamSpec SiamLinProofs SiamFockProofs SiamStateProofs SiamFormProofs.
Import ListNotations.
Local Open Scope R_scope.
Add Field cxf_siammain : cx_field.

Section Impurity.
Variables (n s : nat) (beta egs : R) (vis : espace RRing) (M : nat -> nat -> nat -> nat -> R) (h : nat -> nat -> nat -> R) (u : nat -> R) (c0 e0 : R) (ek vk : nat -> R).
Hypothesis Hs : (s <= 1)%nat.
Hypothesis Hn : (0 < n)%nat.
Hypothesis HS : sectors n vis.
Hypothesis HE : eigenstates n M vis.
Hypothesis HM : hubbard_family n h u c0 M.
Hypothesis Hh : symmetric_hopping n h.
Hypothesis HT : star n s h u e0 ek vk.
Hypothesis HN : 0 < Zof beta egs vis.
Notation N := (Zof beta egs vis).
Notation BB := (B n s beta egs vis).
Notation KK := (K n s M).
Notation x := (xk n s).
Notation ox := (occx n s).

Lemma family_sym p q : (p <= n)%nat -> (q <= n)%nat -> matrix_symmetric (dimn n p q) (M p q).
Proof.
  intros Hp Hq a b Ha Hb. rewrite !HM by auto. unfold hubbard. rewrite (ham_sym n h Hh), (Nat.eqb_sym b a). f_equal. f_equal.
  rewrite (N.eqb_sym (basis RRing n (bare n p q) b)). destruct (N.eqb_spec (basis RRing n (bare n p q) a) (basis RRing n (bare n p q) b)) as [->|]; reflexivity.
Qed.
Lemma state_eigen p q sc i : In ([p; q], sc) vis -> is_sector RRing n p q sc -> (i < nvals sc)%nat -> forall b, (b < sdim RRing sc)%nat ->
  rsum (sdim RRing sc) (fun c => hubbard n h u (basis RRing n sc b) (basis RRing n sc c) * nth c (vec RRing sc i) 0) = (energy sc i - c0) * nth b (vec RRing sc i) 0.
Proof.
  intros Hin SC Hi b Hb. pose proof (dimn_sector n p q sc SC) as D. pose proof SC as (Hp & Hq & _). rewrite <- D in *.
  rewrite Rmult_minus_distr_r, <- (proj2 (HE p q sc Hin) i b Hi Hb). transitivity (rsum (dimn n p q) (fun c => M p q b c * nth c (vec RRing sc i) 0) - rsum (dimn n p q) (fun c => (if (b =? c)%nat then c0 else 0) * nth c (vec RRing sc i) 0)).
  - rewrite <- rsum_sub. apply rsum_ext. intros c Hc. rewrite HM by auto. rewrite !(basis_sector n p q sc) by auto. ring.
  - f_equal. rewrite (rsum_single _ _ b Hb); [now rewrite Nat.eqb_refl|]. intros c _ NE. destruct (Nat.eqb_spec b c); [congruence|ring].
Qed.
Lemma eom k f : (k < n)%nat -> BB (KK (x k)) f = rsum n (fun l => h s l k * BB (x l) f) + u k * BB (ox k) f.
Proof.
  intros Hk. transitivity (BB (fun t => 1 * comb _ n (fun l => h s l k) x t + u k * ox k t) f).
  - apply B_ext_in. intros b a Hb Ha. destruct (in_sectors n vis M HS b Hb) as (p & q & sc & E & Hin & SC & Hi).
    unfold K, comb, occx, xk, Km, dm in *. cbn [fst snd]. destruct (dest n s b) as [[p' q']|] eqn:D; [|lia].
    pose proof (dest_range n s vis M HS Hs b p' q' Hb D) as [Hp' Hq']. unfold dest in D. rewrite E in D. cbn [fst] in D. unfold en. rewrite E. cbn [snd].
    rewrite Rmult_1_l. rewrite <- (exc_motion n s p q sc Hs SC h u (energy sc (bl_i b) - c0) _ k p' q' (bl_i b) a Hh D Hk Ha (state_eigen p q sc (bl_i b) Hin SC Hi)).
    apply rsum_ext. intros c Hc. f_equal. unfold CfSpec.shifted. rewrite !(HM p' q' a c) by auto. destruct (Nat.eqb a c), (Rltb (side (bl_op b)) 0); ring.
  - rewrite B_lin. rewrite (B_comb _ _ (B_ext n s beta egs vis) (B_lin n s beta egs vis)). ring.
Qed.
Lemma block_over op e i k l : forall p q, fst e = [p; q] -> wt beta egs (op, e, i) * rsum (dm n s (op, e, i)) (fun a => x k (op, e, i, a) * x l (op, e, i, a)) =
  weight beta egs (energy (snd e) i) * over n s p q (snd e) op k l (fun b => nth b (vec RRing (snd e) i) 0) (fun b => nth b (vec RRing (snd e) i) 0).
Proof.
  intros p q. destruct e as [key sc]. cbn [fst snd]. intros ->. unfold wt, en, dm, xk, dest, over. cbn [fst snd bl_op bl_e bl_i]. destruct (moved n op (Z.of_nat s) p q) as [[p' q']|]; [|reflexivity].
  f_equal. apply rsum_ext. intros a _. now rewrite !(exc_act n s _ Hs).
Qed.
Lemma block_occ op e i k : forall p q, fst e = [p; q] -> is_sector RRing n p q (snd e) -> (k < n)%nat -> wt beta egs (op, e, i) * rsum (dm n s (op, e, i)) (fun a => ox k (op, e, i, a) * x k (op, e, i, a)) =
  weight beta egs (energy (snd e) i) * over n s p q (snd e) op k k (fun b => occR (basis RRing n (snd e) b) (other n s k) * nth b (vec RRing (snd e) i) 0) (fun b => nth b (vec RRing (snd e) i) 0).
Proof.
  intros p q. destruct e as [key sc]. cbn [fst snd]. intros -> SC Hk. unfold wt, en, dm, occx, xk, dest, over. cbn [fst snd bl_op bl_e bl_i]. destruct (moved n op (Z.of_nat s) p q) as [[p' q']|] eqn:D; [|reflexivity].
  f_equal. apply rsum_ext. intros a Ha. rewrite !(exc_act n s _ Hs). f_equal.
  exact (act_other n s h u Hs Hh op sc (bare n p' q') k _ a Hk).
Qed.
Lemma state_norm p q sc i : In ([p; q], sc) vis -> (i < nvals sc)%nat -> is_sector RRing n p q sc -> rsum (sdim RRing sc) (fun b => nth b (vec RRing sc i) 0 * nth b (vec RRing sc i) 0) = 1.
Proof.
  intros Hin Hi SC. pose proof (proj1 (HE p q sc Hin) i i Hi Hi) as O. rewrite Nat.eqb_refl, (dimn_sector n p q sc SC) in O. exact O.
Qed.
Lemma orth k l : (k < n)%nat -> (l < n)%nat -> BB (x k) (x l) = if (k =? l)%nat then N else 0.
Proof.
  intros Hk Hl. unfold B. rewrite sum_blocks.
  transitivity (rsuml (map (fun e => (if (k =? l)%nat then 1 else 0) * rsum (nvals (snd e)) (fun i => weight beta egs (energy (snd e) i))) vis)).
  - apply rsuml_ext. intros [key sc] He. destruct (proj2 HS key sc He) as (p & q & -> & SC). cbn [snd]. rewrite <- rsum_scal_l. apply rsum_ext. intros i Hi.
    rewrite !(block_over _ _ _ _ _ p q) by reflexivity. cbn [snd]. rewrite <- Rmult_plus_distr_l. destruct (Nat.eqb_spec k l) as [->|NE].
    + rewrite (over_same n s p q sc Hs SC) by auto. rewrite (state_norm p q sc i He Hi SC). ring.
    + rewrite (over_diff n s p q sc Hs SC) by auto. ring.
  - rewrite rsuml_scal. fold N. unfold Zof. destruct (k =? l)%nat; ring.
Qed.
Lemma occ_pair : BB (ox 0) (x 0) = occupation n beta egs vis (other n s 0).
Proof.
  unfold B. rewrite sum_blocks. apply rsuml_ext. intros [key sc] He. destruct (proj2 HS key sc He) as (p & q & -> & SC). cbn [snd]. apply rsum_ext. intros i Hi.
  rewrite !(block_occ _ _ _ _ p q) by (auto; reflexivity). cbn [snd]. rewrite <- Rmult_plus_distr_l. f_equal.
  rewrite (over_same n s p q sc Hs SC) by auto. apply rsum_ext. intros; ring.
Qed.

(** Equations of motion in the form used by [SiamLinProofs]. *)
Definition yy : vect := fun t => u 0%nat * ox 0 t.
Lemma B_yy f : BB yy f = u 0%nat * BB (ox 0) f.
Proof. unfold yy. rewrite (B_ext n s beta egs vis _ (fun t => u 0%nat * ox 0 t + 0 * ox 0 t)) by (intros; ring). rewrite B_lin. ring. Qed.
Lemma eom_imp f : BB (KK (x 0)) f = e0 * BB (x 0) f + rsum (n - 1) (fun k => vk (S k) * BB (x (S k)) f) + BB yy f.
Proof.
  rewrite eom, B_yy by auto. f_equal. replace n with (S (n - 1)) at 1 by lia. rewrite rsum_S_l. destruct HT as [H0 HK]. rewrite H0. f_equal.
  apply rsum_ext. intros k Hk. rewrite (Hh s (S k) 0%nat) by lia. destruct (HK (S k) ltac:(lia)) as [_ HK']. rewrite (HK' 0%nat) by lia. reflexivity.
Qed.
Lemma eom_bath k f : (0 < k < n)%nat -> BB (KK (x k)) f = vk k * BB (x 0) f + ek k * BB (x k) f.
Proof.
  intros Hk. rewrite eom by lia. destruct HT as [_ HK]. destruct (HK k Hk) as [-> HK']. rewrite Rmult_0_l, Rplus_0_r.
  replace n with (S (n - 1)) at 1 by lia. rewrite rsum_S_l. rewrite (HK' 0%nat) by lia. cbn [Nat.eqb]. f_equal.
  rewrite (rsum_single (n - 1) _ (k - 1) ltac:(lia)).
  2:{ intros l Hl NE. rewrite (HK' (S l)) by lia. destruct (Nat.eqb_spec (S l) 0); [lia|]. destruct (Nat.eqb_spec (S l) k); [lia|ring]. }
  replace (S (k - 1)) with k by lia. rewrite HK' by lia. destruct (Nat.eqb_spec k 0); [lia|]. now rewrite Nat.eqb_refl.
Qed.

Section Point.
Variables (z : cx) (X : fop -> qnums -> nat -> nat -> cx).
Hypothesis RS : resolved n M (Z.of_nat s) vis 0 z X.
Hypothesis Hz : im z <> 0.
Notation gsum := (csuml (map (fun op => csuml (map (contribution n beta egs (Z.of_nat s) 0 X op) vis)) [OpCdg; OpC])).
Notation PP := (pairing _ BB (Xr X) (Xi X)).
Notation Delta := (hybridisation n ek vk z).

Lemma R1' f : re z * BB f (Xr X) - im z * BB f (Xi X) - BB (KK f) (Xr X) = BB f (x 0).
Proof. exact (form_R1 n s beta egs vis M HS family_sym Hs z X RS f). Qed.
Lemma R2' f : im z * BB f (Xr X) + re z * BB f (Xi X) - BB (KK f) (Xi X) = 0.
Proof. exact (form_R2 n s beta egs vis M HS family_sym Hs z X RS f). Qed.
Lemma gsum_pair : gsum = PP (x 0).
Proof. symmetry. exact (pairing_green n s beta egs vis HS X 0). Qed.
Lemma gsum_dyson : cxmul (cxsub (cxsub z (rcx e0)) Delta) gsum = cxadd (rcx N) (PP yy).
Proof. rewrite gsum_pair. exact (impurity_eq _ BB KK z _ _ _ R1' R2' n x yy N e0 ek vk Hn orth eq_refl eom_imp eom_bath Hz). Qed.
Lemma gsum_nonzero : gsum <> rcx 0.
Proof.
  rewrite gsum_pair. exact (impurity_nonzero _ BB (B_sym n s beta egs vis) (B_lin n s beta egs vis) (B_pos n s beta egs vis) KK (K_sym n s beta egs vis M HS family_sym Hs) z _ _ _ R1' R2' n x N Hn HN orth eq_refl Hz).
Qed.
Lemma gsum_im : 0 < im z -> im gsum <= 0.
Proof.
  intros V. rewrite gsum_pair. rewrite (im_pair0 _ BB (B_sym n s beta egs vis) KK (K_sym n s beta egs vis M HS family_sym Hs) z _ _ _ R1' R2').
  pose proof (nX_nonneg _ BB (B_pos n s beta egs vis) (Xr X) (Xi X)). nra.
Qed.
Lemma gsum_inverse : 0 < im z -> im (cxsub z Delta) <= im (cxmul (rcx N) (cxinv gsum)).
Proof.
  intros V. rewrite gsum_pair.
  exact (inverse_im _ BB (B_sym n s beta egs vis) (B_ext n s beta egs vis) (B_lin n s beta egs vis) (B_pos n s beta egs vis) KK (K_sym n s beta egs vis M HS family_sym Hs) z _ _ _ R1' R2'
    n x N ek vk Hn HN orth eq_refl eom_bath Hz V).
Qed.
(** What the code calls the self-energy, with the divisor [Z'] of the Green's function. *)
Definition selfen (Z' : R) : cx := cxsub (cxsub (cxsub z (rcx e0)) Delta) (cxinv (cxdiv gsum (rcx Z'))).
Lemma selfen_num Z' : Z' <> 0 -> selfen Z' = cxdiv (cxadd (rcx (N - Z')) (PP yy)) gsum.
Proof.
  intros HZ. assert (HC : rcx Z' <> rcx 0) by (intros E; apply HZ; now injection E). pose proof gsum_nonzero as G0.
  unfold selfen. transitivity (cxdiv (cxsub (cxmul (cxsub (cxsub z (rcx e0)) Delta) gsum) (rcx Z')) gsum).
  - set (G := gsum) in *. set (D := cxsub (cxsub z (rcx e0)) Delta). field. auto.
  - rewrite gsum_dyson. f_equal. apply cx_eq; cbn; ring.
Qed.
Lemma selfen_causal Z' : N <= Z' -> 0 < im z -> im (selfen Z') <= 0.
Proof.
  intros L V. assert (HC : rcx Z' <> rcx 0) by (intros E; injection E; lra). pose proof gsum_nonzero as G0. pose proof (gsum_inverse V) as I1. pose proof (gsum_im V) as I2.
  replace (selfen Z') with (cxsub (cxsub (cxsub z (rcx e0)) Delta) (cxmul (rcx Z') (cxinv gsum))) by (unfold selfen; set (G := gsum) in *; field; auto).
  set (G := gsum) in *. pose proof (cxn2_pos _ G0) as P. assert (I3 : 0 <= im (cxinv G)).
  { rewrite im_inv. apply Rmult_le_pos; [lra|]. left. now apply Rinv_0_lt_compat. }
  assert (I4 : 0 <= (Z' - N) * im (cxinv G)) by (apply Rmult_le_pos; lra).
  assert (I5 : im (cxmul (rcx N) (cxinv G)) = N * im (cxinv G)) by (cbn; ring). assert (I6 : im (cxmul (rcx Z') (cxinv G)) = Z' * im (cxinv G)) by (cbn; ring).
  assert (I7 : im (cxsub (cxsub (cxsub z (rcx e0)) Delta) (cxmul (rcx Z') (cxinv G))) = im (cxsub z Delta) - im (cxmul (rcx Z') (cxinv G))) by (cbn; ring).
  rewrite I7, I6. rewrite I5 in I1. lra.
Qed.
End Point.

Lemma occupation_nonint X : u 0%nat = 0 -> pairing _ BB (Xr X) (Xi X) yy = rcx 0.
Proof. intros U0. unfold pairing. rewrite !B_yy, U0, !Rmult_0_l. reflexivity. Qed.
Lemma selfen_free z X Z' : u 0%nat = 0 -> resolved n M (Z.of_nat s) vis 0 z X -> im z <> 0 -> Z' <> 0 -> selfen z X Z' = cxmul (rcx (1 - Z' / N)) (cxsub (cxsub z (rcx e0)) (hybridisation n ek vk z)).
Proof.
  intros U0 RS Hz HZ. rewrite (selfen_num z X RS Hz) by auto. pose proof (gsum_dyson z X RS Hz) as D. rewrite (occupation_nonint X U0) in *.
  pose proof (gsum_nonzero z X RS Hz) as G0. set (G := csuml _) in *. set (F := cxsub (cxsub z (rcx e0)) (hybridisation n ek vk z)) in *.
  assert (NC : rcx N <> rcx 0) by (intros E; injection E; lra).
  transitivity (cxdiv (cxmul (rcx (1 - Z' / N)) (cxmul F G)) G); [|field; exact G0]. rewrite D. f_equal. apply cx_eq; cbn; field; lra.
Qed.
(** Far from the real axis the self-energy is the mean field of the other spin. *)
Lemma cxn2_sub2 a b : cxn2 (cxsub a b) <= 2 * (cxn2 a + cxn2 b).
Proof. unfold cxn2. cbn. pose proof (Rle_0_sqr (re a + re b)). pose proof (Rle_0_sqr (im a + im b)). unfold Rsqr, re, im in *. lra. Qed.
Lemma selfen_high : exists C V, 0 < V /\ forall z X, V <= im z * im z -> resolved n M (Z.of_nat s) vis 0 z X ->
  cxn2 (cxsub (selfen z X N) (rcx (u 0%nat * occupation n beta egs vis (other n s 0) / N))) <= C / (im z * im z).
Proof.
  set (c := u 0%nat * occupation n beta egs vis (other n s 0) / N).
  set (Cy := BB (KK yy) (KK yy) * N). set (Cg := BB (KK (x 0)) (KK (x 0)) * N).
  assert (PY : 0 <= Cy) by (apply Rmult_le_pos; [apply B_pos|lra]). assert (PG : 0 <= Cg) by (apply Rmult_le_pos; [apply B_pos|lra]).
  exists (8 * (Cy + c * c * Cg) / (N * N)), (4 * Cg / (N * N) + 1). assert (N2 : 0 < N * N) by nra.
  assert (Q : 0 <= 4 * Cg / (N * N)) by (apply Rmult_le_pos; [lra|left; now apply Rinv_0_lt_compat]). split; [lra|].
  intros z X HV RS. assert (Hv2 : 0 < im z * im z) by lra. assert (Hz : im z <> 0) by (intros E; rewrite E in Hv2; lra).
  pose proof (gsum_nonzero z X RS Hz) as G0. rewrite (selfen_num z X RS Hz) by lra. rewrite (gsum_pair X) in *.
  pose proof (remainder _ BB (B_sym n s beta egs vis) (B_lin n s beta egs vis) (B_pos n s beta egs vis) KK (K_sym n s beta egs vis M HS family_sym Hs) z _ _ _ (R1' z X RS) (R2' z X RS)) as RM.
  pose proof (RM yy) as RY. pose proof (RM (x 0)) as RG. rewrite (orth 0 0 Hn Hn) in RY, RG. cbn [Nat.eqb] in RY, RG. fold Cy in RY. fold Cg in RG. clear RM.
  assert (BY : BB yy (x 0) = c * N) by (rewrite B_yy, occ_pair; unfold c; field; lra). rewrite BY in RY.
  set (G := pairing _ BB (Xr X) (Xi X) (x 0)) in *. set (Y := pairing _ BB (Xr X) (Xi X) yy) in *.
  set (w := im z * im z) in *.
  assert (Z0 : z <> rcx 0) by (intros E; apply Hz; now rewrite E).
  set (A := cxsub (cxmul z Y) (rcx (c * N))) in *. set (D := cxsub (cxmul z G) (rcx N)) in *.
  assert (E : cxmul (cxsub (cxdiv (cxadd (rcx (N - N)) Y) G) (rcx c)) (cxmul z G) = cxsub A (cxmul (rcx c) D)).
  { unfold A, D. rewrite rcx_mul. replace (N - N) with 0 by ring. field. exact G0. }
  apply (f_equal cxn2) in E. rewrite cxn2_mul in E. set (S := cxn2 (cxsub (cxdiv (cxadd (rcx (N - N)) Y) G) (rcx c))) in *.
  pose proof (cxn2_sub2 A (cxmul (rcx c) D)) as E2. rewrite <- E, (cxn2_mul (rcx c) D) in E2. replace (cxn2 (rcx c)) with (c * c) in E2 by (unfold cxn2; cbn; ring).
  assert (ND : cxn2 D <= N * N / 4).
  { apply (Rmult_le_reg_l w); [lra|]. apply (Rle_trans _ Cg); [exact RG|]. apply (Rmult_le_reg_r (4 / (N * N))); [apply Rmult_lt_0_compat; [lra|now apply Rinv_0_lt_compat]|].
    replace (w * (N * N / 4) * (4 / (N * N))) with w by (field; lra). replace (Cg * (4 / (N * N))) with (4 * Cg / (N * N)) by (field; lra). lra. }
  assert (NG : N * N / 4 <= cxn2 (cxmul z G)).
  { pose proof (cxn2_sub2 (cxmul z G) D) as T. replace (cxsub (cxmul z G) D) with (rcx N) in T by (unfold D; ring). replace (cxn2 (rcx N)) with (N * N) in T by (unfold cxn2; cbn; ring). lra. }
  assert (S0 : 0 <= S) by apply cxn2_nonneg.
  assert (F : S * (N * N / 4) <= 2 * (Cy + c * c * Cg) / w).
  { apply (Rle_trans _ (S * cxn2 (cxmul z G))); [now apply Rmult_le_compat_l|]. apply (Rle_trans _ _ _ E2). apply (Rmult_le_reg_l w); [lra|].
    replace (w * (2 * (Cy + c * c * Cg) / w)) with (2 * (Cy + c * c * Cg)) by (field; lra).
    assert (0 <= c * c) by apply Rle_0_sqr. assert (c * c * (w * cxn2 D) <= c * c * Cg) by (now apply Rmult_le_compat_l). lra. }
  apply (Rmult_le_reg_r (N * N / 4)); [lra|]. apply (Rle_trans _ _ _ F). apply Req_le. field. split; lra.
Qed.
End Impurity.
