(** Resolvent equations in a space with a positive form: the algebra behind the
    self-energy of an impurity. *)
From Coq Require Import Reals List Arith NArith ZArith Bool Lia Lra Psatz Ring Field.
From Verif Require Import Base RBase RLin CBase.
Import ListNotations.
Local Open Scope R_scope.
Add Field cxf_siam : cx_field.

Lemma im_inv (x : cx) : im (cxinv x) = - im x / cxn2 x. Proof. reflexivity. Qed.
Lemma cxn2_mul x y : cxn2 (cxmul x y) = cxn2 x * cxn2 y.
Proof. unfold cxn2, cxmul; cbn; ring. Qed.
Lemma cxn2_nonneg x : 0 <= cxn2 x. Proof. unfold cxn2. nra. Qed.

Section Form.
Variable I : Type.
Variable B : (I -> R) -> (I -> R) -> R.
Hypothesis Bsym : forall f g, B f g = B g f.
Hypothesis Bext : forall f f' g, (forall i, f i = f' i) -> B f g = B f' g.
Hypothesis Blin : forall a b f g h, B (fun i => a * f i + b * g i) h = a * B f h + b * B g h.
Hypothesis Bpos : forall f, 0 <= B f f.

Lemma cauchy f g : B f g * B f g <= B f f * B g g.
Proof.
  destruct (Req_dec (B g g) 0) as [Z|NZ].
  - (* degenerate *)
    assert (E : B f g = 0); [|rewrite E, Z; lra].
    destruct (Req_dec (B f g) 0) as [|N]; [assumption|exfalso].
    set (t := - (B f f + 1) / (2 * B f g)). pose proof (Bpos (fun i => 1 * f i + t * g i)) as P.
    rewrite Blin, (Bsym f), (Bsym g), !Blin, (Bsym g f), Z in P. unfold t in P.
    replace (1 * (1 * B f f + - (B f f + 1) / (2 * B f g) * B f g) + - (B f f + 1) / (2 * B f g) * (1 * B f g + - (B f f + 1) / (2 * B f g) * 0)) with (-1) in P by (field; exact N). lra.
  - pose proof (Bpos g) as G. set (t := - B f g / B g g). pose proof (Bpos (fun i => 1 * f i + t * g i)) as P.
    rewrite Blin, (Bsym f), (Bsym g), !Blin, (Bsym g f) in P. unfold t in P.
    replace (1 * (1 * B f f + - B f g / B g g * B f g) + - B f g / B g g * (1 * B f g + - B f g / B g g * B g g)) with (B f f - B f g * B f g / B g g) in P by (field; exact NZ).
    apply (Rmult_le_compat_r (B g g)) in P; [|lra]. replace ((B f f - B f g * B f g / B g g) * B g g) with (B f f * B g g - B f g * B f g) in P by (field; exact NZ). lra.
Qed.
Definition comb (n : nat) (c : nat -> R) (x : nat -> I -> R) (i : I) : R := rsum n (fun k => c k * x k i).
Lemma B0 h : B (fun _ => 0) h = 0.
Proof.
  rewrite <- (Bext (fun i => 0 * 0 + 0 * 0)) by (intros; ring). rewrite (Blin 0 0 (fun _ => 0) (fun _ => 0)). ring.
Qed.
Lemma B_comb n c x h : B (comb n c x) h = rsum n (fun k => c k * B (x k) h).
Proof.
  induction n as [|n IH]; [etransitivity; [apply Bext; intros; reflexivity|apply B0]|]. rewrite rsum_S, <- IH.
  rewrite (Bext (comb (S n) c x) (fun i => 1 * comb n c x i + c n * x n i)); [rewrite Blin; ring|]. intros i. unfold comb. rewrite rsum_S. ring.
Qed.
Lemma bessel_form n x N f : 0 < N -> (forall k l, (k < n)%nat -> (l < n)%nat -> B (x k) (x l) = if (k =? l)%nat then N else 0) ->
  rsum n (fun k => B (x k) f * B (x k) f) <= N * B f f.
Proof.
  intros HN HO. set (c := fun k => B (x k) f / N). pose proof (Bpos (fun i => 1 * f i + (-1) * comb n c x i)) as P.
  rewrite Blin, (Bsym f), (Bsym (comb n c x)), !Blin, (Bsym f (comb n c x)) in P. rewrite !B_comb in P.
  assert (E : rsum n (fun k => c k * B (x k) (comb n c x)) = rsum n (fun k => c k * B (x k) f)).
  { apply rsum_ext. intros k Hk. f_equal. rewrite Bsym, B_comb, (rsum_single n _ k Hk).
    - rewrite HO by auto. rewrite Nat.eqb_refl. unfold c. field. lra.
    - intros l Hl NE. rewrite HO by auto. destruct (Nat.eqb_spec l k); [congruence|ring]. }
  rewrite E in P.
  assert (F : N * rsum n (fun k => c k * B (x k) f) = rsum n (fun k => B (x k) f * B (x k) f)).
  { rewrite <- rsum_scal_l. apply rsum_ext. intros k _. unfold c. field. lra. }
  rewrite <- F. apply (Rmult_le_compat_l N) in P; lra.
Qed.

(** ** Resolvents *)
Variable K : (I -> R) -> I -> R.
Hypothesis Ksym : forall f g, B (K f) g = B f (K g).
Variables (z : cx) (Xr Xi x0 : I -> R).
Let u := re z. Let v := im z.
Hypothesis R1 : forall f, u * B f Xr - v * B f Xi - B (K f) Xr = B f x0.
Hypothesis R2 : forall f, v * B f Xr + u * B f Xi - B (K f) Xi = 0.
Definition pairing (f : I -> R) : cx := (B f Xr, B f Xi).
Let nX := B Xr Xr + B Xi Xi.
Lemma resolvent_eq f : cxmul z (pairing f) = cxadd (rcx (B f x0)) (pairing (K f)).
Proof. apply cx_eq; cbn; [rewrite <- R1|generalize (R2 f)]; unfold u, v; lra. Qed.
Lemma im_pair0 : im (pairing x0) = - v * nX.
Proof.
  cbn. pose proof (R1 Xi) as A. pose proof (R2 Xr) as C. rewrite (Ksym Xi Xr), (Bsym Xi (K Xr)) in A. rewrite (Bsym Xi x0) in A. rewrite (Bsym Xi Xr) in A. unfold nX. lra.
Qed.
Lemma pairing_bound f : cxn2 (pairing f) <= B f f * nX.
Proof. unfold cxn2, pairing, nX. cbn. pose proof (cauchy f Xr). pose proof (cauchy f Xi). lra. Qed.
Lemma nX_nonneg : 0 <= nX. Proof. unfold nX. pose proof (Bpos Xr). pose proof (Bpos Xi). lra. Qed.
Lemma nX_bound : v * v * nX <= B x0 x0.
Proof.
  pose proof im_pair0 as E. cbn in E. pose proof (cauchy x0 Xi) as C. rewrite E in C. pose proof (Bpos Xr). pose proof (Bpos Xi). pose proof nX_nonneg as P. pose proof (Bpos x0) as P0.
  destruct (Req_dec nX 0) as [Z|NZ]; [rewrite Z; lra|].
  assert (B Xi Xi <= nX) by (unfold nX; lra). assert (v * v * nX * nX <= B x0 x0 * nX) by nra.
  apply (Rmult_le_reg_r nX); lra.
Qed.
Lemma nX_zero : nX = 0 -> forall f, B f x0 = 0.
Proof.
  intros Z f. pose proof (pairing_bound f) as A. pose proof (pairing_bound (K f)) as C. rewrite Z, Rmult_0_r in A, C.
  assert (P : forall g, cxn2 (pairing g) <= 0 -> pairing g = rcx 0).
  { intros g H. destruct (Req_dec (cxn2 (pairing g)) 0) as [E|E].
    - unfold cxn2 in E. apply cx_eq; cbn in *; nra.
    - pose proof (cxn2_nonneg (pairing g)). lra. }
  pose proof (resolvent_eq f) as E. rewrite (P f A), (P (K f) C) in E. apply (f_equal re) in E. cbn in E. lra.
Qed.

(** ** An impurity coupled to a star of bath levels *)
Variables (n : nat) (x : nat -> I -> R) (y : I -> R) (N e0 : R) (ek vk : nat -> R).
Hypothesis Hn : (0 < n)%nat.
Hypothesis HN : 0 < N.
Hypothesis HO : forall k l, (k < n)%nat -> (l < n)%nat -> B (x k) (x l) = if (k =? l)%nat then N else 0.
Hypothesis Hx0 : x0 = x 0%nat.
(** Equations of motion: [k = 0] the impurity, [0 < k] a level of energy [ek k] coupled by [vk k]. *)
Hypothesis Himp : forall f, B (K (x 0%nat)) f = e0 * B (x 0%nat) f + rsum (n - 1) (fun k => vk (S k) * B (x (S k)) f) + B y f.
Hypothesis Hbath : forall k f, (0 < k < n)%nat -> B (K (x k)) f = vk k * B (x 0%nat) f + ek k * B (x k) f.
Hypothesis Hv : v <> 0.
Notation G := (pairing (x 0%nat)).

Lemma off_axis e : cxsub z (rcx e) <> rcx 0.
Proof. intros E. apply (f_equal im) in E. cbn in E. apply Hv. unfold v. lra. Qed.
Lemma bath_green k : (0 < k < n)%nat -> pairing (x k) = cxdiv (cxmul (rcx (vk k)) G) (cxsub z (rcx (ek k))).
Proof.
  intros Hk. pose proof (resolvent_eq (x k)) as E. rewrite Hx0, HO in E by lia. destruct (Nat.eqb_spec k 0) as [|_]; [lia|].
  assert (EK : pairing (K (x k)) = cxadd (cxmul (rcx (vk k)) G) (cxmul (rcx (ek k)) (pairing (x k)))).
  { unfold pairing. rewrite !Hbath by auto. apply cx_eq; cbn; ring. }
  rewrite EK in E. assert (E' : cxmul (cxsub z (rcx (ek k))) (pairing (x k)) = cxmul (rcx (vk k)) G).
  { transitivity (cxsub (cxmul z (pairing (x k))) (cxmul (rcx (ek k)) (pairing (x k)))); [ring|]. rewrite E. ring. }
  rewrite <- E'. field. apply off_axis.
Qed.
Definition hybrid : cx := csum (n - 1) (fun k => cxdiv (rcx (vk (S k) * vk (S k))) (cxsub z (rcx (ek (S k))))).
Lemma impurity_eq : cxmul (cxsub (cxsub z (rcx e0)) hybrid) G = cxadd (rcx N) (pairing y).
Proof.
  pose proof (resolvent_eq (x 0%nat)) as E. rewrite Hx0, HO, Nat.eqb_refl in E by lia.
  assert (EK : pairing (K (x 0%nat)) = cxadd (cxadd (cxmul (rcx e0) G) (cxmul hybrid G)) (pairing y)).
  { unfold pairing at 1. rewrite !Himp. transitivity (cxadd (cxadd (cxmul (rcx e0) G) (csum (n - 1) (fun k => cxmul (rcx (vk (S k))) (pairing (x (S k)))))) (pairing y)).
    - apply cx_eq; cbn [re im fst snd cxadd cxmul rcx pairing]; rewrite ?csum_re, ?csum_im; cbn [re im fst snd cxmul rcx pairing].
      + rewrite (rsum_ext (n - 1) (fun k => _ - _) (fun k => vk (S k) * B (x (S k)) Xr)) by (intros; ring). ring.
      + rewrite (rsum_ext (n - 1) (fun k => vk (S k) * B (x (S k)) Xi + _) (fun k => vk (S k) * B (x (S k)) Xi)) by (intros; ring). ring.
    - f_equal. f_equal. unfold hybrid. transitivity (cxmul G (csum (n - 1) (fun k => cxdiv (rcx (vk (S k) * vk (S k))) (cxsub z (rcx (ek (S k))))))); [|ring].
      rewrite <- csum_scal_l. apply csum_ext. intros k Hk. rewrite bath_green by lia. rewrite rcx_mul. field. apply off_axis. }
  transitivity (cxsub (cxsub (cxmul z G) (cxmul (rcx e0) G)) (cxmul hybrid G)); [ring|]. rewrite E, EK. ring.
Qed.
Lemma impurity_nonzero : G <> rcx 0.
Proof.
  intros E. pose proof im_pair0 as Q. rewrite Hx0, E in Q. cbn in Q. assert (Z : nX = 0) by (apply (Rmult_eq_reg_l (- v)); [lra|lra]).
  pose proof (nX_zero Z (x 0%nat)) as C. rewrite Hx0, HO, Nat.eqb_refl in C by lia. lra.
Qed.
Lemma im_hybrid : im hybrid = - v * rsum (n - 1) (fun k => vk (S k) * vk (S k) / cxn2 (cxsub z (rcx (ek (S k))))).
Proof.
  unfold hybrid. rewrite csum_im, <- rsum_scal_l. apply rsum_ext. intros k _. unfold cxdiv, cxinv. cbn. unfold v.
  pose proof (cxn2_pos _ (off_axis (ek (S k)))). unfold cxn2 in *. cbn in *. field. lra.
Qed.
(** The imaginary part of the inverse is at least that of the free impurity. *)
Lemma inverse_im : 0 < v -> im (cxsub z hybrid) <= im (cxmul (rcx N) (cxinv G)).
Proof.
  intros Hv0. pose proof im_pair0 as Q. rewrite Hx0 in Q. pose proof (cxn2_pos _ impurity_nonzero) as P.
  set (b := rsum (n - 1) (fun k => vk (S k) * vk (S k) / cxn2 (cxsub z (rcx (ek (S k)))))).
  assert (LHS : im (cxsub z hybrid) = v * (1 + b)) by (cbn; rewrite im_hybrid; fold b; unfold v; ring).
  assert (RHS : im (cxmul (rcx N) (cxinv G)) = v * (N * nX / cxn2 G)).
  { transitivity (N * (- im G / cxn2 G)); [cbn; ring|]. rewrite Q. field. lra. }
  rewrite LHS, RHS. apply Rmult_le_compat_l; [lra|].
  apply (Rmult_le_reg_r (cxn2 G)); [exact P|]. replace (N * nX / cxn2 G * cxn2 G) with (N * nX) by (field; lra).
  pose proof (bessel_form n x N Xr HN HO) as A. pose proof (bessel_form n x N Xi HN HO) as C. apply (Rle_trans _ (rsum n (fun k => cxn2 (pairing (x k))))); [|unfold cxn2, pairing, nX; cbn; rewrite rsum_add; lra].
  replace n with (S (n - 1)) by lia. rewrite rsum_S_l. apply Req_le. rewrite Rmult_plus_distr_r, Rmult_1_l. f_equal. unfold b. rewrite <- rsum_scal_r. apply rsum_ext. intros k Hk.
  rewrite (bath_green (S k)) by lia. unfold cxdiv. rewrite !cxn2_mul. pose proof (cxn2_pos _ (off_axis (ek (S k)))) as P'.
  assert (IV : cxn2 (cxinv (cxsub z (rcx (ek (S k))))) = / cxn2 (cxsub z (rcx (ek (S k))))).
  { set (w := cxsub z (rcx (ek (S k)))) in *. unfold cxinv. transitivity ((re w * re w + im w * im w) / (cxn2 w * cxn2 w)); [unfold cxn2 at 1; cbn; field; lra|]. change (re w * re w + im w * im w) with (cxn2 w). field. apply Rgt_not_eq. exact P'. }
  rewrite IV. replace (cxn2 (rcx (vk (S k)))) with (vk (S k) * vk (S k)) by (unfold cxn2; cbn; ring). unfold Rdiv. ring.
Qed.
(** Bounds far from the real axis. *)
Lemma remainder f : v * v * cxn2 (cxsub (cxmul z (pairing f)) (rcx (B f x0))) <= B (K f) (K f) * B x0 x0.
Proof.
  rewrite resolvent_eq. replace (cxsub (cxadd (rcx (B f x0)) (pairing (K f))) (rcx (B f x0))) with (pairing (K f)) by ring.
  pose proof (pairing_bound (K f)) as A. pose proof nX_bound as C. pose proof (Bpos (K f)) as P. assert (V : 0 <= v * v) by nra.
  apply (Rmult_le_compat_l _ _ _ V) in A. apply (Rmult_le_compat_l _ _ _ P) in C. lra.
Qed.
End Form.
