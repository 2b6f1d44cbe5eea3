(** Sums over eigenpairs do not depend on the choice of the eigenvectors. *)
From Coq Require Import Reals List Arith Bool Lia Lra Psatz.
From Verif Require Import Base RBase RLin SpectralProofs SymSpec SymProofs.
Import ListNotations.
Local Open Scope R_scope.

Definition eigen (d : nat) (A : nat -> nat -> R) (v : nat -> nat -> R) (e : nat -> R) : Prop :=
  orthonormal d d v /\ forall k a, (k < d)%nat -> (a < d)%nat -> rsum d (fun b => A a b * v k b) = e k * v k a.

Lemma eigen_sym d A v e : eigen d A v e -> forall a b, (a < d)%nat -> (b < d)%nat -> A a b = A b a.
Proof.
  intros [O E]. assert (X : forall a b, (a < d)%nat -> (b < d)%nat -> A a b = rsum d (fun k => e k * (v k a * v k b))).
  { intros a b Ha Hb. rewrite (rsum_ext d _ (fun k => rsum d (fun c => A a c * (v k c * v k b)))).
    - rewrite rsum_swap. rewrite (rsum_single d _ b Hb).
      + rewrite rsum_scal_l, (orthonormal_complete d d v O eq_refl b b Hb Hb), Nat.eqb_refl. ring.
      + intros c Hc N. rewrite rsum_scal_l, (orthonormal_complete d d v O eq_refl c b Hc Hb). destruct (Nat.eqb_spec c b); [congruence|ring].
    - intros k Hk. rewrite <- Rmult_assoc, <- (E k a Hk Ha), <- rsum_scal_r. apply rsum_ext. intros. ring. }
  intros a b Ha Hb. rewrite !X by auto. apply rsum_ext. intros. ring.
Qed.
Lemma eigen_overlap d A v e w f j k : eigen d A v e -> eigen d A w f -> (j < d)%nat -> (k < d)%nat -> e j <> f k -> rsum d (fun a => v j a * w k a) = 0.
Proof.
  intros Hv Hw Hj Hk NE. pose proof (eigen_sym d A v e Hv) as SY. destruct Hv as [_ Ev], Hw as [_ Ew].
  assert (Q : e j * rsum d (fun a => v j a * w k a) = f k * rsum d (fun a => v j a * w k a)).
  { rewrite <- !rsum_scal_l.
    transitivity (rsum d (fun a => rsum d (fun b => A a b * v j b * w k a))).
    - apply rsum_ext. intros a Ha. rewrite rsum_scal_r, (Ev j a Hj Ha). ring.
    - rewrite rsum_swap. apply rsum_ext. intros b Hb. rewrite (rsum_ext d _ (fun a => v j b * (A b a * w k a))) by (intros a Ha; rewrite (SY a b) by auto; ring).
      rewrite rsum_scal_l, (Ew k b Hk Hb). ring. }
  apply Rmult_eq_reg_l with (e j - f k); [|lra]. lra.
Qed.
(** sum_k phi(e_k) v_k(a) v_k(b) *)
Lemma kernel d A v e w f (phi : R -> R) a b : eigen d A v e -> eigen d A w f -> (a < d)%nat -> (b < d)%nat ->
  rsum d (fun k => phi (e k) * (v k a * v k b)) = rsum d (fun k => phi (f k) * (w k a * w k b)).
Proof.
  intros Hv Hw Ha Hb.
  assert (P : forall u g, eigen d A u g -> forall (x : nat -> R) c, (c < d)%nat -> x c = rsum d (fun l => rsum d (fun i => x i * u l i) * u l c)).
  { intros u g [O _] x c Hc. symmetry. rewrite (rsum_ext d _ (fun l => rsum d (fun i => x i * (u l i * u l c)))) by (intros; rewrite <- rsum_scal_r; apply rsum_ext; intros; ring).
    rewrite rsum_swap, (rsum_single d _ c Hc).
    - rewrite rsum_scal_l, (orthonormal_complete d d u O eq_refl c c Hc Hc), Nat.eqb_refl. ring.
    - intros i Hi N. rewrite rsum_scal_l, (orthonormal_complete d d u O eq_refl i c Hi Hc). destruct (Nat.eqb_spec i c); [congruence|ring]. }
  transitivity (rsum d (fun k => rsum d (fun l => phi (e k) * rsum d (fun i => v k i * w l i) * (v k a * w l b)))).
  - apply rsum_ext. intros k Hk. rewrite (P w f Hw (v k) b Hb) at 1. rewrite <- !rsum_scal_l. apply rsum_ext. intros. ring.
  - rewrite rsum_swap. apply rsum_ext. intros l Hl. rewrite (P v e Hv (w l) a Ha) at 1.
    rewrite <- rsum_scal_r, <- rsum_scal_l. apply rsum_ext. intros k Hk.
    destruct (Req_dec (e k) (f l)) as [->|NE].
    + rewrite (rsum_ext d (fun i => w l i * v k i) (fun i => v k i * w l i)) by (intros; ring). ring.
    + rewrite (rsum_ext d (fun i => w l i * v k i) (fun i => v k i * w l i)) by (intros; ring). rewrite (eigen_overlap d A v e w f k l Hv Hw Hk Hl NE). ring.
Qed.

(** sum_ji g(e_j, f_i) <v_j|C|u_i> <v_j|D|u_i> *)
Definition amp2 (dJ dI : nat) (C : nat -> nat -> R) (v u : nat -> nat -> R) (j i : nat) : R := rsum dJ (fun a => v j a * rsum dI (fun b => C a b * u i b)).
Definition double (dJ dI : nat) (C D : nat -> nat -> R) (g : R -> R -> R) (v : nat -> nat -> R) (e : nat -> R) (u : nat -> nat -> R) (f : nat -> R) : R :=
  rsum dJ (fun j => rsum dI (fun i => amp2 dJ dI C v u j i * amp2 dJ dI D v u j i * g (e j) (f i))).
Lemma prod_sums n (x y : nat -> R) : rsum n x * rsum n y = rsum n (fun a => rsum n (fun b => x a * y b)).
Proof. rewrite <- rsum_scal_r. apply rsum_ext. intros. now rewrite rsum_scal_l. Qed.
Lemma double_left dJ dI C D g v e u f w e' A : eigen dJ A v e -> eigen dJ A w e' -> double dJ dI C D g v e u f = double dJ dI C D g w e' u f.
Proof.
  intros Hv Hw. unfold double. rewrite rsum_swap. symmetry. rewrite rsum_swap. symmetry. apply rsum_ext. intros i Hi.
  set (X := fun a => rsum dI (fun b => C a b * u i b)). set (Y := fun a => rsum dI (fun b => D a b * u i b)).
  assert (S : forall v e, rsum dJ (fun j => amp2 dJ dI C v u j i * amp2 dJ dI D v u j i * g (e j) (f i)) =
    rsum dJ (fun a => rsum dJ (fun b => X a * Y b * rsum dJ (fun j => g (e j) (f i) * (v j a * v j b))))).
  { clear. intros v e. transitivity (rsum dJ (fun j => rsum dJ (fun a => rsum dJ (fun b => X a * Y b * (g (e j) (f i) * (v j a * v j b)))))).
    - apply rsum_ext. intros j _. unfold amp2. fold X Y. rewrite prod_sums, <- rsum_scal_r. apply rsum_ext. intros a _. rewrite <- rsum_scal_r. apply rsum_ext. intros b _. unfold X, Y. ring.
    - rewrite rsum_swap. apply rsum_ext. intros a _. rewrite rsum_swap. apply rsum_ext. intros b _. now rewrite rsum_scal_l. }
  rewrite !S. apply rsum_ext. intros a Ha. apply rsum_ext. intros b Hb. f_equal. now apply (kernel dJ A v e w e' (fun x => g x (f i))).
Qed.
Lemma amp2_T dJ dI C v u j i : amp2 dJ dI C v u j i = amp2 dI dJ (fun b a => C a b) u v i j.
Proof.
  unfold amp2. rewrite (rsum_ext dJ _ (fun a => rsum dI (fun b => v j a * (C a b * u i b)))) by (intros; now rewrite rsum_scal_l). rewrite rsum_swap. apply rsum_ext. intros b _.
  rewrite <- rsum_scal_l. apply rsum_ext. intros. ring.
Qed.
Lemma double_T dJ dI C D g v e u f : double dJ dI C D g v e u f = double dI dJ (fun b a => C a b) (fun b a => D a b) (fun y x => g x y) u f v e.
Proof. unfold double. rewrite rsum_swap. apply rsum_ext. intros i _. apply rsum_ext. intros j _. now rewrite (amp2_T dJ dI C), (amp2_T dJ dI D). Qed.
Lemma double_right dJ dI C D g v e u f w f' B : eigen dI B u f -> eigen dI B w f' -> double dJ dI C D g v e u f = double dJ dI C D g v e w f'.
Proof. intros H1 H2. rewrite double_T. rewrite (double_left dI dJ _ _ _ u f v e w f' B H1 H2). now rewrite (double_T dJ dI C D g v e w f'). Qed.
Lemma double_ext dJ dI C D C' D' g g' v e u f : (forall a b, (a < dJ)%nat -> (b < dI)%nat -> C a b = C' a b) -> (forall a b, (a < dJ)%nat -> (b < dI)%nat -> D a b = D' a b) ->
  (forall j i, (j < dJ)%nat -> (i < dI)%nat -> g (e j) (f i) = g' (e j) (f i)) -> double dJ dI C D g v e u f = double dJ dI C' D' g' v e u f.
Proof.
  intros HC HD HG. unfold double. apply rsum_ext. intros j Hj. apply rsum_ext. intros i Hi. rewrite HG by auto. f_equal. f_equal; unfold amp2; apply rsum_ext; intros a Ha; f_equal; apply rsum_ext; intros b Hb; f_equal; auto.
Qed.
Lemma double_scale dJ dI C D g v e u f c : double dJ dI C D (fun x y => c * g x y) v e u f = c * double dJ dI C D g v e u f.
Proof. unfold double. rewrite <- rsum_scal_l. apply rsum_ext. intros. rewrite <- rsum_scal_l. apply rsum_ext. intros. ring. Qed.

(** ** Renumbered and signed bases *)
Definition moved (pi : nat -> nat) (th : nat -> R) (v : nat -> nat -> R) (k a : nat) : R := th a * v k (pi a).
Section Moved.
Variables (d : nat) (pi : nat -> nat) (th : nat -> R) (A A' : nat -> nat -> R) (k0 : R).
Hypothesis HP : renumbering d pi.
Hypothesis HT : forall a, (a < d)%nat -> is_sign (th a).
Hypothesis HA : forall a b, (a < d)%nat -> (b < d)%nat -> A' (pi a) (pi b) = th a * th b * A a b + (if (a =? b)%nat then k0 else 0).
Lemma moved_eigen v e : eigen d A' v e -> eigen d A (moved pi th v) (fun k => e k - k0).
Proof.
  intros [O E]. split.
  - intros j k Hj Hk. rewrite <- (O j k Hj Hk), <- (rsum_renumber d pi (fun i => v j i * v k i) HP). apply rsum_ext. intros a Ha. unfold moved.
    pose proof (sign_sq _ (HT a Ha)). replace (th a * v j (pi a) * (th a * v k (pi a))) with (th a * th a * (v j (pi a) * v k (pi a))) by ring. rewrite H. ring.
  - intros k a Hk Ha. unfold moved. transitivity (rsum d (fun b => th a * (A' (pi a) (pi b) * v k (pi b)) - (if (a =? b)%nat then k0 * th a * v k (pi a) else 0))).
    + apply rsum_ext. intros b Hb. rewrite HA by auto. pose proof (sign_sq _ (HT a Ha)) as Q. destruct (Nat.eqb_spec a b) as [<-|].
      * replace (th a * ((th a * th a * A a a + k0) * v k (pi a)) - k0 * th a * v k (pi a)) with ((th a * th a) * (th a * A a a * v k (pi a))) by ring. rewrite Q. ring.
      * replace (th a * ((th a * th b * A a b + 0) * v k (pi b)) - 0) with ((th a * th a) * (th b * A a b * v k (pi b))) by ring. rewrite Q. ring.
    + rewrite rsum_sub, rsum_scal_l, (rsum_renumber d pi (fun b => A' (pi a) b * v k b) HP), (E k (pi a) Hk) by (now apply HP).
      rewrite (rsum_single d _ a Ha); [rewrite Nat.eqb_refl; ring|]. intros b _ N. destruct (Nat.eqb_spec a b); [congruence|reflexivity].
Qed.
End Moved.
Lemma moved_double dJ dI C D C' D' g v e u f piJ thJ piI thI kx ky : renumbering dJ piJ -> renumbering dI piI ->
  (forall a b, (a < dJ)%nat -> (b < dI)%nat -> C' (piJ a) (piI b) = kx * (thJ a * thI b * C a b)) -> (forall a b, (a < dJ)%nat -> (b < dI)%nat -> D' (piJ a) (piI b) = ky * (thJ a * thI b * D a b)) ->
  double dJ dI C' D' g v e u f = kx * ky * double dJ dI C D g (moved piJ thJ v) e (moved piI thI u) f.
Proof.
  intros HJ HI HC HD. assert (X : forall M M' c j i, (forall a b, (a < dJ)%nat -> (b < dI)%nat -> M' (piJ a) (piI b) = c * (thJ a * thI b * M a b)) ->
    amp2 dJ dI M' v u j i = c * amp2 dJ dI M (moved piJ thJ v) (moved piI thI u) j i).
  { intros M M' c j i HM. unfold amp2. rewrite <- (rsum_renumber dJ piJ _ HJ), <- rsum_scal_l. apply rsum_ext. intros a Ha. rewrite <- (rsum_renumber dI piI _ HI). unfold moved.
    rewrite (rsum_ext dI _ (fun b => c * (thJ a * (M a b * (thI b * u i (piI b)))))) by (intros b Hb; rewrite HM by auto; ring). rewrite !rsum_scal_l. ring. }
  unfold double. rewrite <- rsum_scal_l. apply rsum_ext. intros j _. rewrite <- rsum_scal_l. apply rsum_ext. intros i _. rewrite (X C C' kx), (X D D' ky) by auto. ring.
Qed.
(** Sums over one basis. *)
Lemma single_indep d A v e w f (phi : R -> R) (q : nat -> R) : eigen d A v e -> eigen d A w f ->
  rsum d (fun k => phi (e k) * rsum d (fun a => q a * (v k a * v k a))) = rsum d (fun k => phi (f k) * rsum d (fun a => q a * (w k a * w k a))).
Proof.
  intros Hv Hw. assert (X : forall v e, rsum d (fun k => phi (e k) * rsum d (fun a => q a * (v k a * v k a))) = rsum d (fun a => q a * rsum d (fun k => phi (e k) * (v k a * v k a)))).
  { clear. intros v e. rewrite (rsum_ext d _ (fun k => rsum d (fun a => q a * (phi (e k) * (v k a * v k a))))) by (intros; rewrite <- rsum_scal_l; apply rsum_ext; intros; ring).
    rewrite rsum_swap. apply rsum_ext. intros a _. now rewrite rsum_scal_l. }
  rewrite !X. apply rsum_ext. intros a Ha. f_equal. now apply (kernel d A v e w f).
Qed.
