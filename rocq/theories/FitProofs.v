(** The fit objective and its gradient. *)
From Coq Require Import Reals List Arith ZArith Bool Lia Lra Psatz FunctionalExtensionality.
From Verif Require Import Base RBase RLin CBase FitModel FitSpec.
Import ListNotations.
Local Open Scope R_scope.

(** ** Derivatives of complex valued functions of a real variable *)
Definition cderiv (f : R -> cx) (t : R) (l : cx) : Prop :=
  derivable_pt_lim (fun s => re (f s)) t (re l) /\ derivable_pt_lim (fun s => im (f s)) t (im l).

Lemma dlim_ext f g x l : (forall s, f s = g s) -> derivable_pt_lim f x l -> derivable_pt_lim g x l.
Proof. intros E. replace g with f; [auto|]. now apply functional_extensionality. Qed.
Lemma dlim_eq f x l l' : l = l' -> derivable_pt_lim f x l -> derivable_pt_lim f x l'.
Proof. now intros ->. Qed.
Lemma cderiv_ext f g t l : (forall s, f s = g s) -> cderiv f t l -> cderiv g t l.
Proof. intros E [A B]. split; [eapply dlim_ext; [|exact A]|eapply dlim_ext; [|exact B]]; intros s; simpl; now rewrite E. Qed.
Lemma cderiv_const c t : cderiv (fun _ => c) t (rcx 0).
Proof. split; apply derivable_pt_lim_const. Qed.
Lemma cderiv_csum n (f : nat -> R -> cx) t l : (forall j, (j < n)%nat -> cderiv (f j) t (l j)) ->
  cderiv (fun s => csum n (fun j => f j s)) t (csum n l).
Proof.
  induction n as [|n IH]; intros H.
  - exact (cderiv_const (rcx 0) t).
  - destruct (IH (fun j Hj => H j ltac:(lia))) as [A B]. destruct (H n ltac:(lia)) as [C D].
    assert (E : forall g : nat -> cx, csum (S n) g = cxadd (csum n g) (g n)) by (intros g; apply (nsum_S CxRing)).
    rewrite E. split.
    + eapply dlim_ext; [intros s; symmetry; rewrite E; reflexivity|]. exact (derivable_pt_lim_plus _ _ _ _ _ A C).
    + eapply dlim_ext; [intros s; symmetry; rewrite E; reflexivity|]. exact (derivable_pt_lim_plus _ _ _ _ _ B D).
Qed.
Lemma dlim_rsum n (f : nat -> R -> R) t l : (forall j, (j < n)%nat -> derivable_pt_lim (f j) t (l j)) ->
  derivable_pt_lim (fun s => rsum n (fun j => f j s)) t (rsum n l).
Proof.
  induction n as [|n IH]; intros H.
  - exact (derivable_pt_lim_const 0 t).
  - rewrite rsum_S. eapply dlim_ext; [intros s; symmetry; apply rsum_S|].
    exact (derivable_pt_lim_plus _ _ _ _ _ (IH (fun j Hj => H j ltac:(lia))) (H n ltac:(lia))).
Qed.
Lemma dlim_sq f t l : derivable_pt_lim f t l -> derivable_pt_lim (fun s => f s * f s) t (2 * (f t * l)).
Proof. intros H. eapply dlim_eq; [|exact (derivable_pt_lim_mult _ _ _ _ _ H H)]. ring. Qed.
Lemma cderiv_n2 d f t l : cderiv f t l ->
  derivable_pt_lim (fun s => cxn2 (cxsub d (f s))) t (-2 * (re (cxsub d (f t)) * re l + im (cxsub d (f t)) * im l)).
Proof.
  intros [A B].
  assert (S : forall g x c m, derivable_pt_lim g x m -> derivable_pt_lim (fun s => c + - g s) x (- m)).
  { intros g x c m H. eapply dlim_eq; [|exact (derivable_pt_lim_plus _ _ _ _ _ (derivable_pt_lim_const c x) (derivable_pt_lim_opp _ _ _ H))]. ring. }
  pose proof (dlim_sq _ _ _ (S _ _ (re d) _ A)) as A'. pose proof (dlim_sq _ _ _ (S _ _ (im d) _ B)) as B'.
  eapply dlim_eq; [|eapply dlim_ext; [|exact (derivable_pt_lim_plus _ _ _ _ _ A' B')]].
  - unfold cxsub, cxadd, cxopp, re, im. simpl. ring.
  - intros s. reflexivity.
Qed.

(** One level. *)
Lemma cderiv_energy v z t : z <> rcx t ->
  cderiv (fun s => cxdiv (rcx (v * v)) (cxsub z (rcx s))) t (cxdiv (rcx (v * v)) (cxmul (cxsub z (rcx t)) (cxsub z (rcx t)))).
Proof.
  intros NZ. destruct z as [x y].
  assert (D0 : (x - t) * (x - t) + y * y <> 0).
  { intros E. apply NZ. assert (A : x - t = 0) by nra. assert (y = 0) by nra. unfold rcx. f_equal; lra. }
  assert (L : derivable_pt_lim (fun s => x - s) t (-1)).
  { eapply dlim_eq; [|exact (derivable_pt_lim_minus _ _ _ _ _ (derivable_pt_lim_const x t) (derivable_pt_lim_id t))]. ring. }
  assert (LD : derivable_pt_lim (fun s => (x - s) * (x - s) + y * y) t (-2 * (x - t))).
  { eapply dlim_eq; [|exact (derivable_pt_lim_plus _ _ _ _ _ (dlim_sq _ _ _ L) (derivable_pt_lim_const (y * y) t))]. cbv beta. ring. }
  split.
  - eapply dlim_ext; [|eapply dlim_eq; [|exact (derivable_pt_lim_scal _ (v * v) _ _ (derivable_pt_lim_div _ _ _ _ _ L LD D0))]].
    + intros s. unfold mult_real_fct, div_fct, cxdiv, cxinv, cxmul, cxsub, cxadd, cxopp, rcx, cxn2, re, im. simpl.
      replace ((x + - s) * (x + - s) + (y + - 0) * (y + - 0)) with ((x - s) * (x - s) + y * y) by ring. unfold Rdiv. ring.
    + unfold Rsqr, cxdiv, cxinv, cxmul, cxsub, cxadd, cxopp, rcx, cxn2, re, im. simpl. field. 
      split; [|exact D0]. intros E. apply D0. nra.
  - eapply dlim_ext; [|eapply dlim_eq; [|exact (derivable_pt_lim_scal _ (v * v) _ _ (derivable_pt_lim_div _ _ _ _ _ (derivable_pt_lim_const (- y) t) LD D0))]].
    + intros s. unfold mult_real_fct, div_fct, fct_cte, cxdiv, cxinv, cxmul, cxsub, cxadd, cxopp, rcx, cxn2, re, im. simpl.
      replace ((x + - s) * (x + - s) + (y + - 0) * (y + - 0)) with ((x - s) * (x - s) + y * y) by ring. unfold Rdiv. ring.
    + unfold fct_cte, Rsqr, cxdiv, cxinv, cxmul, cxsub, cxadd, cxopp, rcx, cxn2, re, im. simpl. field.
      split; [|exact D0]. intros E. apply D0. nra.
Qed.
Lemma cderiv_coupling e z t : cderiv (fun s => cxdiv (rcx (s * s)) (cxsub z (rcx e))) t (cxdiv (rcx (2 * t)) (cxsub z (rcx e))).
Proof.
  set (w := cxinv (cxsub z (rcx e))). unfold cxdiv. fold w. pose proof (dlim_sq _ _ _ (derivable_pt_lim_id t)) as S. unfold id in S.
  split.
  - eapply dlim_ext; [|eapply dlim_eq; [|exact (derivable_pt_lim_scal _ (re w) _ _ S)]].
    + intros s. unfold mult_real_fct, cxmul, rcx, re, im. simpl. ring.
    + unfold cxmul, rcx, re, im. simpl. ring.
  - eapply dlim_ext; [|eapply dlim_eq; [|exact (derivable_pt_lim_scal _ (im w) _ _ S)]].
    + intros s. unfold mult_real_fct, cxmul, rcx, re, im. simpl. ring.
    + unfold cxmul, rcx, re, im. simpl. ring.
Qed.

(** ** The hybridisation computed by the loops *)
Lemma fold_csum n f : forall z, fold_left (fun out j => cxadd out (f j)) (seq 0 n) z = cxadd z (csum n f).
Proof.
  intros z. unfold csum, nsum. revert z. induction (seq 0 n) as [|k l IH]; intros z; simpl.
  - apply cx_eq; simpl; ring.
  - rewrite IH. apply cx_eq; simpl; ring.
Qed.
Lemma fold_rsum' n f : forall z, fold_left (fun out j => out + f j) (seq 0 n) z = z + rsum n f.
Proof.
  intros z. unfold rsum, nsum. revert z. induction (seq 0 n) as [|k l IH]; intros z; simpl.
  - match goal with |- ?x = ?y => change (@eq R x y) end. ring.
  - rewrite IH. match goal with |- ?x = ?y => change (@eq R x y) end. ring.
Qed.

Lemma nth_skipn' {A} q j (l : list A) d : nth j (skipn q l) d = nth (q + j) l d.
Proof. revert l. induction q as [|q IH]; intros l; [reflexivity|]. destruct l as [|x l]; simpl; [now destruct j|apply IH]. Qed.
Lemma nth_firstn' {A} q j (l : list A) d : (j < q)%nat -> nth j (firstn q l) d = nth j l d.
Proof. revert j l. induction q as [|q IH]; intros j l H; [lia|]. destruct l as [|x l]; [reflexivity|]. destruct j; [reflexivity|]. simpl. apply IH. lia. Qed.
Section Even.
Variables (m : nat) (p : list R).
Hypothesis LP : length p = (2 * m)%nat.
Lemma half : (length p / 2 = m)%nat.
Proof. rewrite LP, Nat.mul_comm. now apply Nat.div_mul. Qed.
Lemma eks_nth j : (j < m)%nat -> nth j (eks p) 0 = nth j p 0.
Proof. intros H. unfold eks. rewrite half. now apply nth_firstn'. Qed.
Lemma vks_nth j : nth j (vks p) 0 = nth (m + j) p 0.
Proof. unfold vks. rewrite half. apply nth_skipn'. Qed.
Lemma eks_length : length (eks p) = m.
Proof. unfold eks. rewrite half, firstn_length. lia. Qed.
Lemma vks_length : length (vks p) = m.
Proof. unfold vks. rewrite half, skipn_length. lia. Qed.

Lemma delta1_hyb z : delta1 p z = hyb m (fun k => nth k p 0) (fun k => nth (m + k) p 0) z.
Proof.
  unfold delta1. rewrite fold_csum, eks_length. replace (cxadd (rcx 0) _) with (csum m (fun j => cxdiv (rcx (nth j (map (fun v => v ^ 2) (vks p)) 0)) (cxsub z (rcx (nth j (eks p) 0))))) by (apply cx_eq; simpl; ring).
  apply csum_ext. intros j Hj. rewrite eks_nth by auto. f_equal. f_equal.
  rewrite (nth_indep _ 0 (0 ^ 2)) by (rewrite map_length, vks_length; lia). rewrite (map_nth (fun v => v ^ 2)), vks_nth. ring.
Qed.

Lemma ddelta1_entries z out : length out = (2 * m)%nat ->
  length (ddelta1 p z out) = (2 * m)%nat /\
  forall k, (k < 2 * m)%nat -> nth k (ddelta1 p z out) (rcx 0) =
    if (k <? m)%nat then cxdiv (rcx (nth (m + k) p 0 * nth (m + k) p 0)) (cxmul (cxsub z (rcx (nth k p 0))) (cxsub z (rcx (nth k p 0))))
    else cxdiv (rcx (2 * nth k p 0)) (cxsub z (rcx (nth (k - m) p 0))).
Proof.
  intros LO. unfold ddelta1. rewrite eks_length.
  set (step := fun out j => _).
  assert (G : forall q, (q <= m)%nat -> let o := fold_left step (seq 0 q) out in length o = (2 * m)%nat /\
    forall k, (k < 2 * m)%nat -> ((if k <? m then k else k - m) < q)%nat -> nth k o (rcx 0) =
      if (k <? m)%nat then cxdiv (rcx (nth (m + k) p 0 * nth (m + k) p 0)) (cxmul (cxsub z (rcx (nth k p 0))) (cxsub z (rcx (nth k p 0))))
      else cxdiv (rcx (2 * nth k p 0)) (cxsub z (rcx (nth (k - m) p 0)))).
  { induction q as [|q IH]; intros Hq; cbn zeta; [split; [exact LO|intros; lia]|].
    destruct (IH ltac:(lia)) as [L V]. rewrite seq_S, fold_left_app. cbn [fold_left Nat.add]. set (o := fold_left step (seq 0 q) out) in *.
    unfold step at 1 2. cbn zeta. split; [now rewrite !upd_tot_length|]. intros k Hk Hlt.
    rewrite nth_upd_tot by (rewrite upd_tot_length; lia). rewrite nth_upd_tot by lia.
    rewrite eks_nth, vks_nth by lia.
    destruct (Nat.ltb_spec k m) as [Lt|Ge].
    - destruct (Nat.eqb_spec (q + m) k); [lia|]. destruct (Nat.eqb_spec q k) as [->|NE].
      + f_equal. f_equal. ring.
      + rewrite V by (try lia; destruct (Nat.ltb_spec k m); lia). destruct (Nat.ltb_spec k m); [reflexivity|lia].
    - destruct (Nat.eqb_spec (q + m) k) as [E|NE].
      + subst k. replace (q + m - m)%nat with q by lia. rewrite (Nat.add_comm m q). reflexivity.
      + destruct (Nat.eqb_spec q k); [lia|]. rewrite V by (try lia; destruct (Nat.ltb_spec k m); lia). destruct (Nat.ltb_spec k m); [lia|reflexivity]. }
  destruct (G m ltac:(lia)) as [L V]. split; [exact L|]. intros k Hk. apply V; [exact Hk|]. destruct (Nat.ltb_spec k m); lia.
Qed.
End Even.

Lemma chi2_misfit m p z vals : length p = (2 * m)%nat -> length vals = length z ->
  chi2 z vals p = misfit (length z) m (fun i => nth i z (rcx 0)) (fun i => nth i vals (rcx 0)) (fun k => nth k p 0) (fun k => nth (m + k) p 0).
Proof.
  intros LP LV. unfold chi2, chi2_loop, misfit. rewrite LV. f_equal. rewrite fold_rsum', Rplus_0_l. apply rsum_ext. intros i Hi.
  assert (E : nth i (delta_fit p z) (rcx 0) = delta1 p (nth i z (rcx 0))).
  { unfold delta_fit. rewrite (nth_indep _ (rcx 0) (delta1 p (rcx 0))) by (now rewrite map_length). apply map_nth. }
  rewrite E, (delta1_hyb m p LP). unfold cxn2, cxsub, cxadd, cxopp, re, im. simpl. ring.
Qed.

(** Derivative of the hybridisation with respect to parameter [k]. *)
Lemma hyb_deriv m p z k : length p = (2 * m)%nat -> (k < 2 * m)%nat -> (forall j, (j < m)%nat -> z <> rcx (nth j p 0)) ->
  cderiv (fun t => hyb m (fun j => nth j (upd_tot p k t) 0) (fun j => nth (m + j) (upd_tot p k t) 0) z) (nth k p 0)
    (if (k <? m)%nat then cxdiv (rcx (nth (m + k) p 0 * nth (m + k) p 0)) (cxmul (cxsub z (rcx (nth k p 0))) (cxsub z (rcx (nth k p 0))))
     else cxdiv (rcx (2 * nth k p 0)) (cxsub z (rcx (nth (k - m) p 0)))).
Proof.
  intros LP Hk NZ. unfold hyb.
  set (T := if (k <? m)%nat then _ else _). set (q := if (k <? m)%nat then k else (k - m)%nat).
  assert (Hq : (q < m)%nat) by (unfold q; destruct (Nat.ltb_spec k m); lia).
  replace T with (csum m (fun j => if (j =? q)%nat then T else rcx 0)).
  2:{ rewrite (csum_single m _ q Hq), Nat.eqb_refl; [reflexivity|]. intros j _ NE. destruct (Nat.eqb_spec j q); [congruence|reflexivity]. }
  apply cderiv_csum. intros j Hj. 
  destruct (Nat.eqb_spec j q) as [->|NE].
  - unfold T, q. destruct (Nat.ltb_spec k m) as [Lt|Ge].
    + eapply cderiv_ext; [|apply (cderiv_energy (nth (m + k) p 0) z (nth k p 0)); apply NZ; lia].
      intros s. rewrite !nth_upd_tot by lia. rewrite Nat.eqb_refl. destruct (Nat.eqb_spec k (m + k)); [lia|]. reflexivity.
    + eapply cderiv_ext; [|apply (cderiv_coupling (nth (k - m) p 0) z (nth k p 0))].
      intros s. rewrite !nth_upd_tot by lia. replace (m + (k - m))%nat with k by lia. rewrite Nat.eqb_refl. destruct (Nat.eqb_spec k (k - m)); [lia|]. reflexivity.
  - eapply cderiv_ext; [|apply (cderiv_const (cxdiv (rcx (nth (m + j) p 0 * nth (m + j) p 0)) (cxsub z (rcx (nth j p 0)))))].
    intros s. rewrite !nth_upd_tot by lia. unfold q in NE. destruct (Nat.ltb_spec k m); destruct (Nat.eqb_spec k (m + j)); try lia; destruct (Nat.eqb_spec k j); try lia; reflexivity.
Qed.

Lemma dotr_rsum a b n : length a = n -> length b = n -> dotr a b = rsum n (fun i => nth i a 0 * nth i b 0).
Proof.
  revert b n. unfold dotr. induction a as [|x a IH]; intros [|y b] [|n] LA LB; simpl in LA, LB; try discriminate; [reflexivity|].
  simpl combine. cbn [map fold_right fst snd]. rewrite rsum_S_l. cbn [nth]. f_equal. apply IH; lia.
Qed.
Lemma nth_map_lt {A B} (f : A -> B) l i d d' : (i < length l)%nat -> nth i (map f l) d = f (nth i l d').
Proof. intros H. rewrite (nth_indep _ d (f d')) by (now rewrite map_length). apply map_nth. Qed.

Lemma upd_same {A} (l : list A) k d : upd_tot l k (nth k l d) = l.
Proof. revert k. induction l as [|x l IH]; intros [|k]; simpl; [reflexivity|reflexivity|reflexivity|]. now rewrite IH. Qed.
Theorem gradient m p z vals mem : length p = (2 * m)%nat -> length vals = length z -> length mem = length z ->
  (forall row, In row mem -> length row = (2 * m)%nat) -> off_levels p z -> (0 < length z)%nat ->
  exists g, dchi2 z vals mem p = Ok g /\ length g = length p /\
  forall k, (k < length p)%nat -> derivable_pt_lim (fun t => chi2 z vals (upd_tot p k t)) (nth k p 0) (nth k g 0).
Proof.
  intros LP LV LM ROW OFF POS. unfold dchi2. rewrite LV, Nat.eqb_refl. eexists. split; [reflexivity|]. split; [now rewrite map_length, seq_length|].
  intros k Hk. rewrite LP in Hk.
  rewrite (nth_map_lt _ _ _ _ 0%nat) by (rewrite seq_length; lia). rewrite seq_nth by lia. rewrite Nat.add_0_l.
  set (n := length z) in *.
  assert (LC1 : length (combine vals (delta_fit p z)) = n) by (rewrite combine_length; unfold delta_fit; rewrite map_length; lia).
  assert (LC2 : length (combine z mem) = n) by (rewrite combine_length; lia).
  rewrite !(dotr_rsum _ _ n) by (rewrite !map_length; lia).
  set (D := fun i => if (k <? m)%nat then cxdiv (rcx (nth (m + k) p 0 * nth (m + k) p 0)) (cxmul (cxsub (nth i z (rcx 0)) (rcx (nth k p 0))) (cxsub (nth i z (rcx 0)) (rcx (nth k p 0))))
     else cxdiv (rcx (2 * nth k p 0)) (cxsub (nth i z (rcx 0)) (rcx (nth (k - m) p 0)))).
  set (Fi := fun i => cxsub (nth i vals (rcx 0)) (hyb m (fun j => nth j p 0) (fun j => nth (m + j) p 0) (nth i z (rcx 0)))).
  assert (DX : forall i, (i < n)%nat -> nth k (nth i (map (fun q : cx * list cx => ddelta1 p (fst q) (snd q)) (combine z mem)) []) (rcx 0) = D i).
  { intros i Hi. rewrite (nth_map_lt _ _ _ _ (rcx 0, [])) by lia. rewrite combine_nth by lia. cbn [fst snd].
    apply (ddelta1_entries m p LP); [|exact Hk]. apply ROW. apply nth_In. lia. }
  assert (FX : forall i, (i < n)%nat -> nth i (map (fun q : cx * cx => cxsub (fst q) (snd q)) (combine vals (delta_fit p z))) (rcx 0) = Fi i).
  { intros i Hi. rewrite (nth_map_lt _ _ _ _ (rcx 0, rcx 0)) by lia. rewrite combine_nth by (unfold delta_fit; rewrite map_length; lia). cbn [fst snd].
    unfold delta_fit. rewrite (nth_map_lt _ _ _ _ (rcx 0)) by (unfold n in Hi; lia). rewrite (delta1_hyb m p LP). reflexivity. }
  rewrite <- rsum_add.
  rewrite (rsum_ext n _ (fun i => re (Fi i) * re (D i) + im (Fi i) * im (D i))).
  2:{ intros i Hi. rewrite !(nth_map_lt re _ _ _ (rcx 0)), !(nth_map_lt im _ _ _ (rcx 0)) by (rewrite map_length; lia). rewrite FX by auto.
      rewrite !(nth_map_lt (fun row => re (nth k row (rcx 0))) _ _ _ []), !(nth_map_lt (fun row => im (nth k row (rcx 0))) _ _ _ []) by (rewrite map_length; lia).
      rewrite DX by auto. reflexivity. }
  eapply dlim_ext; [intros t; symmetry; apply (chi2_misfit m); [now rewrite upd_tot_length|exact LV]|]. fold n.
  unfold misfit.
  replace (-2 * rsum n (fun i => re (Fi i) * re (D i) + im (Fi i) * im (D i)) / INR n)
    with (/ INR n * rsum n (fun i => -2 * (re (Fi i) * re (D i) + im (Fi i) * im (D i)))) by (rewrite rsum_scal_l; unfold Rdiv; ring).
  assert (G : forall i, (i < n)%nat -> derivable_pt_lim
     (fun t => cxn2 (cxsub (nth i vals (rcx 0)) (hyb m (fun j => nth j (upd_tot p k t) 0) (fun j => nth (m + j) (upd_tot p k t) 0) (nth i z (rcx 0)))))
     (nth k p 0) (-2 * (re (Fi i) * re (D i) + im (Fi i) * im (D i)))).
  { intros i Hi. pose proof (cderiv_n2 (nth i vals (rcx 0)) _ _ _ (hyb_deriv m p (nth i z (rcx 0)) k LP Hk (fun j Hj E => OFF i j Hi (eq_ind_r (fun x => (j < x)%nat) Hj (half m p LP)) E))) as G.
    cbv beta in G. rewrite upd_same in G. exact G. }
  eapply dlim_ext; [|exact (derivable_pt_lim_scal _ (/ INR n) _ _ (dlim_rsum n _ _ _ G))].
  intros t. unfold mult_real_fct, Rdiv. ring.
Qed.
