(** The optimiser and the fit commute with the symmetries of the bath. *)
From Coq Require Import Reals List Arith ZArith Bool Lia Lra Psatz Permutation FunctionalExtensionality.
From Verif Require Import Base RBase RLin CBase FitModel FitSpec FitProofs FitMoreProofs NrModel NrSpec NrProofs SymSpec.
Import ListNotations.
Local Open Scope R_scope.

(** ** Sums *)
Lemma rsum_list n f : rsum n f = fold_right Rplus 0 (map f (seq 0 n)).
Proof.
  assert (G : forall a, rsum n (fun i => f (a + i)%nat) = fold_right Rplus 0 (map f (seq a n))).
  { induction n as [|n IH]; intros a; [reflexivity|]. rewrite rsum_S_l. cbn [seq map fold_right]. rewrite Nat.add_0_r. f_equal. rewrite <- IH. apply rsum_ext. intros i _. f_equal. lia. }
  exact (G 0%nat).
Qed.
Lemma sum_perm l l' : Permutation l l' -> fold_right Rplus 0 l = fold_right Rplus 0 l'.
Proof. induction 1; cbn; lra. Qed.
Lemma perm_seq n pi : renumbering n pi -> Permutation (map pi (seq 0 n)) (seq 0 n).
Proof.
  intros [B I]. apply NoDup_Permutation_bis.
  - assert (G : forall l, NoDup l -> (forall x, In x l -> (x < n)%nat) -> NoDup (map pi l)).
    { induction l as [|x l IH]; intros N H; [constructor|]. inversion N as [|? ? NI N']; subst. cbn. constructor; [|apply IH; auto; intros; apply H; now right].
      intros E. apply in_map_iff in E. destruct E as (y & E & Y). apply NI. rewrite (I x y); auto; apply H; [now left|now right]. }
    apply G; [apply seq_NoDup|]. intros x Hx. apply in_seq in Hx. lia.
  - rewrite map_length. lia.
  - intros y Hy. apply in_map_iff in Hy. destruct Hy as (x & <- & Hx). apply in_seq in Hx. apply in_seq. specialize (B x). lia.
Qed.
Lemma rsum_renumber n pi f : renumbering n pi -> rsum n (fun k => f (pi k)) = rsum n f.
Proof. intros H. rewrite !rsum_list. rewrite <- (sum_perm _ _ (Permutation_map f (perm_seq n pi H))), map_map. reflexivity. Qed.
Lemma fold_pairs (F : R -> R -> R) : forall a b n, length a = n -> length b = n -> forall z,
  fold_left (fun s q => s + F (fst q) (snd q)) (combine a b) z = z + rsum n (fun j => F (nth j a 0) (nth j b 0)).
Proof.
  induction a as [|x a IH]; intros [|y b] [|n] LA LB z; cbn in LA, LB; try discriminate.
  - cbn. unfold rsum, nsum. cbn. match goal with |- ?u = ?v => change (@eq R u v) end. ring.
  - cbn [combine fold_left]. rewrite (IH b n) by lia. rewrite rsum_S_l. cbn [nth fst snd]. ring.
Qed.
Lemma sign_sq x : is_sign x -> x * x = 1.
Proof. intros [->| ->]; ring. Qed.

(** ** The optimiser *)
Section Opt.
Variables (dim : nat) (pi : nat -> nat) (s : nat -> R).
Hypothesis HP : renumbering dim pi.
Hypothesis HS : forall k, (k < dim)%nat -> is_sign (s k).
Notation S := (signed_perm dim pi s).
Lemma S_length x : length (S x) = dim.
Proof. unfold signed_perm. now rewrite map_length, seq_length. Qed.
Lemma S_nth x k : (k < dim)%nat -> nth k (S x) 0 = s k * nth (pi k) x 0.
Proof. intros H. unfold signed_perm. rewrite (nth_map_lt _ _ _ _ 0%nat) by (now rewrite seq_length). now rewrite seq_nth. Qed.
Lemma S_map (f : R -> R) x : (forall a k, (k < dim)%nat -> f (s k * a) = s k * f a) -> length x = dim -> S (map f x) = map f (S x).
Proof.
  intros Hf L. apply (list_ext _ _ 0); [rewrite map_length, !S_length; reflexivity|]. rewrite S_length. intros k Hk. rewrite S_nth by auto.
  rewrite (nth_map_lt f (S x) k 0 0) by (now rewrite S_length). rewrite S_nth by auto. rewrite (nth_map_lt f x (pi k) 0 0) by (rewrite L; apply HP; auto). now rewrite Hf.
Qed.
Lemma S_pairs (f : R -> R -> R) x y : (forall a b k, (k < dim)%nat -> f (s k * a) (s k * b) = s k * f a b) -> length x = dim -> length y = dim ->
  S (map (fun q : R * R => f (fst q) (snd q)) (combine x y)) = map (fun q : R * R => f (fst q) (snd q)) (combine (S x) (S y)).
Proof.
  intros Hf LX LY. apply (list_ext _ _ 0); [rewrite map_length, combine_length, !S_length; lia|]. rewrite S_length. intros k Hk. rewrite S_nth by auto.
  assert (PK : (pi k < dim)%nat) by (apply HP; auto).
  rewrite (nth_map_lt _ (combine x y) (pi k) 0 (0, 0)) by (rewrite combine_length; lia). rewrite (nth_map_lt _ (combine (S x) (S y)) k 0 (0, 0)) by (rewrite combine_length, !S_length; lia).
  rewrite !combine_nth by (rewrite ?S_length; lia). cbn [fst snd]. rewrite !S_nth by auto. now rewrite Hf.
Qed.
Lemma S_along p xi t : length p = dim -> length xi = dim -> along (S p) (S xi) t = S (along p xi t).
Proof. intros A B. symmetry. apply (S_pairs (fun a b => a + t * b)); auto. intros. ring. Qed.
Lemma S_sum (F : R -> R -> R) x y : (forall a b k, (k < dim)%nat -> F (s k * a) (s k * b) = F a b) -> length x = dim -> length y = dim ->
  fold_left (fun r q => r + F (fst q) (snd q)) (combine (S x) (S y)) 0 = fold_left (fun r q => r + F (fst q) (snd q)) (combine x y) 0.
Proof.
  intros HF LX LY. rewrite (fold_pairs F (S x) (S y) dim), (fold_pairs F x y dim) by (auto using S_length). f_equal.
  rewrite <- (rsum_renumber dim pi (fun j => F (nth j x 0) (nth j y 0)) HP). apply rsum_ext. intros j Hj. rewrite !S_nth by auto. now apply HF.
Qed.
Variables (func func' : list R -> R) (dfunc dfunc' : list R -> list R).
Hypothesis HF : forall p, length p = dim -> func' (S p) = func p.
Hypothesis HD : forall p, length p = dim -> dfunc' (S p) = S (dfunc p).
Hypothesis LD : forall p, length p = dim -> length (dfunc p) = dim.
Definition carry {A B} (r : res (list R * A * B)) : res (list R * A * B) := match r with Ok (p, a, b) => Ok (S p, a, b) | Err e => Err e end.
Lemma S_f1 p xi : length p = dim -> length xi = dim -> f1dim func' (S p) (S xi) = f1dim func p xi.
Proof. intros A B. extensionality t. unfold f1dim. rewrite S_along by auto. apply HF. rewrite along_length; congruence. Qed.
Lemma S_df1 p xi : length p = dim -> length xi = dim -> df1dim dfunc' (S p) (S xi) = df1dim dfunc p xi.
Proof.
  intros A B. extensionality t. unfold df1dim. assert (L : length (along p xi t) = dim) by (rewrite along_length; congruence). rewrite S_along, HD by auto.
  apply (S_sum Rmult); auto. intros a b k Hk. pose proof (sign_sq _ (HS k Hk)). replace (s k * a * (s k * b)) with (s k * s k * (a * b)) by ring. rewrite H. ring.
Qed.
Lemma S_linmin fuel d0 p xi : length p = dim -> length xi = dim ->
  dlinmin func' dfunc' fuel d0 (S p) (S xi) = match dlinmin func dfunc fuel d0 p xi with Ok (p', xi', v) => Ok (S p', S xi', v) | Err e => Err e end.
Proof.
  intros A B. unfold dlinmin. rewrite S_f1, S_df1 by auto. destruct (mnbrak (f1dim func p xi) fuel 0 1) as [br|e]; [|reflexivity]. cbn [bind].
  destruct (dbrent _ _ TOL d0 (bax br) (bbx br) (bcx br)) as [[xmin v]|e]; [|reflexivity]. cbn [bind].
  rewrite <- (S_map (fun y => y * xmin)) by (auto; intros; ring). rewrite <- (S_pairs (fun a b => a + b)); [reflexivity|intros; ring|auto|now rewrite map_length].
Qed.
Lemma linmin_length fuel d0 p xi p' xi' v : length p = dim -> length xi = dim -> dlinmin func dfunc fuel d0 p xi = Ok (p', xi', v) -> length p' = dim.
Proof. intros A B E. destruct (dlinmin_descends func dfunc fuel d0 p xi p' xi' v ltac:(congruence) E) as (_ & _ & L & _). congruence. Qed.
Lemma S_loop fuel d0 iters : forall its p xi g h fp, length p = dim -> length xi = dim -> length g = dim -> length h = dim ->
  frprmn_loop func' dfunc' fuel d0 iters its (S p) (S xi) (S g) (S h) fp = carry (frprmn_loop func dfunc fuel d0 iters its p xi g h fp).
Proof.
  induction iters as [|iters IH]; intros its p xi g h fp LP LX LG LH; [reflexivity|]. cbn [frprmn_loop]. rewrite S_linmin by auto.
  destruct (dlinmin func dfunc fuel d0 p xi) as [[[p' xi'] v]|e] eqn:E; [|reflexivity]. cbn [bind]. pose proof (linmin_length _ _ _ _ _ _ _ LP LX E) as LP'.
  destruct (Rleb _ _); [reflexivity|].
  assert (G1 : dot2 (fun a _ => a * a) (S g) (S g) = dot2 (fun a _ => a * a) g g).
  { apply (S_sum (fun a _ => a * a)); auto. intros a _ k Hk. pose proof (sign_sq _ (HS k Hk)) as Q. replace (s k * a * (s k * a)) with (s k * s k * (a * a)) by ring. rewrite Q. ring. }
  assert (G2 : dot2 (fun x y => (x + y) * x) (dfunc' (S p')) (S g) = dot2 (fun x y => (x + y) * x) (dfunc p') g).
  { rewrite HD by auto. apply (S_sum (fun x y => (x + y) * x)); auto. intros a b k Hk. pose proof (sign_sq _ (HS k Hk)) as Q. replace ((s k * a + s k * b) * (s k * a)) with (s k * s k * ((a + b) * a)) by ring. rewrite Q. ring. }
  rewrite G1, G2. destruct (Reqb _ 0); [reflexivity|]. rewrite HD by auto. rewrite <- (S_map Ropp) by (auto; intros; ring).
  set (gam := dot2 _ _ _ / _). rewrite <- (S_pairs (fun a b => a + gam * b)); [|intros; ring|rewrite map_length; auto|auto].
  assert (LG' : length (map Ropp (dfunc p')) = dim) by (rewrite map_length; auto).
  assert (LH' : length (map (fun q : R * R => fst q + gam * snd q) (combine (map Ropp (dfunc p')) h)) = dim) by (rewrite map_length, combine_length, LG', LH; apply Nat.min_id).
  apply IH; auto.
Qed.
Theorem S_frprmn iters fuel d0 p : length p = dim -> frprmn_n func' dfunc' iters fuel d0 (S p) = carry (frprmn_n func dfunc iters fuel d0 p).
Proof.
  intros LP. unfold frprmn_n. rewrite HD, HF by auto. rewrite <- (S_map Ropp) by (auto; intros; ring). apply S_loop; rewrite ?map_length; auto.
Qed.
End Opt.

(** ** Objective and gradient *)
Lemma inv_conj d : cxinv (cxconj d) = cxconj (cxinv d).
Proof. unfold cxinv, cxconj, cxn2. cbn [re im fst snd]. replace (re d * re d + - im d * - im d) with (re d * re d + im d * im d) by ring. apply cx_eq; cbn; unfold Rdiv; ring. Qed.
Lemma inv_reflect d : cxinv (reflect (-1) d) = reflect (-1) (cxinv d).
Proof. unfold cxinv, reflect, cxn2. cbn [re im fst snd]. replace (-1 * re d * (-1 * re d) + im d * im d) with (re d * re d + im d * im d) by ring. apply cx_eq; cbn; unfold Rdiv; ring. Qed.
Lemma reflect_1 d : reflect 1 d = d.
Proof. destruct d. apply cx_eq; cbn; ring. Qed.
Section Fit.
Variables (m : nat) (mu : R) (sg : nat -> nat) (ep : nat -> R).
Hypothesis Hmu : is_sign mu.
Hypothesis Hsg : renumbering m sg.
Hypothesis Hep : forall k, (k < m)%nat -> is_sign (ep k).
Notation T := (relabel m mu sg ep).
Definition rpi (j : nat) : nat := if (j <? m)%nat then sg j else (m + sg (j - m))%nat.
Definition rs (j : nat) : R := if (j <? m)%nat then mu else ep (j - m).
Lemma T_signed x : T x = signed_perm (2 * m) rpi rs x.
Proof.
  clear Hmu Hsg Hep. unfold relabel, signed_perm. replace (2 * m)%nat with (m + m)%nat by lia. rewrite seq_app, map_app. f_equal; [apply map_ext_in; intros k Hk; apply in_seq in Hk|].
  - unfold rpi, rs. destruct (Nat.ltb_spec k m); [reflexivity|lia].
  - cbn [Nat.add]. rewrite <- (Nat.add_0_l m) at 2. assert (G : forall a n, map (fun k => ep k * nth (m + sg k) x 0) (seq a n) = map (fun k => rs k * nth (rpi k) x 0) (seq (a + m) n)).
    { intros a n. revert a. induction n as [|n IH]; intros a; [reflexivity|]. cbn [seq map]. rewrite IH. f_equal. unfold rs, rpi. destruct (Nat.ltb_spec (a + m) m); [lia|]. replace (a + m - m)%nat with a by lia. reflexivity. }
    exact (G 0%nat m).
Qed.
Lemma rpi_ok : renumbering (2 * m) rpi.
Proof.
  destruct Hsg as [B I]. unfold rpi. split.
  - intros k Hk. destruct (Nat.ltb_spec k m) as [L|L]; [pose proof (B k L)|pose proof (B (k - m)%nat ltac:(lia))]; lia.
  - intros j k Hj Hk. destruct (Nat.ltb_spec j m) as [L|L]; destruct (Nat.ltb_spec k m) as [L'|L']; intros E.
    + now apply I.
    + pose proof (B j L). lia.
    + pose proof (B k L'). lia.
    + assert (j - m = k - m)%nat by (apply I; lia). lia.
Qed.
Lemma rs_ok k : (k < 2 * m)%nat -> is_sign (rs k).
Proof. intros H. unfold rs. destruct (Nat.ltb_spec k m); [exact Hmu|]. apply Hep. lia. Qed.
Lemma T_length x : length (T x) = (2 * m)%nat.
Proof. rewrite T_signed. apply S_length. Qed.
Lemma T_energy x k : (k < m)%nat -> nth k (T x) 0 = mu * nth (sg k) x 0.
Proof. clear Hmu Hsg Hep. intros H. rewrite T_signed, S_nth by lia. unfold rpi, rs. destruct (Nat.ltb_spec k m); [reflexivity|lia]. Qed.
Lemma T_coupling x k : (k < m)%nat -> nth (m + k) (T x) 0 = ep k * nth (m + sg k) x 0.
Proof. clear Hmu Hsg Hep. intros H. rewrite T_signed, S_nth by lia. unfold rpi, rs. destruct (Nat.ltb_spec (m + k) m); [lia|]. now replace (m + k - m)%nat with k by lia. Qed.
(** On the imaginary axis. *)
Lemma sub_reflect w e : cxsub (0, w) (rcx (mu * e)) = reflect mu (cxsub (0, w) (rcx e)).
Proof. apply cx_eq; cbn; ring. Qed.
Lemma inv_mu d : cxinv (reflect mu d) = reflect mu (cxinv d).
Proof. destruct Hmu as [->| ->]; [now rewrite !reflect_1|apply inv_reflect]. Qed.
Lemma div_mu a d : cxdiv (rcx a) (reflect mu d) = reflect mu (cxdiv (rcx a) d).
Proof. unfold cxdiv. rewrite inv_mu. apply cx_eq; cbn; ring. Qed.
Lemma csum_reflect n f : csum n (fun k => reflect mu (f k)) = reflect mu (csum n f).
Proof. apply cx_eq; rewrite ?csum_re, ?csum_im; cbn [reflect re im fst snd]; [|unfold reflect, im at 2; cbn [snd]; rewrite csum_im; reflexivity]. unfold reflect, re at 2. cbn [fst]. rewrite csum_re. unfold reflect, re at 1. cbn [fst]. apply rsum_scal_l. Qed.
Lemma csum_renumber f : csum m (fun k => f (sg k)) = csum m f.
Proof. apply cx_eq; rewrite ?csum_re, ?csum_im; [apply (rsum_renumber m sg (fun k => re (f k)) Hsg)|apply (rsum_renumber m sg (fun k => im (f k)) Hsg)]. Qed.
Lemma hyb_T x w : hyb m (fun k => nth k (T x) 0) (fun k => nth (m + k) (T x) 0) (0, w) = reflect mu (hyb m (fun k => nth k x 0) (fun k => nth (m + k) x 0) (0, w)).
Proof.
  unfold hyb. rewrite <- csum_reflect. rewrite <- (csum_renumber (fun k => reflect mu (cxdiv (rcx (nth (m + k) x 0 * nth (m + k) x 0)) (cxsub (0, w) (rcx (nth k x 0)))))).
  apply csum_ext. intros k Hk. rewrite (T_energy x k), (T_coupling x k) by auto. rewrite sub_reflect, div_mu. do 3 f_equal.
  pose proof (sign_sq _ (Hep k Hk)) as Q. replace (ep k * nth (m + sg k) x 0 * (ep k * nth (m + sg k) x 0)) with (ep k * ep k * (nth (m + sg k) x 0 * nth (m + sg k) x 0)) by ring. rewrite Q. ring.
Qed.
Variables (nmats : nat) (beta : R) (vals : list cx).
Hypothesis LV : length vals = nmats.
Notation z := (matsubara nmats beta).
Notation vals' := (map (reflect mu) vals).
Lemma z_length : length z = nmats.
Proof. unfold matsubara. now rewrite map_length, seq_length. Qed.
Lemma z_nth i : (i < nmats)%nat -> nth i z (rcx 0) = (0, (2 * INR i + 1) * PI / beta).
Proof. intros H. unfold matsubara. rewrite (nth_map_lt _ _ _ _ 0%nat) by (now rewrite seq_length). now rewrite seq_nth. Qed.
Lemma vals_nth i : (i < nmats)%nat -> nth i vals' (rcx 0) = reflect mu (nth i vals (rcx 0)).
Proof. intros H. apply nth_map_lt. lia. Qed.
Lemma reflect_sub a b : cxsub (reflect mu a) (reflect mu b) = reflect mu (cxsub a b).
Proof. apply cx_eq; cbn; ring. Qed.
Lemma n2_reflect a : cxn2 (reflect mu a) = cxn2 a.
Proof. unfold cxn2, reflect. cbn [re im fst snd]. pose proof (sign_sq _ Hmu) as Q. replace (mu * re a * (mu * re a)) with (mu * mu * (re a * re a)) by ring. rewrite Q. ring. Qed.
Lemma chi2_T x : length x = (2 * m)%nat -> c_chi2 m z vals' (T x) = c_chi2 m z vals x.
Proof.
  intros L. rewrite !c_chi2_eq by (rewrite ?map_length, ?z_length, ?T_length; auto). rewrite !(chi2_misfit m) by (rewrite ?map_length, ?z_length, ?T_length; auto).
  unfold misfit. rewrite z_length. f_equal. apply rsum_ext. intros i Hi. rewrite z_nth, vals_nth, hyb_T by auto. now rewrite reflect_sub, n2_reflect.
Qed.
(** The gradient in closed form. *)
Definition rest (vs : list cx) (x : list R) (i : nat) : cx := cxsub (nth i vs (rcx 0)) (hyb m (fun k => nth k x 0) (fun k => nth (m + k) x 0) (nth i z (rcx 0))).
Definition slope (x : list R) (k i : nat) : cx :=
  if (k <? m)%nat then cxdiv (rcx (nth (m + k) x 0 * nth (m + k) x 0)) (cxmul (cxsub (nth i z (rcx 0)) (rcx (nth k x 0))) (cxsub (nth i z (rcx 0)) (rcx (nth k x 0))))
  else cxdiv (rcx (2 * nth k x 0)) (cxsub (nth i z (rcx 0)) (rcx (nth (k - m) x 0))).
Lemma grad_nth vs mem x k : length vs = nmats -> length mem = nmats -> (forall row, In row mem -> length row = (2 * m)%nat) -> length x = (2 * m)%nat -> (k < 2 * m)%nat ->
  nth k (c_dchi2 m z vs mem x) 0 = -2 * rsum nmats (fun i => re (slope x k i) * re (rest vs x i) + im (slope x k i) * im (rest vs x i)) / INR nmats.
Proof.
  clear LV Hmu Hsg Hep. intros LVS LM ROW L Hk. unfold c_dchi2. cbv zeta. rewrite z_length.
  destruct (fold_modify_outer (2 * m) (fun i k =>
     re (nth k (c_ddelta1 m x (nth i z (rcx 0)) (nth i mem [])) (rcx 0)) * re (cxsub (nth i vs (rcx 0)) (c_delta1 m x (nth i z (rcx 0)))) +
     im (nth k (c_ddelta1 m x (nth i z (rcx 0)) (nth i mem [])) (rcx 0)) * im (cxsub (nth i vs (rcx 0)) (c_delta1 m x (nth i z (rcx 0))))) nmats (repeat 0 (2 * m)) (repeat_length _ _)) as [A B].
  cbv zeta in A, B. match goal with |- nth k (map ?f ?l) 0 = _ => rewrite (nth_map_lt f l k 0 0) by (rewrite A; exact Hk) end.
  rewrite B by exact Hk. rewrite nth_repeat, Rplus_0_l. do 2 f_equal. apply rsum_ext. intros i Hi. rewrite c_delta_hyb. rewrite (c_ddelta_eq m x _ _ L).
  destruct (ddelta1_entries m x L (nth i z (rcx 0)) (nth i mem [])) as [_ E]; [apply ROW, nth_In; lia|]. rewrite E by auto. reflexivity.
Qed.
Lemma grad_T mem mem' x : length mem = nmats -> length mem' = nmats -> (forall row, In row mem -> length row = (2 * m)%nat) -> (forall row, In row mem' -> length row = (2 * m)%nat) ->
  length x = (2 * m)%nat -> c_dchi2 m z vals' mem' (T x) = T (c_dchi2 m z vals mem x).
Proof.
  intros LM LM' ROW ROW' L. apply (list_ext _ _ 0); [now rewrite T_length, c_dchi2_length|]. rewrite c_dchi2_length. intros k Hk.
  rewrite (T_signed (c_dchi2 m z vals mem x)), S_nth by auto. pose proof (proj1 rpi_ok k Hk) as HPK.
  rewrite (grad_nth vals' mem' (T x) k) by (rewrite ?map_length, ?T_length; auto). rewrite (grad_nth vals mem x (rpi k)) by auto.
  assert (RS : forall i, (i < nmats)%nat -> rest vals' (T x) i = reflect mu (rest vals x i)).
  { intros i Hi. unfold rest. rewrite z_nth, vals_nth, hyb_T by auto. apply reflect_sub. }
  assert (SL : forall i, (i < nmats)%nat -> re (slope (T x) k i) * re (rest vals' (T x) i) + im (slope (T x) k i) * im (rest vals' (T x) i) =
     rs k * (re (slope x (rpi k) i) * re (rest vals x i) + im (slope x (rpi k) i) * im (rest vals x i))).
  { intros i Hi. rewrite RS by auto. unfold slope, rs, rpi. rewrite z_nth by auto. set (w := (2 * INR i + 1) * PI / beta). pose proof (sign_sq _ Hmu) as QM.
    destruct (Nat.ltb_spec k m) as [Lt|Ge].
    - pose proof (proj1 Hsg k Lt) as SK. rewrite (proj2 (Nat.ltb_lt (sg k) m) SK). rewrite (T_energy x k), (T_coupling x k) by auto. rewrite sub_reflect.
      set (d := cxsub (0, w) (rcx (nth (sg k) x 0))). pose proof (sign_sq _ (Hep k Lt)) as QE.
      replace (ep k * nth (m + sg k) x 0 * (ep k * nth (m + sg k) x 0)) with (nth (m + sg k) x 0 * nth (m + sg k) x 0) by (replace (ep k * nth (m + sg k) x 0 * (ep k * nth (m + sg k) x 0)) with (ep k * ep k * (nth (m + sg k) x 0 * nth (m + sg k) x 0)) by ring; rewrite QE; ring).
      set (a := nth (m + sg k) x 0 * nth (m + sg k) x 0).
      assert (SQ : cxdiv (rcx a) (cxmul (reflect mu d) (reflect mu d)) = (re (cxdiv (rcx a) (cxmul d d)), mu * im (cxdiv (rcx a) (cxmul d d)))).
      { destruct Hmu as [E|E]; rewrite E.
        - rewrite reflect_1. apply cx_eq; cbn [re im fst snd]; ring.
        - assert (SD : cxmul (reflect (-1) d) (reflect (-1) d) = cxconj (cxmul d d)) by (apply cx_eq; cbn; ring). rewrite SD. unfold cxdiv. rewrite inv_conj. apply cx_eq; cbn; ring. }
      rewrite SQ. cbn [re im fst snd reflect]. unfold reflect. cbn [re im fst snd]. unfold re, im. cbn [fst snd]. ring.
    - destruct (Nat.ltb_spec (m + sg (k - m)) m) as [?|_]; [lia|]. replace (m + sg (k - m) - m)%nat with (sg (k - m)) by lia. replace k with (m + (k - m))%nat at 1 3 by lia.
      rewrite (T_energy x (k - m)), (T_coupling x (k - m)) by lia. rewrite sub_reflect, div_mu. set (d := cxsub (0, w) (rcx (nth (sg (k - m)) x 0))). set (c := nth (m + sg (k - m)) x 0). set (e := ep (k - m)).
      assert (DV : cxdiv (rcx (2 * (e * c))) d = cxmul (rcx e) (cxdiv (rcx (2 * c)) d)) by (unfold cxdiv; apply cx_eq; cbn; ring). rewrite DV.
      unfold reflect, cxmul, rcx. cbn [re im fst snd]. unfold re, im. cbn [fst snd].
      match goal with |- ?u = _ => transitivity (u + (mu * mu - 1) * 0); [ring|] end.
      set (p := fst (cxdiv (2 * c, 0) d)). set (q := snd (cxdiv (2 * c, 0) d)). set (f1 := fst (rest vals x i)). set (f2 := snd (rest vals x i)).
      replace (mu * (e * p - 0 * q) * (mu * f1)) with (mu * mu * (e * p * f1)) by ring. rewrite QM. ring. }
  rewrite (rsum_ext nmats _ _ SL), rsum_scal_l. unfold Rdiv. ring.
Qed.
(** ** The fit *)
Theorem fit_T fuel d0 mem mem' x : length mem = nmats -> length mem' = nmats -> (forall row, In row mem -> length row = (2 * m)%nat) -> (forall row, In row mem' -> length row = (2 * m)%nat) ->
  length x = (2 * m)%nat ->
  c_fit fuel d0 m nmats vals' beta mem' (T x) = match c_fit fuel d0 m nmats vals beta mem x with Ok (x', it, v) => Ok (T x', it, v) | Err e => Err e end.
Proof.
  intros LM LM' ROW ROW' L. unfold c_fit, c_fit_with, frprmn. rewrite T_signed.
  rewrite (S_frprmn (2 * m) rpi rs rpi_ok rs_ok (c_chi2 m z vals) (c_chi2 m z vals') (c_dchi2 m z vals mem) (c_dchi2 m z vals' mem')); auto.
  - unfold carry. destruct (frprmn_n _ _ _ _ _ _) as [[[p it] v]|e]; [|reflexivity]. now rewrite T_signed.
  - intros p Hp. rewrite <- T_signed. now apply chi2_T.
  - intros p Hp. rewrite <- !T_signed. now apply grad_T.
  - intros p _. apply c_dchi2_length.
Qed.
End Fit.

(** ** Mirror-symmetric baths *)
Lemma mirror_ok m : renumbering m (fun k => m - 1 - k)%nat.
Proof. split; intros; lia. Qed.
Lemma mirror_fixed m x : length x = (2 * m)%nat -> (mirror_symmetric m x <-> relabel m (-1) (fun k => m - 1 - k)%nat (fun _ => 1) x = x).
Proof.
  intros L. assert (I1 : is_sign (-1)) by (right; reflexivity). split.
  - intros H. apply (list_ext _ _ 0); [now rewrite T_length, L|]. rewrite T_length. intros k Hk. destruct (Nat.lt_ge_cases k m) as [Lt|Ge].
    + rewrite (T_energy m _ _ _ x k Lt). destruct (H k Lt) as [E _]. rewrite E. ring.
    + replace k with (m + (k - m))%nat by lia. rewrite (T_coupling m _ _ _ x (k - m)) by lia. destruct (H (k - m)%nat ltac:(lia)) as [_ E]. rewrite E. ring.
  - intros E k Hk. split.
    + pose proof (f_equal (fun l => nth k l 0) E) as Q. cbv beta in Q. rewrite (T_energy m _ _ _ x k Hk) in Q. rewrite <- Q. ring.
    + pose proof (f_equal (fun l => nth (m + k) l 0) E) as Q. cbv beta in Q. rewrite (T_coupling m _ _ _ x k Hk) in Q. rewrite <- Q. ring.
Qed.
Theorem fit_symmetric fuel d0 m nmats vals beta mem x x' it v : length vals = nmats -> length mem = nmats -> (forall row, In row mem -> length row = (2 * m)%nat) -> length x = (2 * m)%nat ->
  (forall d, In d vals -> re d = 0) -> mirror_symmetric m x -> c_fit fuel d0 m nmats vals beta mem x = Ok (x', it, v) -> length x' = (2 * m)%nat /\ mirror_symmetric m x'.
Proof.
  intros LV LM ROW L RE SYM E. assert (L' : length x' = (2 * m)%nat) by (destruct (c_fit_descends fuel d0 m nmats vals beta mem x x' it v L LV E) as [Q _]; exact Q). split; [exact L'|].
  apply mirror_fixed; [exact L'|]. apply (mirror_fixed m x L) in SYM.
  pose proof (fit_T m (-1) (fun k => m - 1 - k)%nat (fun _ => 1) (or_intror eq_refl) (mirror_ok m) (fun _ _ => or_introl eq_refl) nmats beta vals LV fuel d0 mem mem x LM LM ROW ROW L) as F.
  rewrite SYM, E in F. replace (map (reflect (-1)) vals) with vals in F.
  - rewrite E in F. congruence.
  - symmetry. rewrite <- (map_id vals) at 2. apply map_ext_in. intros d Hd. pose proof (RE d Hd) as Q. destruct d. cbn in Q. subst. apply cx_eq; cbn; ring.
Qed.
Lemma symmetric_hyb m x w : length x = (2 * m)%nat -> mirror_symmetric m x -> re (hyb m (fun k => nth k x 0) (fun k => nth (m + k) x 0) (0, w)) = 0.
Proof.
  intros L H. apply (mirror_fixed m x L) in H.
  pose proof (hyb_T m (-1) (fun k => m - 1 - k)%nat (fun _ => 1) (or_intror eq_refl) (mirror_ok m) (fun _ _ => or_introl eq_refl) x w) as E. rewrite H in E.
  apply (f_equal re) in E. unfold reflect in E. cbn [re fst] in E. unfold re in *. cbn [fst] in *. lra.
Qed.
