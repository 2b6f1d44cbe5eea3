(** Gram-Schmidt orthogonalisation. *)
From Coq Require Import List Arith ZArith Bool Lia Ring Field.
From Verif Require Import Base LanczosModel LanczosSpec LanczosProofs LanczosOrthoProofs BandModel BandSpec BandLoopProofs BandProofs.
Import ListNotations.

Section Gs.
Variable K : CField.
Local Open Scope cr_scope.
Add Field Kfield : (fth K).
Notation nthK i x := (nth i x (c0 K)).
Variables (sq : K -> K) (is0 : K -> bool) (d : nat).
Hypothesis His0 : forall t, is0 t = true <-> t = 0.
Hypothesis Hsq : forall x : list K, length x = d -> sq (ip d x x) * sq (ip d x x) = ip d x x.
Hypothesis Hdef : forall x : list K, ip d x x = 0 -> forall i, (i < d)%nat -> nthK i x = 0.
Definition rows_d (vs : list (list K)) : Prop := forall x, In x vs -> length x = d.

Lemma rows_cons x vs : rows_d (x :: vs) <-> length x = d /\ rows_d vs.
Proof. split; [intros H; split; [apply H, in_eq|intros y Hy; apply H; now right]|]. intros [Hx Hv] y [<-|Hy]; auto. Qed.
Lemma norm2 y : length y = d -> norm K sq y * norm K sq y = ip d y y.
Proof. intros H. unfold norm. rewrite (vdot_ip K d) by auto. now apply Hsq. Qed.
Lemma mul_cancel (a x y : K) : a <> 0 -> a * x = a * y -> x = y.
Proof. intros N Q. replace x with (a * x / a) by (field; exact N). rewrite Q. field. exact N. Qed.

Definition cf (x : list K) (Y : list (list K)) (m : nat) : K := ip d x (nth m Y []) / ip d (nth m Y []) (nth m Y []).
Lemma sub_rows_ok x : length x = d -> forall Y r, rows_d Y -> length r = d -> (forall y, In y Y -> ip d y y <> 0) ->
  exists z, subtract_rows K sq is0 x r Y = Ok z /\ length z = d /\ forall i, nthK i z = nthK i r - nsum (length Y) (fun m => cf x Y m * ent Y m i).
Proof.
  intros Hx. induction Y as [|y Y IH]; intros r HY Hr HN.
  - exists r. split; [reflexivity|]. split; [exact Hr|]. intros i. rewrite nsum_0 by (simpl; intros; lia). ring.
  - apply rows_cons in HY. destruct HY as [Hy HY]. cbn [subtract_rows]. rewrite (dot_ok K d) by auto. cbn [bind]. unfold ratio. rewrite norm2 by auto.
    destruct (is0 (ip d y y)) eqn:Z; [apply His0 in Z; exfalso; exact (HN y (in_eq _ _) Z)|]. cbn [bind].
    destruct (vsub_ok K d r y (ip d x y / ip d y y) Hr Hy) as (r' & -> & Lr & Nr). cbn [bind].
    destruct (IH r' HY Lr (fun u Hu => HN u (in_cons _ _ _ Hu))) as (z & -> & Lz & Nz). exists z. split; [reflexivity|]. split; [exact Lz|]. intros i.
    rewrite Nz, Nr. cbn [length]. rewrite nsum_S_l. unfold cf at 2. unfold ent at 2. cbn [nth]. fold (ent Y). change (fun i0 : nat => cf x (y :: Y) (S i0) * ent (y :: Y) (S i0) i) with (fun m : nat => cf x Y m * ent Y m i). ring.
Qed.
Lemma sub_rows_err x : length x = d -> forall Y r, rows_d Y -> length r = d -> (exists y, In y Y /\ ip d y y = 0) -> subtract_rows K sq is0 x r Y = Err ZeroDivisionError.
Proof.
  intros Hx. induction Y as [|y Y IH]; intros r HY Hr (u & Hu & Z); [destruct Hu|]. apply rows_cons in HY. destruct HY as [Hy HY]. cbn [subtract_rows]. rewrite (dot_ok K d) by auto. cbn [bind]. unfold ratio. rewrite norm2 by auto.
  destruct (is0 (ip d y y)) eqn:Zy; [reflexivity|]. cbn [bind]. destruct (vsub_ok K d r y (ip d x y / ip d y y) Hr Hy) as (r' & -> & Lr & Nr). cbn [bind]. apply IH; auto.
  destruct Hu as [<-|Hu]; [|eauto]. apply His0 in Z. congruence.
Qed.

(** The rows of Y are pairwise orthogonal and X is Y times a unit triangular matrix. *)
Definition triang (X Y : list (list K)) : Prop :=
  length Y = length X /\ rows_d Y /\ (forall i j, (i < length Y)%nat -> (j < length Y)%nat -> i <> j -> ip d (nth i Y []) (nth j Y []) = 0) /\
  forall i, (i < length Y)%nat -> exists c, forall t, (t < d)%nat -> ent X i t = nsum i (fun m => c m * ent Y m t) + ent Y i t.

Lemma triang_snoc X Y x z : triang X Y -> length x = d -> length z = d -> (forall y, In y Y -> ip d y y <> 0) -> (forall i, nthK i z = nthK i x - nsum (length Y) (fun m => cf x Y m * ent Y m i)) -> triang (X ++ [x]) (Y ++ [z]).
Proof.
  intros (HL & HR & HO & HT) Lx Lz HN Nz.
  assert (OZ : forall m, (m < length Y)%nat -> ip d (nth m Y []) z = 0).
  { intros m Hm. unfold ip. rewrite (nsum_ext _ d _ (fun i => nthK i (nth m Y []) * nthK i x - nthK i (nth m Y []) * comb Y (cf x Y) i)) by (intros i _; rewrite Nz; unfold comb; ring).
    rewrite nsum_sub, nsum_comb. rewrite (nsum_single _ _ _ m Hm).
    - unfold cf. rewrite (ip_comm K d x). unfold ip at 1 2. change (nsum d (fun i => nthK i (nth m Y []) * nthK i (nth m Y []))) with (ip d (nth m Y []) (nth m Y [])).
      change (nsum d (fun i => nthK i (nth m Y []) * nthK i x)) with (ip d (nth m Y []) x). field. apply HN, nth_In, Hm.
    - intros j Hj Hne. rewrite HO by auto. ring. }
  split; [rewrite !app_length; cbn [length]; lia|]. split; [|split].
  - intros y Hy. apply in_app_or in Hy. destruct Hy as [Hy|[<-|[]]]; auto.
  - rewrite app_length. cbn [length]. intros i j Hi Hj Hne.
    destruct (Nat.eq_dec i (length Y)) as [->|Ni], (Nat.eq_dec j (length Y)) as [->|Nj]; [lia| | |].
    + rewrite app_nth2, Nat.sub_diag, app_nth1 by lia. cbn [nth]. rewrite ip_comm. apply OZ. lia.
    + rewrite (app_nth1 Y [z]), app_nth2, Nat.sub_diag by lia. cbn [nth]. apply OZ. lia.
    + rewrite !app_nth1 by lia. apply HO; lia.
  - rewrite app_length. cbn [length]. intros i Hi. destruct (Nat.eq_dec i (length Y)) as [->|Ni].
    + exists (cf x Y). intros t Ht. rewrite ent_last, HL, ent_last, <- HL, Nz. rewrite (nsum_ext _ (length Y) (fun m => cf x Y m * ent (Y ++ [z]) m t) (fun m => cf x Y m * ent Y m t)) by (intros m Hm; now rewrite ent_snoc). ring.
    + destruct (HT i ltac:(lia)) as (c & Hc). exists c. intros t Ht. rewrite !ent_snoc by lia. rewrite Hc by auto. f_equal. apply nsum_ext. intros m Hm. now rewrite ent_snoc by lia.
Qed.

Lemma triang_dot X Y m l : triang X Y -> (m < length Y)%nat -> (l <= m)%nat -> ip d (nth m Y []) (nth l X []) = if (l =? m)%nat then ip d (nth m Y []) (nth m Y []) else 0.
Proof.
  intros (HL & HR & HO & HT) Hm Hl. destruct (HT l ltac:(lia)) as (c & Hc).
  rewrite (ip_sum K d _ _ (fun t => nsum l (fun m => c m * ent Y m t)) (fun t => ent Y l t)) by exact Hc.
  rewrite (nsum_ext _ d _ (fun t => nsum l (fun k => c k * (nthK t (nth m Y []) * ent Y k t)))) by (intros t _; rewrite <- nsum_scal_l; apply nsum_ext; intros; ring).
  rewrite nsum_swap, (nsum_0 _ l).
  - change (nsum d (fun i => nthK i (nth m Y []) * ent Y l i)) with (ip d (nth m Y []) (nth l Y [])). destruct (Nat.eqb_spec l m) as [->|Hne]; [ring|]. rewrite HO by lia. ring.
  - intros k Hk. rewrite nsum_scal_l. change (nsum d (fun i => nthK i (nth m Y []) * ent Y k i)) with (ip d (nth m Y []) (nth k Y [])). rewrite HO by lia. ring.
Qed.
(** Each row of Y from the rows of X. *)
Lemma triang_back X Y : triang X Y -> forall i, (i < length Y)%nat -> exists c, forall t, (t < d)%nat -> ent Y i t = nsum i (fun m => c m * ent X m t) + ent X i t.
Proof.
  intros (HL & HR & HO & HT). intros i. induction i as [i IH] using (well_founded_induction lt_wf). intros Hi. destruct (HT i Hi) as (c & Hc).
  assert (Q : forall k, (k <= i)%nat -> exists e, forall t, (t < d)%nat -> nsum k (fun m => c m * ent Y m t) = nsum i (fun m => e m * ent X m t)).
  { induction k as [|k IHk]; intros Hk.
    - exists (fun _ => 0). intros t _. rewrite !nsum_0; auto; intros; try lia. ring.
    - destruct (IHk ltac:(lia)) as (e & He). destruct (IH k ltac:(lia) ltac:(lia)) as (e' & He').
      exists (fun m => e m + c k * ((if (m <? k)%nat then e' m else 0) + (if (m =? k)%nat then 1 else 0))). intros t Ht. rewrite nsum_S, He, He' by auto.
      rewrite (nsum_ext _ i (fun m => (e m + _) * ent X m t) (fun m => e m * ent X m t + c k * ((if (m <? k)%nat then e' m else 0) * ent X m t + (if (m =? k)%nat then 1 else 0) * ent X m t))) by (intros; ring).
      rewrite nsum_add, nsum_scal_l, nsum_add. rewrite (nsum_single _ i (fun m => (if (m =? k)%nat then 1 else 0) * ent X m t) k).
      + rewrite Nat.eqb_refl.
        assert (G : nsum i (fun m => (if (m <? k)%nat then e' m else 0) * ent X m t) = nsum k (fun m => e' m * ent X m t)); [|rewrite G; ring].
        transitivity (nsum (k + (i - k)) (fun m => (if (m <? k)%nat then e' m else 0) * ent X m t)); [f_equal; lia|]. rewrite (nsum_split _ k (i - k)), (nsum_0 _ (i - k)).
        * rewrite (nsum_ext _ k _ (fun m => e' m * ent X m t)); [ring|]. intros m Hm. destruct (Nat.ltb_spec m k); [reflexivity|lia].
        * intros m Hm. destruct (Nat.ltb_spec (k + m) k); [lia|ring].
      + lia.
      + intros j Hj Hne. destruct (Nat.eqb_spec j k); [lia|ring]. }
  destruct (Q i (le_n _)) as (e & He). exists (fun m => - e m). intros t Ht.
  rewrite (nsum_ext _ i (fun m => - e m * ent X m t) (fun m => (- (1)) * (e m * ent X m t))) by (intros; ring). rewrite nsum_scal_l, <- He, Hc by auto. ring.
Qed.
Lemma triang_indep X Y : triang X Y -> (independent d X <-> forall i, (i < length Y)%nat -> ip d (nth i Y []) (nth i Y []) <> 0).
Proof.
  intros T. assert (HL : length Y = length X) by apply T. split.
  - intros HI i Hi Z. destruct (triang_back X Y T i Hi) as (c & Hc).
    assert (Q : (if (i =? i)%nat then 1 else if (i <? i)%nat then c i else 0) = (0 : K)).
    { refine (HI (fun m => if (m =? i)%nat then 1 else if (m <? i)%nat then c m else 0) _ i ltac:(lia)). intros t Ht. unfold comb.
      replace (length X) with (i + (S O + (length X - S i)))%nat by lia. rewrite (nsum_split _ i), (nsum_split _ 1), nsum_S, (nsum_0 _ 0), (nsum_0 _ (length X - S i)).
      - rewrite Nat.add_0_r, Nat.eqb_refl. rewrite (nsum_ext _ i _ (fun m => c m * ent X m t)).
        + transitivity (ent Y i t); [rewrite Hc by auto; ring|]. exact (Hdef _ Z t Ht).
        + intros m Hm. destruct (Nat.eqb_spec m i); [lia|]. destruct (Nat.ltb_spec m i); [reflexivity|lia].
      - intros m Hm. destruct (Nat.eqb_spec (i + (1 + m)) i); [lia|]. destruct (Nat.ltb_spec (i + (1 + m)) i); [lia|ring].
      - intros; lia. }
    rewrite Nat.eqb_refl in Q. exact (F_1_neq_0 (fth K) Q).
  - intros HN c Hc.
    assert (G : forall k m, (m < length X)%nat -> (length X - m <= k)%nat -> c m = 0).
    { induction k as [|k IH]; intros m Hm Hk; [lia|].
      assert (Z : nsum d (fun t => nthK t (nth m Y []) * comb X c t) = 0) by (apply nsum_0; intros t Ht; rewrite Hc by auto; ring).
      rewrite nsum_comb in Z. rewrite (nsum_single _ _ _ m Hm) in Z.
      - rewrite (triang_dot X Y) in Z by (auto; lia). rewrite Nat.eqb_refl in Z. apply (mul_cancel (ip d (nth m Y []) (nth m Y []))); [apply HN; lia|]. transitivity (0 : K); [rewrite <- Z; ring|ring].
      - intros j Hj Hne. destruct (Nat.lt_ge_cases j m).
        + rewrite (triang_dot X Y) by (auto; lia). destruct (Nat.eqb_spec j m); [lia|ring].
        + rewrite (IH j) by lia. ring. }
    intros m Hm. exact (G (length X) m Hm ltac:(lia)).
Qed.

Lemma nonzero_dec (Y : list (list K)) : (forall y, In y Y -> ip d y y <> 0) \/ (exists y, In y Y /\ ip d y y = 0).
Proof.
  induction Y as [|y Y IH]; [left; intros y []|]. destruct (is0 (ip d y y)) eqn:Z.
  - right. exists y. split; [apply in_eq|now apply His0].
  - destruct IH as [IH|(u & Hu & Zu)]; [left|right; exists u; auto using in_cons]. intros u [<-|Hu]; [|auto]. intros E. apply His0 in E. congruence.
Qed.
Lemma indep_firstn (X : list (list K)) n : independent d X -> independent d (firstn n X).
Proof.
  intros HI c Hc m Hm. rewrite firstn_length in Hm.
  assert (Q : (if (m <? n)%nat then c m else 0) = 0).
  { refine (HI (fun m => if (m <? n)%nat then c m else 0) _ m ltac:(lia)). intros t Ht. etransitivity; [|exact (Hc t Ht)]. unfold comb. rewrite firstn_length.
    set (q := Nat.min n (length X)). transitivity (nsum (q + (length X - q)) (fun i => (if (i <? n)%nat then c i else 0) * ent X i t)); [apply (f_equal (fun z => nsum z (fun i => (if (i <? n)%nat then c i else 0) * ent X i t))); unfold q; lia|]. rewrite nsum_split, (nsum_0 _ (length X - q)).
    - rewrite (nsum_ext _ q _ (fun m0 => c m0 * ent (firstn n X) m0 t)); [ring|].
      intros i Hi. unfold q in Hi. destruct (Nat.ltb_spec i n); [|lia]. f_equal. unfold ent. f_equal. rewrite <- (firstn_skipn n X) at 1. apply app_nth1. rewrite firstn_length. lia.
    - intros i Hi. unfold q in *. destruct (Nat.ltb_spec (Nat.min n (length X) + i) n); [lia|ring]. }
  destruct (Nat.ltb_spec m n); [exact Q|lia].
Qed.

Lemma gs_spec X2 : forall X1 Y, triang X1 Y -> rows_d X2 ->
  (exists Z, gs_loop K sq is0 X2 Y = Ok Z /\ triang (X1 ++ X2) Z /\ (X2 <> [] -> independent d (firstn (length (X1 ++ X2) - 1) (X1 ++ X2)))) \/
  (gs_loop K sq is0 X2 Y = Err ZeroDivisionError /\ ~ independent d (firstn (length (X1 ++ X2) - 1) (X1 ++ X2))).
Proof.
  induction X2 as [|x X2 IH]; intros X1 Y T HX.
  - left. exists Y. split; [reflexivity|]. rewrite app_nil_r. split; [exact T|congruence].
  - apply rows_cons in HX. destruct HX as [Hx HX]. cbn [gs_loop]. assert (HY : rows_d Y) by apply T. assert (HL : length Y = length X1) by apply T.
    destruct (nonzero_dec Y) as [NZ|Z].
    + destruct (sub_rows_ok x Hx Y x HY Hx NZ) as (z & -> & Lz & Nz). cbn [bind].
      assert (T' : triang (X1 ++ [x]) (Y ++ [z])) by (apply triang_snoc; auto).
      destruct (IH (X1 ++ [x]) (Y ++ [z]) T' HX) as [(W & EW & TW & IW)|(EW & NI)]; rewrite <- app_assoc in *; cbn [app] in *; [left|right; auto].
      exists W. split; [exact EW|]. split; [exact TW|]. intros _. destruct X2 as [|x2 X2]; [|apply IW; congruence].
      rewrite app_length. cbn [length]. replace (length X1 + 1 - 1)%nat with (length X1 + 0)%nat by lia. rewrite firstn_app_2. cbn [firstn]. rewrite app_nil_r.
      apply (triang_indep X1 Y T). intros i Hi. apply NZ, nth_In, Hi.
    + right. rewrite sub_rows_err by auto. split; [reflexivity|]. intros HI.
      assert (HI' : independent d X1).
      { replace X1 with (firstn (length X1) (firstn (length (X1 ++ x :: X2) - 1) (X1 ++ x :: X2))); [now apply indep_firstn|].
        rewrite firstn_firstn, app_length. cbn [length]. replace (Nat.min (length X1) (length X1 + S (length X2) - 1)) with (length X1 + 0)%nat by lia. rewrite firstn_app_2. cbn [firstn]. apply app_nil_r. }
      destruct Z as (y & Hy & Zy). apply (In_nth _ _ []) in Hy. destruct Hy as (i & Hi & <-). exact (proj1 (triang_indep X1 Y T) HI' i Hi Zy).
Qed.

Lemma triang_first X : rows_d X -> triang (firstn 1 X) (firstn 1 X).
Proof.
  intros HX. split; [reflexivity|]. split; [intros y Hy; apply HX; rewrite <- (firstn_skipn 1 X); apply in_or_app; now left|].
  assert (L1 : (length (firstn 1 X) <= 1)%nat) by (rewrite firstn_length; lia). split; [intros i j Hi Hj Hne; exfalso; lia|]. intros i Hi. exists (fun _ => 0). intros t Ht. assert (i = O) as -> by lia. rewrite nsum_0 by (intros; lia). ring.
Qed.
Lemma gs_rows nc X : rows_d X ->
  (exists Y, gram_schmidt_rows K sq is0 nc X true false = Ok Y /\ triang X Y /\ independent d (firstn (length X - 1) X)) \/
  (gram_schmidt_rows K sq is0 nc X true false = Err ZeroDivisionError /\ ~ independent d (firstn (length X - 1) X)).
Proof.
  intros HX. unfold gram_schmidt_rows. cbv zeta.
  assert (HS : rows_d (skipn 1 X)) by (intros y Hy; apply HX; rewrite <- (firstn_skipn 1 X); apply in_or_app; now right).
  destruct (gs_spec (skipn 1 X) (firstn 1 X) (firstn 1 X) (triang_first X HX) HS) as [(Y & E & T & I)|(E & N)]; rewrite firstn_skipn in *; rewrite E; cbn [bind]; [left|right; auto].
  exists Y. split; [reflexivity|]. split; [exact T|]. destruct X as [|x [|x2 X]]; [intros c _ m Hm; simpl in Hm; lia|intros c _ m Hm; simpl in Hm; lia|]. apply I. cbn [skipn]. congruence.
Qed.

(** ** Normalisation *)
Lemma norm_nz y : length y = d -> (norm K sq y = 0 <-> ip d y y = 0).
Proof.
  intros H. pose proof (norm2 y H) as Q. split; intros Z; [rewrite <- Q, Z; ring|]. destruct (is0 (norm K sq y)) eqn:N0; [now apply His0|].
  assert (NZ : norm K sq y <> 0) by (intros F; apply His0 in F; congruence). apply (mul_cancel (norm K sq y) _ _ NZ). rewrite Q, Z. ring.
Qed.
Lemma gs_norm_spec Y : rows_d Y -> (forall y, In y Y -> ip d y y <> 0) -> exists Z, gs_norm K sq is0 Y = Ok Z /\ length Z = length Y /\ rows_d Z /\
  forall i t, (i < length Y)%nat -> norm K sq (nth i Y []) <> 0 /\ ent Y i t = norm K sq (nth i Y []) * ent Z i t.
Proof.
  intros HY HN. unfold gs_norm. induction Y as [|y Y IH]; [exists []; split; [reflexivity|]; split; [reflexivity|]; split; [intros y []|simpl; intros; lia]|].
  apply rows_cons in HY. destruct HY as [Hy HY]. cbn [mapM]. unfold ratio at 1. assert (NZ : norm K sq y <> 0) by (rewrite norm_nz by auto; apply HN, in_eq).
  destruct (is0 (norm K sq y)) eqn:Z; [apply His0 in Z; contradiction|]. cbn [bind]. destruct (IH HY (fun u Hu => HN u (in_cons _ _ _ Hu))) as (W & -> & LW & RW & EW). cbn [bind].
  eexists. split; [reflexivity|]. cbn [length]. split; [now rewrite LW|]. split; [apply rows_cons; split; [rewrite map_length; exact Hy|exact RW]|].
  intros [|i] t Hi; unfold ent; cbn [nth]; [|apply EW; lia]. split; [exact NZ|]. set (g := fun t0 : K => 1 / norm K sq y * t0).
  transitivity (norm K sq y * nth t (map g y) (g 0)); [rewrite (map_nth g); unfold g; field; exact NZ|]. do 2 f_equal. unfold g. field. exact NZ.
Qed.
Lemma gs_norm_err Y : rows_d Y -> (exists y, In y Y /\ ip d y y = 0) -> gs_norm K sq is0 Y = Err ZeroDivisionError.
Proof.
  intros HY (u & Hu & Z). unfold gs_norm. induction Y as [|y Y IH]; [destruct Hu|]. apply rows_cons in HY. destruct HY as [Hy HY]. cbn [mapM]. unfold ratio at 1.
  destruct (is0 (norm K sq y)) eqn:N0; [reflexivity|]. cbn [bind]. destruct Hu as [->|Hu]; [|rewrite IH by auto; reflexivity].
  apply (proj2 (norm_nz u Hy)), His0 in Z. congruence.
Qed.

(** The rows of Z are orthonormal and X is Z times a triangular matrix with the
    lengths of the unnormalised rows on the diagonal. *)
Lemma gs_rows_norm nc X : rows_d X ->
  (exists Z, gram_schmidt_rows K sq is0 nc X true true = Ok Z /\ length Z = length X /\ orthonormal_rows d Z /\ independent d X /\
     forall i, (i < length X)%nat -> exists c y, length y = d /\ norm K sq y <> 0 /\ forall t, (t < d)%nat -> ent X i t = nsum i (fun m => c m * ent Z m t) + norm K sq y * ent Z i t) \/
  (gram_schmidt_rows K sq is0 nc X true true = Err ZeroDivisionError /\ ~ independent d X).
Proof.
  intros HX. destruct (gs_rows nc X HX) as [(Y & E & T & _)|(E & N)]; unfold gram_schmidt_rows in *; cbv zeta in *; cbn [bind] in *.
  - destruct (gs_loop K sq is0 (skipn 1 X) (firstn 1 X)) as [Y'|]; cbn [bind] in *; [injection E as ->|discriminate]. pose proof T as (HL & HR & HO & HT).
    destruct (nonzero_dec Y) as [NZ|(y & Hy & Zy)].
    + left. destruct (gs_norm_spec Y HR NZ) as (Z & -> & LZ & RZ & EZ). exists Z. cbn [bind]. split; [reflexivity|]. split; [congruence|]. split; [split; [exact RZ|]|split].
      * intros i j Hi Hj. rewrite LZ in Hi, Hj. destruct (EZ i O Hi) as [Ni _]. destruct (EZ j O Hj) as [Nj _].
        set (a := norm K sq (nth i Y [])) in *. set (b := norm K sq (nth j Y [])) in *.
        assert (Q : a * (b * ip d (nth i Z []) (nth j Z [])) = ip d (nth i Y []) (nth j Y [])).
        { unfold ip. rewrite <- !nsum_scal_l. apply nsum_ext. intros t _. destruct (EZ i t Hi) as [_ E1]. destruct (EZ j t Hj) as [_ E2]. unfold ent in E1, E2. rewrite E1, E2. unfold a, b. ring. }
        apply (mul_cancel b _ _ Nj), (mul_cancel a _ _ Ni). rewrite Q. destruct (Nat.eqb_spec i j) as [->|Hne].
        -- rewrite <- norm2 by (apply HR, nth_In, Hj). unfold a, b. ring.
        -- rewrite HO by auto. ring.
      * apply (triang_indep X Y T). intros i Hi. apply NZ, nth_In, Hi.
      * rewrite <- HL. intros i Hi. destruct (HT i Hi) as (c & Hc). exists (fun m => c m * norm K sq (nth m Y [])), (nth i Y []). split; [apply HR, nth_In, Hi|]. split; [apply (EZ i O Hi)|]. intros t Ht.
        rewrite Hc by auto. rewrite (proj2 (EZ i t Hi)). f_equal. apply nsum_ext. intros m Hm. rewrite (proj2 (EZ m t ltac:(lia))). ring.
    + right. rewrite gs_norm_err by eauto. split; [reflexivity|]. intros HI. apply (In_nth _ _ []) in Hy. destruct Hy as (i & Hi & <-). exact (proj1 (triang_indep X Y T) HI i Hi Zy).
  - right. destruct (gs_loop K sq is0 (skipn 1 X) (firstn 1 X)) as [Y'|]; cbn [bind] in *; [discriminate|]. injection E as ->. split; [reflexivity|]. intros HI. apply N. now apply indep_firstn.
Qed.

(** ** Columns *)
Lemma mtrans_length nc (X : list (list K)) : length (mtrans K nc X) = nc.
Proof. unfold mtrans. now rewrite map_length, seq_length. Qed.
Lemma mtrans_row nc (X : list (list K)) j : (j < nc)%nat -> nth j (mtrans K nc X) [] = map (fun r => nth j r 0) X.
Proof.
  intros Hj. unfold mtrans. rewrite (nth_indep _ [] (map (fun r => nth O r 0) X)) by (rewrite map_length, seq_length; lia).
  rewrite (map_nth (fun j => map (fun r => nth j r 0) X)), seq_nth by lia. reflexivity.
Qed.
Lemma mtrans_ent nc (X : list (list K)) i j : (j < nc)%nat -> (i < length X)%nat -> ent (mtrans K nc X) j i = ent X i j.
Proof.
  intros Hj Hi. unfold ent. rewrite mtrans_row by auto. rewrite (nth_indep _ 0 (nth j [] 0)) by (rewrite map_length; lia). now rewrite (map_nth (fun r => nth j r 0)).
Qed.
Lemma mtrans_mtrans r (Y : list (list K)) : (forall y, In y Y -> length y = r) -> mtrans K (length Y) (mtrans K r Y) = Y.
Proof.
  intros HY. apply (nth_ext _ _ [] []); [apply mtrans_length|]. rewrite mtrans_length. intros i Hi. rewrite mtrans_row by auto.
  apply (nth_ext _ _ 0 0); [rewrite map_length, mtrans_length; symmetry; apply HY, nth_In, Hi|]. rewrite map_length, mtrans_length. intros j Hj.
  rewrite (nth_indep _ 0 (nth i [] 0)) by (rewrite map_length, mtrans_length; lia). rewrite (map_nth (fun r0 => nth i r0 0)). rewrite mtrans_row by auto.
  rewrite (nth_indep _ 0 (nth j [] 0)) by (rewrite map_length; lia). now rewrite (map_nth (fun r0 => nth j r0 0)).
Qed.
End Gs.
