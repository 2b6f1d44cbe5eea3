(** Lanczos vectors are orthonormal and tridiagonalise the operator. *)
From Coq Require Import List Arith Bool Lia Ring Field.
From Verif Require Import Base LanczosModel LanczosSpec LanczosProofs.
Import ListNotations.

Section Ortho.
Variable K : CField.
Local Open Scope cr_scope.
Add Field Kfield : (fth K).
Notation nthK i x := (nth i x (c0 K)).

Lemma vdot_ip d (x y : list K) : length x = d -> length y = d -> vdot K x y = ip d x y.
Proof.
  revert x y. induction d as [|d IH]; intros x y Hx Hy.
  - destruct x; [|discriminate]. reflexivity.
  - destruct x as [|a x], y as [|b y]; try discriminate. unfold ip. rewrite nsum_S_l. simpl.
    unfold vdot. simpl. f_equal. apply IH; simpl in *; lia.
Qed.
Lemma ip_ext d (x y x' y' : list K) : (forall i, (i < d)%nat -> nthK i x = nthK i x') ->
  (forall i, (i < d)%nat -> nthK i y = nthK i y') -> ip d x y = ip d x' y'.
Proof. intros H H'. apply nsum_ext. intros i Hi. now rewrite H, H'. Qed.
Lemma ip_comm d (x y : list K) : ip d x y = ip d y x.
Proof. apply nsum_ext. intros. ring. Qed.
Lemma ip_lin d (c1 c2 c3 : K) (x y1 y2 y3 z : list K) :
  (forall i, (i < d)%nat -> nthK i z = c1 * nthK i y1 + c2 * nthK i y2 + c3 * nthK i y3) ->
  ip d x z = c1 * ip d x y1 + c2 * ip d x y2 + c3 * ip d x y3.
Proof.
  intros H. unfold ip. rewrite <- !nsum_scal_l, <- !nsum_add. apply nsum_ext. intros i Hi. rewrite H by auto. ring.
Qed.
Lemma ip_zero d (x z : list K) : (forall i, (i < d)%nat -> nthK i z = 0) -> ip d x z = 0.
Proof. intros H. apply nsum_0. intros i Hi. rewrite H by auto. ring. Qed.

Lemma scal_len c (x : list K) : length (scal K c x) = length x.
Proof. apply map_length. Qed.
Lemma scal_nth c (x : list K) i : nthK i (scal K c x) = c * nthK i x.
Proof.
  unfold scal. replace (c0 K) with (c * c0 K) at 1 by ring. apply (map_nth (fun t => c * t)).
Qed.
Lemma axpy_ok (x y : list K) c : length x = length y -> exists z, axpy K x y c = Ok z /\ length z = length x /\
  forall i, nthK i z = c * nthK i x + nthK i y.
Proof.
  intros H. unfold axpy. rewrite (proj2 (Nat.eqb_eq _ _) H). eexists. split; [reflexivity|].
  split; [rewrite map_length, combine_length; lia|].
  revert y H. induction x as [|a x IH]; intros [|b y] H i; try discriminate; destruct i; simpl; try ring.
  apply IH. simpl in H. lia.
Qed.

Variable sq : K -> K.
Variable d : nat.
Variable mv : list K -> res (list K).
Hypothesis Hmv : symmetric_op d mv.

Lemma step_spec v l : length v = d -> length l = d -> exists a v' w w',
  sl_step K sq mv v l = Ok (a, sq (ip d v v), v', w') /\ length v' = d /\ length w' = d /\
  (forall i, nthK i v' = cdiv K 1 (sq (ip d v v)) * nthK i v) /\
  mv v' = Ok w /\ length w = d /\ a = ip d v' w /\
  (forall i, nthK i w' = nthK i w - a * nthK i v' - sq (ip d v v) * nthK i l).
Proof.
  intros Hv Hl. unfold sl_step, norm. rewrite (vdot_ip d) by auto. set (b := sq (ip d v v)).
  destruct (proj1 Hmv (scal K (cdiv K 1 b) v)) as (w & Ew & Lw); [now rewrite scal_len|].
  rewrite Ew. cbn [bind]. unfold dot. rewrite scal_len, Hv, Lw, Nat.eqb_refl. cbn [bind].
  rewrite (vdot_ip d) by (rewrite ?scal_len; auto).
  set (v' := scal K (cdiv K 1 b) v). set (a := ip d v' w).
  destruct (axpy_ok v' w (- a)) as (w1 & E1 & L1 & N1); [unfold v'; rewrite scal_len; congruence|].
  rewrite E1. cbn [bind].
  destruct (axpy_ok l w1 (- b)) as (w2 & E2 & L2 & N2); [rewrite L1; unfold v'; rewrite scal_len; congruence|].
  rewrite E2. cbn [bind]. exists a, v', w, w2. unfold v' in *. rewrite scal_len in *.
  repeat split; auto; try congruence.
  - intros i. apply scal_nth.
  - intros i. rewrite N2, N1. ring.
Qed.

(** The vector before the [k]-th. *)
Definition prev (vs : list (list K)) (k : nat) : list K :=
  match k with O => [] | S k => nth k vs [] end.
(** [b_k v_k], the last one not yet normalised. *)
Definition nxt (bs : list K) (vs : list (list K)) (v : list K) (k i : nat) : K :=
  if (k <? length vs)%nat then nthK k bs * ent vs k i else nthK i v.

Record linv (bs as_ : list K) (vs : list (list K)) (v l : list K) : Prop := mklinv {
  li_b : length bs = length vs;
  li_a : length as_ = length vs;
  li_v : length v = d;
  li_l : length l = d;
  li_vs : forall k, (k < length vs)%nat -> length (nth k vs []) = d;
  li_on : forall j k, (j < length vs)%nat -> (k < length vs)%nat ->
          ip d (nth j vs []) (nth k vs []) = if (j =? k)%nat then 1 else 0;
  li_perp : forall k, (k < length vs)%nat -> ip d (nth k vs []) v = 0;
  li_prev : forall i, nthK i l = nthK i (prev vs (length vs));
  li_rec : forall k, (k < length vs)%nat -> exists w, mv (nth k vs []) = Ok w /\ length w = d /\
          forall i, (i < d)%nat -> nthK i w = nxt bs vs v (S k) i + nthK k as_ * ent vs k i + nthK k bs * nthK i (prev vs k)
}.

Hypothesis Hsq : forall x, length x = d -> sq (ip d x x) * sq (ip d x x) = ip d x x.

Lemma prev_len bs as_ vs v l : linv bs as_ vs v l -> forall i, (d <= i)%nat -> nthK i (prev vs (length vs)) = 0.
Proof.
  intros H i Hi. rewrite <- (li_prev _ _ _ _ _ H). apply nth_overflow. rewrite (li_l _ _ _ _ _ H). exact Hi.
Qed.

Lemma linv_step bs as_ vs v l : linv bs as_ vs v l -> sq (ip d v v) <> 0 ->
  exists a v' w', sl_step K sq mv v l = Ok (a, sq (ip d v v), v', w') /\
  linv (bs ++ [sq (ip d v v)]) (as_ ++ [a]) (vs ++ [v']) w' v'.
Proof.
  intros H Hb. destruct (step_spec v l (li_v _ _ _ _ _ H) (li_l _ _ _ _ _ H)) as
    (a & v' & w & w' & Es & Lv' & Lw' & Nv' & Ew & Lw & Ea & Nw').
  set (b := sq (ip d v v)) in *. exists a, v', w'. split; [exact Es|].
  set (m := length vs) in *.
  assert (Vb : forall i, nthK i v = b * nthK i v') by (intros i; rewrite Nv'; field; exact Hb).
  assert (P1 : forall k, (k < m)%nat -> ip d (nth k vs []) v' = 0).
  { intros k Hk. rewrite (ip_lin d (cdiv K 1 b) 0 0 _ v [] []).
    - rewrite (li_perp _ _ _ _ _ H k Hk). ring.
    - intros i Hi. rewrite Nv'. ring. }
  assert (N1 : ip d v' v' = 1).
  { rewrite (ip_lin d (cdiv K 1 b) 0 0 v' v [] []) by (intros; rewrite Nv'; ring).
    rewrite (ip_comm d v' v), (ip_lin d (cdiv K 1 b) 0 0 v v [] []) by (intros; rewrite Nv'; ring).
    rewrite <- (Hsq v) by exact (li_v _ _ _ _ _ H). fold b. field. exact Hb. }
  assert (PL : ip d v' l = 0).
  { rewrite (ip_ext d v' l v' (prev vs m)); auto; [|intros i Hi; exact (li_prev _ _ _ _ _ H i)].
    subst m. destruct (length vs) eqn:Em.
    - apply ip_zero. intros i _. destruct i; reflexivity.
    - simpl. rewrite ip_comm. apply P1. lia. }
  assert (Q : ip d v' w' = 0).
  { rewrite (ip_lin d 1 (- a) (- b) v' w v' l) by (intros; rewrite Nw'; ring).
    rewrite N1, PL, <- Ea. ring. }
  assert (Q2 : forall k, (k < m)%nat -> ip d (nth k vs []) w' = 0).
  { intros k Hk. rewrite (ip_lin d 1 (- a) (- b) _ w v' l) by (intros; rewrite Nw'; ring).
    rewrite (P1 k Hk).
    destruct (li_rec _ _ _ _ _ H k Hk) as (W & EW & LW & NW).
    rewrite <- (proj2 Hmv (nth k vs []) v' W w (li_vs _ _ _ _ _ H k Hk) Lv' EW Ew).
    rewrite (ip_comm d W v').
    assert (Hpk : ip d v' (prev vs k) = 0).
    { destruct k as [|k]; [apply ip_zero; intros i _; destruct i; reflexivity|].
      simpl. rewrite ip_comm. apply P1. lia. }
    assert (Hkk : ip d v' (nth k vs []) = 0) by (rewrite ip_comm; apply P1; exact Hk).
    rewrite (ip_ext d (nth k vs []) l (nth k vs []) (prev vs m)); auto; [|intros i Hi; exact (li_prev _ _ _ _ _ H i)].
    destruct (Nat.eq_dec (S k) m) as [Em|Em].
    - rewrite (ip_lin d 1 (nthK k as_) (nthK k bs) v' v (nth k vs []) (prev vs k)).
      2:{ intros i Hi. rewrite NW by auto. unfold nxt. destruct (Nat.ltb_spec (S k) (length vs)); [unfold m in *; lia|].
          unfold ent. ring. }
      rewrite Hkk, Hpk. rewrite (ip_lin d b 0 0 v' v' [] []) by (intros; rewrite Vb; ring).
      rewrite N1. rewrite <- Em. simpl. rewrite (li_on _ _ _ _ _ H) by auto. rewrite Nat.eqb_refl. ring.
    - rewrite (ip_lin d (nthK (S k) bs) (nthK k as_) (nthK k bs) v' (nth (S k) vs []) (nth k vs []) (prev vs k)).
      2:{ intros i Hi. rewrite NW by auto. unfold nxt. destruct (Nat.ltb_spec (S k) (length vs)); [|unfold m in *; lia].
          unfold ent. ring. }
      rewrite Hkk, Hpk. rewrite (ip_comm d v' (nth (S k) vs [])), (P1 (S k)) by lia.
      assert (exists m', length vs = S m') as (m' & Em') by (exists (pred (length vs)); fold m; lia).
      assert (m = S m') by exact Em'. unfold m. rewrite Em'. simpl. rewrite (li_on _ _ _ _ _ H) by lia.
      destruct (Nat.eqb_spec k m'); [lia|]. ring. }
  assert (X1 : nth m (vs ++ [v']) [] = v') by (unfold m; apply nth_middle).
  assert (X2 : nthK m (as_ ++ [a]) = a) by (unfold m; rewrite <- (li_a _ _ _ _ _ H); apply nth_middle).
  assert (X3 : nthK m (bs ++ [b]) = b) by (unfold m; rewrite <- (li_b _ _ _ _ _ H); apply nth_middle).
  constructor.
  - rewrite !app_length, (li_b _ _ _ _ _ H). reflexivity.
  - rewrite !app_length, (li_a _ _ _ _ _ H). reflexivity.
  - exact Lw'.
  - exact Lv'.
  - intros k Hk. rewrite app_length in Hk. simpl in Hk. fold m in Hk. destruct (Nat.eq_dec k m) as [->|].
    + unfold m. rewrite nth_middle. exact Lv'.
    + rewrite app_nth1 by (fold m; lia). apply (li_vs _ _ _ _ _ H). fold m. lia.
  - intros j k. rewrite app_length. simpl. fold m. intros Hj Hk.
    destruct (Nat.eq_dec j m) as [->|]; destruct (Nat.eq_dec k m) as [->|];
      try (unfold m; rewrite nth_middle); try rewrite (app_nth1 vs) by (fold m; lia); fold m.
    + rewrite Nat.eqb_refl. exact N1.
    + destruct (Nat.eqb_spec m k); [lia|]. rewrite ip_comm. apply P1. lia.
    + destruct (Nat.eqb_spec j m); [lia|]. apply P1. lia.
    + rewrite (app_nth1 vs) by (fold m; lia). apply (li_on _ _ _ _ _ H); fold m; lia.
  - intros k Hk. rewrite app_length in Hk. simpl in Hk. fold m in Hk. destruct (Nat.eq_dec k m) as [->|].
    + unfold m. rewrite nth_middle. exact Q.
    + rewrite app_nth1 by (fold m; lia). apply Q2. lia.
  - intros i. rewrite app_length. simpl. rewrite Nat.add_1_r. simpl. rewrite nth_middle. reflexivity.
  - intros k Hk. rewrite app_length in Hk. simpl in Hk. fold m in Hk. destruct (Nat.eq_dec k m) as [->|].
    + exists w. unfold m. rewrite nth_middle. split; [exact Ew|]. split; [exact Lw|].
      intros i Hi. unfold nxt, ent. rewrite app_length. simpl. fold m.
      destruct (Nat.ltb_spec (S m) (m + 1)); [lia|].
      rewrite X1, X2, X3. unfold m.
      replace (nthK i (prev (vs ++ [v']) (length vs))) with (nthK i l).
      2:{ rewrite (li_prev _ _ _ _ _ H). destruct (length vs) eqn:El; [reflexivity|]. simpl.
          rewrite app_nth1 by lia. reflexivity. }
      rewrite Nw'. ring.
    + destruct (li_rec _ _ _ _ _ H k) as (W & EW & LW & NW); [fold m; lia|].
      exists W. rewrite app_nth1 by (fold m; lia). split; [exact EW|]. split; [exact LW|].
      intros i Hi. rewrite NW by auto. unfold nxt, ent. rewrite app_length. simpl. fold m.
      rewrite (app_nth1 as_ [a] _ (n := k)), (app_nth1 vs [v'] [] (n := k)) by (rewrite ?(li_a _ _ _ _ _ H); fold m; lia).
      rewrite (app_nth1 bs [b] _ (n := k)) by (rewrite (li_b _ _ _ _ _ H); fold m; lia).
      replace (prev (vs ++ [v']) k) with (prev vs k).
      2:{ destruct k; [reflexivity|]. simpl. rewrite app_nth1 by (fold m; lia). reflexivity. }
      f_equal. f_equal.
      destruct (Nat.ltb_spec (S k) m); destruct (Nat.ltb_spec (S k) (m + 1)); try lia.
      * rewrite !app_nth1 by (rewrite ?(li_b _ _ _ _ _ H); fold m; lia). reflexivity.
      * assert (S k = m) as -> by lia. rewrite X1, X3. apply Vb.
Qed.

Lemma map_const_nth (x : list K) i : nthK i (map (fun _ => c0 K) x) = 0.
Proof. revert i. induction x; destruct i; simpl; auto. Qed.
Lemma linv_init phi0 : length phi0 = d -> linv [] [] [] phi0 (map (fun _ => 0) phi0).
Proof.
  intros H. constructor; simpl; auto; try (intros; lia).
  - now rewrite map_length.
  - intros i. rewrite map_const_nth. destruct i; reflexivity.
Qed.

Lemma run_linv phi0 : length phi0 = d -> forall tr v l, run (sl_step K sq mv) phi0 (map (fun _ => 0) phi0) tr v l ->
  (forall t, In t tr -> tr_b t <> 0) ->
  linv (map tr_b tr) (map tr_a tr) (map tr_v tr) v l /\
  (tr <> [] -> nthK 0 (map tr_b tr) * nthK 0 (map tr_b tr) = ip d phi0 phi0 /\
     forall i, nthK i phi0 = nthK 0 (map tr_b tr) * ent (map tr_v tr) 0 i) /\
  (tr = [] -> v = phi0).
Proof.
  intros Hp tr v l H. induction H as [|tr v1 l1 a b l2 v2 R IH E]; intros Hb.
  - split; [now apply linv_init|]. split; [intros []; reflexivity|auto].
  - destruct IH as (I & J & J0); [intros t It; apply Hb, in_or_app; auto|].
    destruct (step_spec v1 l1 (li_v _ _ _ _ _ I) (li_l _ _ _ _ _ I)) as (a1 & v1' & w & w' & Es & _ & _ & Nv & _).
    assert (Hnz : sq (ip d v1 v1) <> 0).
    { rewrite E in Es. injection Es as _ <- _ _. apply (Hb (a, b, l2)). apply in_or_app. simpl. auto. }
    destruct (linv_step _ _ _ _ _ I Hnz) as (a' & v' & w2 & Es' & I').
    rewrite E in Es'. injection Es' as -> -> -> ->. rewrite !map_app. simpl.
    split; [exact I'|]. split; [|intros D; destruct tr; discriminate].
    intros _. destruct tr as [|t tr].
    + rewrite J0 in * by reflexivity. simpl. unfold tr_b; simpl. rewrite E in Es. injection Es as _ -> _.
      split; [now apply Hsq|]. intros i. unfold ent. simpl. unfold tr_v; simpl. rewrite Nv. field. exact Hnz.
    + destruct J as [J1 J2]; [discriminate|]. simpl in *. split; [exact J1|exact J2].
Qed.

Lemma linv_lanczos phi0 tr v l : linv (map tr_b tr) (map tr_a tr) (map tr_v tr) v l ->
  nthK 0 (map tr_b tr) * nthK 0 (map tr_b tr) = ip d phi0 phi0 ->
  (forall i, nthK i phi0 = nthK 0 (map tr_b tr) * ent (map tr_v tr) 0 i) ->
  (forall t : K * K * list K, In t tr -> tr_b t <> 0) ->
  lanczos d mv phi0 (map tr_a tr) (map tr_b tr) (map tr_v tr) v.
Proof.
  intros I J1 J2 Hb. set (as_ := map tr_a tr) in *. set (bs := map tr_b tr) in *. set (vs := map tr_v tr) in *.
  assert (Rec : forall k, (k < length vs)%nat -> exists w, mv (nth k vs []) = Ok w /\ length w = d /\
    forall i, (i < d)%nat ->
      nthK i w = (if (S k <? length vs)%nat then nthK (S k) bs * ent vs (S k) i else nthK i v)
                  + nthK k as_ * ent vs k i
                  + match k with O => 0 | S k' => nthK k bs * ent vs k' i end).
  { intros k Hk. destruct (li_rec _ _ _ _ _ I k Hk) as (w & Ew & Lw & Nw). exists w. split; [auto|]. split; [auto|].
    intros i Hi. rewrite Nw by auto. unfold nxt. destruct k as [|k]; unfold prev, ent; [|reflexivity].
    destruct i; simpl; ring. }
  constructor; auto.
  - exact (li_a _ _ _ _ _ I).
  - exact (li_b _ _ _ _ _ I).
  - exact (li_vs _ _ _ _ _ I).
  - exact (li_on _ _ _ _ _ I).
  - intros k Hk. unfold bs. rewrite <- (li_b _ _ _ _ _ I) in Hk. unfold bs in Hk. rewrite map_length in Hk.
    destruct (nth_error tr k) as [t|] eqn:Et; [|apply nth_error_None in Et; lia].
    replace (nthK k (map tr_b tr)) with (tr_b t).
    + apply Hb. eapply nth_error_In; eauto.
    + symmetry. apply nth_error_nth. rewrite nth_error_map, Et. reflexivity.
  - intros j k w Hj Hk Ew. destruct (Rec k Hk) as (w0 & Ew0 & Lw & Nw). rewrite Ew in Ew0. injection Ew0 as <-.
    rewrite (ip_lin d 1 (nthK k as_) (match k with O => 0 | S _ => nthK k bs end) (nth j vs [])
      (if (S k <? length vs)%nat then scal K (nthK (S k) bs) (nth (S k) vs []) else v) (nth k vs []) (match k with O => [] | S k' => nth k' vs [] end)).
    2:{ intros i Hi. rewrite Nw by auto. unfold ent. destruct (S k <? length vs)%nat, k; rewrite ?scal_nth; ring. }
    rewrite (li_on _ _ _ _ _ I) by auto.
    assert (A : ip d (nth j vs []) (if (S k <? length vs)%nat then scal K (nthK (S k) bs) (nth (S k) vs []) else v)
                = if (j =? S k)%nat then nthK (S k) bs else 0).
    { destruct (Nat.ltb_spec (S k) (length vs)).
      - rewrite (ip_lin d (nthK (S k) bs) 0 0 _ (nth (S k) vs []) [] []) by (intros; rewrite scal_nth; ring).
        rewrite (li_on _ _ _ _ _ I) by auto. destruct (j =? S k)%nat; ring.
      - destruct (Nat.eqb_spec j (S k)); [lia|]. apply (li_perp _ _ _ _ _ I); auto. }
    rewrite A. clear A. unfold tri. destruct (Nat.eqb_spec j (S k)), (Nat.eqb_spec j k); try lia.
    + subst j. destruct k as [|k]; [destruct (Nat.eqb_spec 0 2); try lia; ring|].
      rewrite (li_on _ _ _ _ _ I) by lia. destruct (Nat.eqb_spec (S (S k)) k); [lia|].
      destruct (Nat.eqb_spec (S k) (S (S (S k)))); [lia|]. ring.
    + subst j. destruct k as [|k]; [ring|]. rewrite (li_on _ _ _ _ _ I) by lia.
      destruct (Nat.eqb_spec (S k) k); [lia|]. ring.
    + destruct k as [|k]; [destruct (Nat.eqb_spec 0 (S j)); [lia|]; ring|].
      rewrite (li_on _ _ _ _ _ I) by lia.
      destruct (Nat.eqb_spec j k), (Nat.eqb_spec (S k) (S j)); try lia; ring.
  - split; [exact (li_v _ _ _ _ _ I)|exact (li_perp _ _ _ _ _ I)].
Qed.
End Ortho.

Lemma run_snoc_inv {V F} (step : V -> V -> res (F * F * V * V)) v l tr t v2 l2 :
  run step v l (tr ++ [t]) v2 l2 -> exists v1 l1, run step v l tr v1 l1 /\ step v1 l1 = Ok (tr_a t, tr_b t, tr_v t, v2).
Proof.
  intros H. remember (tr ++ [t]) as T. destruct H as [|tr0 v1 l1 a b l2 v2 R E].
  - destruct tr; discriminate.
  - apply app_inj_tail in HeqT. destruct HeqT as [-> <-]. exists v1, l1. auto.
Qed.

Theorem build_lanczos (K : CField) (E : Type) (sq : K -> K) d mv tiny (egs : list K -> list K -> res E) close phi0 ga gb maxn ND s :
  symmetric_op d mv -> (forall x, length x = d -> cmul K (sq (ip d x x)) (sq (ip d x x)) = ip d x x) ->
  tiny (c0 K) = true -> length phi0 = d -> 0 < ND ->
  build_sl_tridiag (list K) K E (sl_step K sq mv) tiny egs close (map (fun _ => c0 K) phi0) phi0 ga gb maxn ND = Ok s ->
  exists vs res, lanczos d mv phi0 (ret_a _ _ s) (ret_b _ _ s) vs res /\
    1 <= length vs < maxn /\
    (l_steps _ _ s = length vs \/
     l_steps _ _ s = S (length vs) /\ (tiny (sq (ip d res res)) = true \/ length vs = maxn - 1)).
Proof.
  intros Hm Hs Ht Hp HN H.
  destruct (build_spec _ _ _ _ _ _ _ _ _ _ _ _ _ _ HN H) as (tr & last & R & St & Ll & L1 & L2 & Ra & Rb & Nt & La).
  assert (Hb : forall t, In t tr -> tr_b t <> c0 K).
  { intros t It B. specialize (Nt t It). rewrite B in Nt. congruence. }
  rewrite Ra, Rb.
  assert (G : forall v l, run (sl_step K sq mv) phi0 (map (fun _ => c0 K) phi0) tr v l ->
    lanczos d mv phi0 (map tr_a tr) (map tr_b tr) (map tr_v tr) v).
  { intros v l R1. destruct (run_linv K sq d mv Hm Hs phi0 Hp tr v l R1 Hb) as (I & J & _).
    destruct J as [J1 J2]; [destruct tr; simpl in L1; [lia|discriminate]|].
    eapply linv_lanczos; eauto. }
  destruct last as [|t [|]]; simpl in Ll; try lia.
  - rewrite app_nil_r in *. exists (map tr_v tr), (l_v _ _ s). rewrite map_length.
    split; [eauto|]. split; [lia|]. left. exact St.
  - destruct (run_snoc_inv _ _ _ _ _ _ _ R) as (v1 & l1 & R1 & E1). exists (map tr_v tr), v1. rewrite map_length.
    split; [eauto|]. split; [lia|]. right. rewrite app_length in St. simpl in St. split; [lia|].
    destruct (run_linv K sq d mv Hm Hs phi0 Hp tr v1 l1 R1 Hb) as (I & _).
    destruct (step_spec K sq d mv Hm v1 l1 (li_v _ _ _ _ _ _ _ _ I) (li_l _ _ _ _ _ _ _ _ I)) as (a1 & v1' & w & w' & Es & _).
    rewrite E1 in Es. injection Es as _ Eb _ _. rewrite <- Eb. apply La. simpl. auto.
Qed.
