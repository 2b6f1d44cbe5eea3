(** The second Lanczos pass returns Ritz vectors. *)
From Coq Require Import List Arith Bool Lia Ring Field.
From Verif Require Import Base LanczosModel LanczosSpec LanczosProofs LanczosOrthoProofs.
Import ListNotations.

Lemma run_cons_inv {V F} (step : V -> V -> res (F * F * V * V)) v l tr t v2 l2 :
  run step v l (t :: tr) v2 l2 -> exists v1, step v l = Ok (tr_a t, tr_b t, tr_v t, v1) /\ run step v1 (tr_v t) tr v2 l2.
Proof.
  intros H. remember (t :: tr) as T. revert t tr HeqT. induction H as [|tr0 v1 l1 a b l2 v2 R IH E]; intros t tr HT; [discriminate|].
  destruct tr0 as [|t0 tr0]; simpl in HT; injection HT as <- <-.
  - inversion R; subst; [|destruct tr; discriminate]. exists v2. split; [exact E|constructor].
  - destruct (IH _ _ eq_refl) as (v3 & E3 & R3). exists v3. split; [exact E3|]. econstructor; eauto.
Qed.
Lemma run_cons {V F} (step : V -> V -> res (F * F * V * V)) v l a b l1 v1 tr v2 l2 :
  step v l = Ok (a, b, l1, v1) -> run step v1 l1 tr v2 l2 -> run step v l ((a, b, l1) :: tr) v2 l2.
Proof.
  intros E H. induction H as [|tr0 v3 l3 a3 b3 l4 v4 R IH E3].
  - change [(a, b, l1)] with ([] ++ [(a, b, l1)]). econstructor; [constructor|exact E].
  - rewrite app_comm_cons. econstructor; eauto.
Qed.

Section Solve.
Variable K : CField.
Local Open Scope cr_scope.
Add Field Kfield3 : (fth K).
Notation nthK i x := (nth i x (c0 K)).

Lemma nsum_if_eq n l (c : K) : nsum n (fun j => if (j =? l)%nat then c else 0) = if (l <? n)%nat then c else 0.
Proof.
  destruct (Nat.ltb_spec l n).
  - rewrite (nsum_single _ _ _ l); auto; [now rewrite Nat.eqb_refl|]. intros j _ Hj. destruct (Nat.eqb_spec j l); [lia|reflexivity].
  - apply nsum_0. intros j Hj. destruct (Nat.eqb_spec j l); [lia|reflexivity].
Qed.
Lemma tri_sum (a b : list K) n l f : (l < n)%nat ->
  nsum n (fun j => tri a b j l * f j) =
  (if (S l <? n)%nat then nthK (S l) b * f (S l) else 0) + nthK l a * f l +
  match l with O => 0 | S l' => nthK l b * f l' end.
Proof.
  intros Hl.
  rewrite (nsum_ext _ n _ (fun j => (if (j =? S l)%nat then nthK (S l) b * f (S l) else 0) + (if (j =? l)%nat then nthK l a * f l else 0) +
    (match l with O => 0 | S l' => if (j =? l')%nat then nthK l b * f l' else 0 end))).
  - rewrite !nsum_add, !nsum_if_eq. destruct (Nat.ltb_spec l n); [|lia]. destruct l as [|l'].
    + rewrite nsum_0 by reflexivity. reflexivity.
    + rewrite nsum_if_eq. destruct (Nat.ltb_spec l' n); [reflexivity|lia].
  - intros j Hj. unfold tri. destruct (Nat.eqb_spec j l) as [->|].
    + destruct (Nat.eqb_spec l (S l)); [lia|]. destruct l as [|l']; [ring|]. destruct (Nat.eqb_spec (S l') l'); [lia|ring].
    + destruct (Nat.eqb_spec l (S j)) as [->|].
      * destruct (Nat.eqb_spec j (S (S j))); [lia|]. rewrite Nat.eqb_refl. ring.
      * destruct (Nat.eqb_spec j (S l)) as [->|].
        -- destruct l as [|l']; [ring|]. destruct (Nat.eqb_spec (S (S l')) l'); [lia|ring].
        -- destruct l as [|l']; [ring|]. destruct (Nat.eqb_spec j l'); [lia|ring].
Qed.
Lemma tri_skip (a b : list K) i j : tri a (0 :: skipn 1 b) i j = tri a b i j.
Proof.
  unfold tri. destruct (i =? j)%nat; auto.
  destruct b as [|b0 b]; simpl.
  - destruct (j =? S i)%nat; [destruct j as [|[|]]; reflexivity|]. destruct (i =? S j)%nat; [destruct i as [|[|]]; reflexivity|reflexivity].
  - destruct (Nat.eqb_spec j (S i)) as [->|]; [reflexivity|]. destruct (Nat.eqb_spec i (S j)) as [->|]; reflexivity.
Qed.

Variable sq : K -> K.
Variable d : nat.
Variable mv : list K -> res (list K).
Hypothesis Hmv : symmetric_op d mv.

Definition unit_vec (i : nat) : list K := map (fun j => if (j =? i)%nat then 1 else 0) (seq 0 d).
Lemma nth_map_seq (f : nat -> K) n i : (i < n)%nat -> nthK i (map f (seq 0 n)) = f i.
Proof.
  intros H. rewrite (nth_indep _ _ (f 0%nat)) by (rewrite map_length, seq_length; lia).
  rewrite map_nth, seq_nth by lia. reflexivity.
Qed.
Lemma ip_unit i x : (i < d)%nat -> ip d x (unit_vec i) = nthK i x.
Proof.
  intros H. unfold ip. rewrite (nsum_single _ _ _ i); auto.
  - unfold unit_vec. rewrite nth_map_seq by auto. rewrite Nat.eqb_refl. ring.
  - intros j Hj Hn. unfold unit_vec. rewrite nth_map_seq by auto. destruct (Nat.eqb_spec j i); [lia|]. ring.
Qed.
Lemma mv_matrix : exists M : nat -> nat -> K, forall x y, length x = d -> mv x = Ok y ->
  forall i, (i < d)%nat -> nthK i y = nsum d (fun j => M i j * nthK j x).
Proof.
  exists (fun i j => match mv (unit_vec i) with Ok y => nthK j y | Err _ => 0 end).
  intros x y Lx E i Hi. assert (Lu : length (unit_vec i) = d) by (unfold unit_vec; now rewrite map_length, seq_length).
  destruct (proj1 Hmv (unit_vec i) Lu) as (u & Eu & Lu'). rewrite Eu.
  rewrite <- ip_unit by auto. rewrite (proj2 Hmv x (unit_vec i) y u Lx Lu E Eu). apply nsum_ext. intros. ring.
Qed.

Lemma kron_spec u l r m : length u = m -> length l = d -> length r = m -> (forall x, In x r -> length x = d) ->
  length (kron K u l r) = m /\ (forall x, In x (kron K u l r) -> length x = d) /\
  (forall i k, (i < m)%nat -> (k < d)%nat -> ent (kron K u l r) i k = ent r i k + nthK i u * nthK k l).
Proof.
  clear Hmv. intros Hu Hl Hr Hx. unfold kron. split; [|split].
  - rewrite map_length, combine_length. lia.
  - intros x Ix. apply in_map_iff in Ix. destruct Ix as ((c, x0) & <- & I). apply in_combine_r in I.
    rewrite map_length, combine_length. simpl. rewrite (Hx x0 I), Hl. lia.
  - intros i k Hi Hk. unfold ent.
    assert (E : nth i (map (fun ur : K * list K => map (fun p => snd p + fst ur * fst p) (combine l (snd ur))) (combine u r)) []
      = map (fun p => snd p + nthK i u * fst p) (combine l (nth i r []))).
    { apply nth_error_nth. rewrite nth_error_map.
      rewrite (nth_error_nth' (combine u r) (c0 K, [])) by (rewrite combine_length; lia).
      rewrite combine_nth by congruence. reflexivity. }
    rewrite E. assert (Lr : length (nth i r []) = d) by (apply Hx, nth_In; lia).
    apply nth_error_nth. rewrite nth_error_map.
    rewrite (nth_error_nth' (combine l (nth i r [])) (c0 K, c0 K)) by (rewrite combine_length; lia).
    rewrite combine_nth by congruence. reflexivity.
Qed.

Lemma pass2_spec m tr : forall v0 l0 vE lE, run (sl_step K sq mv) v0 l0 tr vE lE ->
  (forall t, In t tr -> length (tr_v t) = d) ->
  forall U r, length U = length tr -> (forall u, In u U -> length u = m) -> length r = m -> (forall x, In x r -> length x = d) ->
  exists r', sl_pass2 K sq mv U v0 l0 r = Ok r' /\ length r' = m /\ (forall x, In x r' -> length x = d) /\
  forall i k, (i < m)%nat -> (k < d)%nat -> ent r' i k = ent r i k + nsum (length tr) (fun j => ent U j i * ent (map tr_v tr) j k).
Proof.
  clear Hmv. induction tr as [|t tr IH]; intros v0 l0 vE lE R Ht U r LU HU Lr Hr.
  - destruct U; [|discriminate]. exists r. simpl. split; [auto|]. split; [auto|]. split; [auto|].
    intros. unfold nsum; simpl. ring.
  - destruct U as [|u U]; [discriminate|].
    destruct (run_cons_inv _ _ _ _ _ _ _ R) as (v1 & E & R1). cbn [sl_pass2]. rewrite E. cbn [bind].
    destruct (kron_spec u (tr_v t) r m) as (K1 & K2 & K3); auto; [apply HU; simpl; auto|apply Ht; simpl; auto|].
    destruct (IH _ _ _ _ R1 (fun t' I => Ht t' (or_intror I)) U (kron K u (tr_v t) r)) as (r' & E' & L' & X' & N'); auto.
    { intros u' I. apply HU; simpl; auto. }
    exists r'. split; [exact E'|]. split; [exact L'|]. split; [exact X'|]. intros i k Hi Hk. rewrite N' by auto. rewrite K3 by auto.
    cbn [length]. rewrite nsum_S_l.
    change (nsum (length tr) (fun j => ent (u :: U) (S j) i * ent (map tr_v (t :: tr)) (S j) k))
      with (nsum (length tr) (fun j => ent U j i * ent (map tr_v tr) j k)).
    change (ent (u :: U) 0 i) with (nthK i u). change (ent (map tr_v (t :: tr)) 0 k) with (nthK k (tr_v t)). ring.
Qed.

(** [mv] applied to a Lanczos vector. *)
Lemma mv_vec phi0 a b vs rv : lanczos d mv phi0 a b vs rv -> forall l, (l < length vs)%nat -> exists w, mv (nth l vs []) = Ok w /\
  forall i, (i < d)%nat -> nthK i w = nsum (length vs) (fun j => tri a b j l * ent vs j i) + if (S l =? length vs)%nat then nthK i rv else 0.
Proof.
  intros L l Hl. destruct (lo_recurrence _ _ _ _ _ _ _ _ L l Hl) as (w & Ew & _ & Nw). exists w. split; [exact Ew|].
  intros i Hi. rewrite (Nw i Hi), tri_sum by auto.
  destruct (Nat.ltb_spec (S l) (length vs)), (Nat.eqb_spec (S l) (length vs)); try lia; ring.
Qed.

(** Combining Lanczos vectors with the eigenvectors of the tridiagonal matrix. *)
Lemma ritz phi0 a b vs rv w U X : lanczos d mv phi0 a b vs rv -> (1 <= length vs)%nat -> tri_eigen a (skipn 1 b) w U ->
  length X = length w -> (forall x, In x X -> length x = d) ->
  (forall i k, (i < length w)%nat -> (k < d)%nat -> ent X i k = nsum (length vs) (fun j => ent U j i * ent vs j k)) ->
  forall i, (i < length w)%nat -> exists HX, mv (nth i X []) = Ok HX /\ length HX = d /\
    (forall k, (k < d)%nat -> nthK k HX = nthK i w * ent X i k + ent U (length vs - 1) i * nthK k rv) /\
    forall j, (j < length w)%nat -> ip d (nth j X []) (nth i X []) = (if (j =? i)%nat then 1 else 0) /\
      ip d (nth j X []) HX = if (j =? i)%nat then nthK i w else 0.
Proof.
  intros L L1 (TU & TR & TO & TE) LX XX NX i Hi.
  assert (LXi : length (nth i X []) = d) by (apply XX, nth_In; lia).
  destruct (proj1 Hmv _ LXi) as (HX & EH & LH). exists HX. split; [exact EH|]. split; [exact LH|].
  rewrite (lo_a _ _ _ _ _ _ _ _ L) in *.
  assert (N1 : forall k, (k < d)%nat -> nthK k HX = nthK i w * ent X i k + ent U (length vs - 1) i * nthK k rv).
  { intros k Hk. destruct mv_matrix as (M & HM). rewrite (HM _ _ LXi EH k Hk).
    rewrite (nsum_ext _ d _ (fun j => nsum (length vs) (fun l => ent U l i * (M k j * ent vs l j)))).
    2:{ intros j Hj. change (nthK j (nth i X [])) with (ent X i j). rewrite NX by auto. rewrite <- nsum_scal_l. apply nsum_ext. intros. ring. }
    rewrite nsum_swap.
    rewrite (nsum_ext _ (length vs) _ (fun l => nsum (length vs) (fun j => (tri a (0 :: skipn 1 b) j l * ent U l i) * ent vs j k) +
       (if (l =? length vs - 1)%nat then ent U (length vs - 1) i * nthK k rv else 0))).
    2:{ intros l Hl. rewrite nsum_scal_l. destruct (mv_vec _ _ _ _ _ L l Hl) as (W & EW & NW).
        change (nsum d (fun j => M k j * ent vs l j)) with (nsum d (fun j => M k j * nthK j (nth l vs []))).
        rewrite <- (HM _ _ (lo_vs _ _ _ _ _ _ _ _ L l Hl) EW k Hk).
        rewrite (NW k Hk). rewrite (nsum_ext _ (length vs) (fun j => tri a (0 :: skipn 1 b) j l * ent U l i * ent vs j k) (fun j => ent U l i * (tri a b j l * ent vs j k))) by (intros; rewrite tri_skip; ring).
        rewrite nsum_scal_l. destruct (Nat.eqb_spec (S l) (length vs)), (Nat.eqb_spec l (length vs - 1)); try lia.
        - subst l. ring. - ring. }
    rewrite nsum_add, nsum_if_eq. destruct (Nat.ltb_spec (length vs - 1) (length vs)); [|lia]. f_equal.
    rewrite nsum_swap. rewrite NX, <- nsum_scal_l by auto. apply nsum_ext. intros j Hj. rewrite nsum_scal_r, TE by auto. ring. }
  assert (N2 : forall i j, (i < length w)%nat -> (j < length w)%nat -> ip d (nth j X []) (nth i X []) = if (j =? i)%nat then 1 else 0).
  { clear i Hi LXi EH N1. intros i j Hi Hj. unfold ip.
    rewrite (nsum_ext _ d _ (fun k => nsum (length vs) (fun p => nsum (length vs) (fun q => (ent U p j * ent U q i) * (ent vs p k * ent vs q k))))).
    2:{ intros k Hk. fold (ent X j k) (ent X i k). rewrite !NX by auto. rewrite <- nsum_scal_r. apply nsum_ext. intros p Hp.
        rewrite <- nsum_scal_l. apply nsum_ext. intros. ring. }
    rewrite nsum_swap. rewrite <- (TO j i Hj Hi). apply nsum_ext. intros p Hp.
    rewrite nsum_swap. rewrite (nsum_single _ _ _ p); auto.
    - rewrite nsum_scal_l. pose proof (lo_orthonormal _ _ _ _ _ _ _ _ L p p Hp Hp) as O. rewrite Nat.eqb_refl in O.
      unfold ip in O. unfold ent at 3 4. rewrite O. ring.
    - intros q Hq Hn. rewrite nsum_scal_l. pose proof (lo_orthonormal _ _ _ _ _ _ _ _ L p q Hp Hq) as O.
      destruct (Nat.eqb_spec p q); [congruence|]. unfold ip in O. unfold ent at 3 4. rewrite O. ring. }
  split; [exact N1|]. intros j Hj. split; [now apply N2|].
  rewrite (ip_lin K d (nthK i w) (ent U (length vs - 1) i) 0 _ (nth i X []) rv []) by (intros k Hk; rewrite N1 by auto; unfold ent; ring).
  rewrite N2 by auto.
  assert (Hr : ip d (nth j X []) rv = 0).
  { unfold ip. rewrite (nsum_ext _ d _ (fun k => nsum (length vs) (fun p => ent U p j * (ent vs p k * nthK k rv)))).
    2:{ intros k Hk. fold (ent X j k). rewrite NX by auto. rewrite <- nsum_scal_r. apply nsum_ext. intros. ring. }
    rewrite nsum_swap. apply nsum_0. intros p Hp. rewrite nsum_scal_l.
    pose proof (proj2 (lo_residual _ _ _ _ _ _ _ _ L) p Hp) as O. unfold ip in O. unfold ent at 2. rewrite O. ring. }
  rewrite Hr. destruct (j =? i)%nat; ring.
Qed.
End Solve.

Section Second.
Variable K : CField.
Local Open Scope cr_scope.
Add Field Kfield4 : (fth K).
Notation nthK i x := (nth i x (c0 K)).

Lemma list_ext (x y : list K) : length x = length y -> (forall i, nthK i x = nthK i y) -> x = y.
Proof. intros H N. apply (nth_ext _ _ 0 0 H). auto. Qed.

Lemma const_map {A B} (x : list A) (y : list B) : length x = length y -> map (fun _ => c0 K) x = map (fun _ => c0 K) y.
Proof. revert y. induction x as [|a x IH]; intros [|b y] H; try discriminate; simpl; auto. f_equal. apply IH. now injection H. Qed.

(** Restarting from the contents that the first pass leaves in [phi0]. *)
Lemma run_restart sq d mv phi0 v0 tr vE lE : symmetric_op d mv -> length phi0 = d -> length v0 = d -> sq 1 = 1 -> ip d v0 v0 = 1 ->
  sq (ip d phi0 phi0) <> 0 -> (forall i, nthK i phi0 = sq (ip d phi0 phi0) * nthK i v0) ->
  run (sl_step K sq mv) phi0 (map (fun _ => 0) phi0) tr vE lE -> exists tr', run (sl_step K sq mv) v0 (map (fun _ => 0) v0) tr' (match tr with [] => v0 | _ => vE end) (match tr with [] => map (fun _ => 0) v0 | _ => lE end) /\
    map tr_v tr' = map tr_v tr.
Proof.
  intros Hm Lp Lv Hs N Hb Hv R. destruct tr as [|t tr]; [exists []; split; [constructor|reflexivity]|].
  destruct (run_cons_inv _ _ _ _ _ _ _ R) as (v1 & E & R1).
  destruct (step_spec K sq d mv Hm phi0 (map (fun _ => 0) phi0) Lp) as (a & v' & w & w' & E1 & L1 & L2 & N1 & Em & Lw & Ea & Nw); [now rewrite map_length|].
  destruct (step_spec K sq d mv Hm v0 (map (fun _ => 0) v0) Lv) as (a2 & v2 & w2 & w2' & E2 & L12 & L22 & N2 & Em2 & Lw2 & Ea2 & Nw2); [now rewrite map_length|].
  rewrite E1 in E. injection E as Ha Hbt Hl Hw.
  assert (V : v2 = v').
  { apply list_ext; [congruence|]. intros i. rewrite N2, N1, N, Hs, (Hv i). field. split; auto.
    intros C. apply (F_1_neq_0 (fth K)). exact C. }
  subst v2. rewrite Em in Em2. injection Em2 as <-. rewrite <- Ea in Ea2. subst a2.
  assert (W : w2' = w').
  { apply list_ext; [congruence|]. intros i. rewrite Nw, Nw2, !map_const_nth, Ea. ring. }
  exists ((a, sq (ip d v0 v0), v') :: tr). split.
  - eapply run_cons; [exact E2|]. rewrite W, Hw, Hl. exact R1.
  - simpl. f_equal. unfold tr_v; simpl. exact Hl.
Qed.

Theorem solve_ritz (E : Type) (sq : K -> K) d mv tiny (egs : list K -> list K -> res E) close phi0 v0 ga gb maxn ND s eigh w U :
  symmetric_op d mv -> (forall x, length x = d -> sq (ip d x x) * sq (ip d x x) = ip d x x) -> sq 1 = 1 ->
  tiny 0 = true -> length phi0 = d -> (0 < ND)%nat ->
  build_sl_tridiag (list K) K E (sl_step K sq mv) tiny egs close (map (fun _ => 0) phi0) phi0 ga gb maxn ND = Ok s ->
  v0 = phi0 \/ (length v0 = d /\ forall i, nthK i phi0 = nthK 0 (ret_b _ _ s) * nthK i v0) ->
  eigh (ret_a _ _ s) (skipn 1 (ret_b _ _ s)) = Ok (w, U) -> tri_eigen (ret_a _ _ s) (skipn 1 (ret_b _ _ s)) w U ->
  exists vs rv X, lanczos d mv phi0 (ret_a _ _ s) (ret_b _ _ s) vs rv /\
    sl_solve K sq eigh mv (ret_a _ _ s) (ret_b _ _ s) v0 = Ok (w, X) /\
    length X = length w /\ (forall x, In x X -> length x = d) /\
    forall i, (i < length w)%nat -> exists HX, mv (nth i X []) = Ok HX /\ length HX = d /\
      (forall k, (k < d)%nat -> nthK k HX = nthK i w * ent X i k + ent U (length vs - 1) i * nthK k rv) /\
      forall j, (j < length w)%nat -> ip d (nth j X []) (nth i X []) = (if (j =? i)%nat then 1 else 0) /\
        ip d (nth j X []) HX = if (j =? i)%nat then nthK i w else 0.
Proof.
  intros Hm Hs H1 Ht Hp HN H Hv0 Ee TE.
  destruct (build_spec _ _ _ _ _ _ _ _ _ _ _ _ _ _ HN H) as (tr & last & R & St & Ll & L1 & L2 & Ra & Rb & Nt & La).
  assert (Hb : forall t, In t tr -> tr_b t <> c0 K).
  { intros t It B. specialize (Nt t It). rewrite B in Nt. congruence. }
  assert (exists v l, run (sl_step K sq mv) phi0 (map (fun _ => c0 K) phi0) tr v l) as (v & l & R1).
  { destruct last as [|t [|]]; simpl in Ll; try lia.
    - rewrite app_nil_r in R. eauto.
    - destruct (run_snoc_inv _ _ _ _ _ _ _ R) as (v1 & l1 & R1 & _). eauto. }
  destruct (run_linv K sq d mv Hm Hs phi0 Hp tr v l R1 Hb) as (I & J & _).
  destruct J as [J1 J2]; [destruct tr; simpl in L1; [lia|discriminate]|].
  assert (L : lanczos d mv phi0 (map tr_a tr) (map tr_b tr) (map tr_v tr) v) by (eapply linv_lanczos; eauto).
  rewrite Ra, Rb in *.
  assert (exists tr' vE lE, run (sl_step K sq mv) v0 (map (fun _ => 0) v0) tr' vE lE /\ map tr_v tr' = map tr_v tr) as (tr' & vE & lE & R' & Ev).
  { destruct Hv0 as [->|[Lv Nv]]; [eauto|].
    assert (Hb0 : nthK 0 (map tr_b tr) = sq (ip d phi0 phi0)).
    { destruct tr as [|t tr]; [simpl in L1; lia|]. destruct (run_cons_inv _ _ _ _ _ _ _ R1) as (v1 & E1 & _).
      destruct (step_spec K sq d mv Hm phi0 (map (fun _ => 0) phi0) Hp) as (a & v' & w1 & w' & E2 & _); [now rewrite map_length|].
      rewrite E1 in E2. injection E2 as _ E2 _ _. simpl. exact E2. }
    assert (Nz : sq (ip d phi0 phi0) <> 0).
    { rewrite <- Hb0. apply (lo_nonzero _ _ _ _ _ _ _ _ L). rewrite map_length. lia. }
    rewrite Hb0 in Nv.
    assert (N1 : ip d v0 v0 = 1).
    { assert (Q : sq (ip d phi0 phi0) * sq (ip d phi0 phi0) * ip d v0 v0 = ip d phi0 phi0).
      { unfold ip at 3 4. rewrite <- nsum_scal_l. apply nsum_ext. intros i _. rewrite !Nv. ring. }
      rewrite (Hs phi0 Hp) in Q. assert (Z : ip d phi0 phi0 <> 0).
      { rewrite <- (Hs phi0 Hp). intros Z. apply Nz. 
        transitivity (cdiv K 1 (sq (ip d phi0 phi0)) * (sq (ip d phi0 phi0) * sq (ip d phi0 phi0))); [field; auto|rewrite Z; ring]. }
      transitivity (cdiv K 1 (ip d phi0 phi0) * (ip d phi0 phi0 * ip d v0 v0)); [field; auto|rewrite Q; field; auto]. }
    destruct (run_restart sq d mv phi0 v0 tr v l Hm Hp Lv H1 N1 Nz Nv R1) as (tr' & R' & Ev). eauto. }
  assert (Lv0 : length v0 = d) by (destruct Hv0 as [->|[]]; auto).
  assert (Lt : length tr' = length tr) by (rewrite <- (map_length tr_v tr'), Ev; apply map_length).
  destruct TE as (TU & TR & TO & TE). rewrite map_length in TU.
  destruct (pass2_spec K sq d mv (length w) tr' v0 _ vE lE R') with (U := U) (r := repeat (map (fun _ => c0 K) v0) (length w)) as (X & EX & LX & XX & NX).
  { intros t It. destruct (In_nth_error _ _ It) as [k Hk].
    assert (Hk' : nth_error (map tr_v tr') k = Some (tr_v t)) by (rewrite nth_error_map, Hk; reflexivity).
    rewrite Ev in Hk'. rewrite <- (nth_error_nth _ _ [] Hk'). apply (lo_vs _ _ _ _ _ _ _ _ L).
    rewrite map_length, <- Lt. apply nth_error_Some. congruence. }
  { congruence. } { exact TR. } { apply repeat_length. } { intros x Ix. apply repeat_spec in Ix. subst x. now rewrite map_length. }
  exists (map tr_v tr), v, X. split; [exact L|]. split.
  { unfold sl_solve. rewrite Ee. cbn [bind]. rewrite TU, map_length, Nat.leb_refl.
    replace (match U with [] => 0%nat | u :: _ => length u end) with (length w).
    2:{ destruct U as [|u U]; [simpl in TU; lia|]. symmetry. apply TR. simpl. auto. }
    rewrite <- TU, firstn_all, EX. reflexivity. }
  split; [exact LX|]. split; [exact XX|].
  intros i Hi. apply (ritz K d mv Hm phi0 (map tr_a tr) (map tr_b tr) (map tr_v tr) v w U X); auto.
  - rewrite map_length. lia.
  - repeat split; auto. now rewrite map_length.
  - intros i' k Hi' Hk. rewrite NX by auto. rewrite Ev, Lt, map_length.
    replace (ent (repeat (map (fun _ => c0 K) v0) (length w)) i' k) with (c0 K); [ring|].
    unfold ent. rewrite nth_repeat_lt || idtac.
    destruct (nth_in_or_default i' (repeat (map (fun _ => c0 K) v0) (length w)) []) as [Q|Q].
    + apply repeat_spec in Q. rewrite Q, map_const_nth. reflexivity.
    + rewrite Q. destruct k; reflexivity.
Qed.
End Second.
