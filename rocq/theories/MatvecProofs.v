(** Proofs about the sparse products, serial. *)
From Coq Require Import List Arith NArith ZArith Lia Bool Ring Permutation.
From Verif Require Import Base HoppingModel CsrSpec CsrProofs MatvecModel MatvecSpec.
Import ListNotations.

Lemma mapM_map {A B} (f : A -> res B) (g : A -> B) l : (forall a, In a l -> f a = Ok (g a)) ->
  mapM f l = Ok (map g l).
Proof.
  induction l as [|a l IH]; intros H; cbn [mapM map]; auto.
  rewrite H by now left. cbn [bind]. rewrite IH by (intros; apply H; now right). reflexivity.
Qed.

Section MV.
Variable K : CRing.
Local Open Scope cr_scope.
Add Ring Kring : (cth K).
Notation runs := (run_updates K (cadd K)).

Definition contrib (us : list (nat * K)) (c : nat) : K :=
  bsum (fun u => if (fst u =? c)%nat then snd u else 0) us.

Lemma contrib_app l l' c : contrib (l ++ l') c = contrib l c + contrib l' c.
Proof. apply bsum_app. Qed.
Lemma contrib_concat l c : contrib (concat l) c = bsum (fun us => contrib us c) l.
Proof. induction l; cbn [concat bsum]; [reflexivity|]. now rewrite contrib_app, IHl. Qed.

Lemma runs_spec us : forall y, (forall u, In u us -> (fst u < length y)%nat) ->
  exists y', runs us y = Ok y' /\ length y' = length y /\
    forall c, (c < length y)%nat -> nth c y' 0 = nth c y 0 + contrib us c.
Proof.
  induction us as [|u us IH]; intros y H.
  - exists y. split; [reflexivity|]. split; auto. intros. unfold contrib. cbn. ring.
  - unfold run_updates. cbn [foldM]. unfold run_update at 1.
    assert (Hu : (fst u < length y)%nat) by (apply H; now left).
    rewrite (nth_error_nth' y 0 Hu). cbn [bind].
    destruct (IH (upd_tot y (fst u) (nth (fst u) y 0 + snd u))) as [y' [E [L V]]].
    { intros v Hv. rewrite upd_tot_length. apply H. now right. }
    exists y'. split; [exact E|]. rewrite upd_tot_length in *. split; auto.
    intros c Hc. rewrite V by auto. rewrite nth_upd_tot by auto. unfold contrib at 2. cbn [bsum].
    fold (contrib us c). destruct (Nat.eqb_spec (fst u) c) as [->|]; ring.
Qed.

Lemma nsum_delta n i (f : nat -> K) : (i < n)%nat -> nsum n (fun j => if (i =? j)%nat then f j else 0) = f i.
Proof.
  intros H. rewrite (nsum_single K n _ i H).
  - now rewrite Nat.eqb_refl.
  - intros j _ Hj. destruct (Nat.eqb_spec i j); congruence.
Qed.

(** ** One row *)
Lemma wf_row m r : sp_wf K m -> (r < m_rows K m)%nat ->
  let lo := nth r (m_indptr K m) 0%nat in let hi := nth (S r) (m_indptr K m) 0%nat in
  rdo (m_indptr K m) r = Ok lo /\ rdo (m_indptr K m) (S r) = Ok hi /\
  (lo <= hi)%nat /\ (hi <= length (m_data K m))%nat.
Proof.
  intros [L [Z0 [Mono [E [_ _]]]]] Hr. cbv zeta. unfold rdo.
  rewrite !(nth_error_nth' (m_indptr K m) 0%nat) by lia. split; [reflexivity|]. split; [reflexivity|].
  split; [now apply Mono|].
  assert (G : forall k, (r + 1 + k <= m_rows K m)%nat ->
     (nth (S r) (m_indptr K m) 0 <= nth (r + 1 + k) (m_indptr K m) 0)%nat).
  { induction k; intros Hk; [now replace (r + 1 + 0)%nat with (S r) by lia|].
    etransitivity; [apply IHk; lia|]. replace (r + 1 + S k)%nat with (S (r + 1 + k)) by lia. apply Mono. lia. }
  rewrite <- E. specialize (G (m_rows K m - (r + 1))%nat ltac:(lia)).
  now replace (r + 1 + (m_rows K m - (r + 1)))%nat with (m_rows K m) in G by lia.
Qed.

Lemma wf_entry m p : sp_wf K m -> (p < length (m_data K m))%nat ->
  exists j, (j < m_cols K m)%nat /\ nth p (m_indices K m) (-1)%Z = Z.of_nat j /\
    rdo (m_indices K m) p = Ok (Z.of_nat j) /\ rdo (m_data K m) p = Ok (nth p (m_data K m) 0).
Proof.
  intros [_ [_ [_ [_ [L V]]]]] Hp.
  assert (Hin : In (nth p (m_indices K m) (-1)%Z) (m_indices K m)) by (apply nth_In; lia).
  destruct (V _ Hin) as [H1 H2]. exists (Z.to_nat (nth p (m_indices K m) (-1)%Z)).
  unfold rdo. rewrite (nth_error_nth' (m_indices K m) (-1)%Z) by lia.
  rewrite (nth_error_nth' (m_data K m) 0) by lia.
  rewrite Z2Nat.id by lia. split; [lia|]. auto.
Qed.

(** Sum over the stored entries of a row = sum over the columns. *)
Lemma row_sum m r (g : nat -> K) : sp_wf K m -> (r < m_rows K m)%nat ->
  bsum (fun p => nth p (m_data K m) 0 * g (Z.to_nat (nth p (m_indices K m) (-1)%Z)))
    (seq (nth r (m_indptr K m) 0%nat) (nth (S r) (m_indptr K m) 0 - nth r (m_indptr K m) 0)%nat) =
  nsum (m_cols K m) (fun c => sp_get K m r c * g c).
Proof.
  intros Hwf Hr. destruct (wf_row m r Hwf Hr) as [_ [_ [H1 H2]]]. cbv zeta in *.
  unfold sp_get. set (lo := nth r _ _) in *. set (hi := nth (S r) _ _) in *.
  unfold nsum. rewrite (bsum_ext K (fun c => _ * g c) (fun c => bsum (fun p =>
     (if Z.eqb (nth p (m_indices K m) (-1)%Z) (Z.of_nat c) then nth p (m_data K m) 0 else 0) * g c) (seq lo (hi - lo)))).
  2: { intros c _. now rewrite bsum_scal_r. }
  rewrite bsum_swap. apply bsum_ext. intros p Hp. apply in_seq in Hp.
  destruct (wf_entry m p Hwf ltac:(lia)) as [j [Hj [E _]]]. rewrite E, Nat2Z.id.
  rewrite (bsum_ext K _ (fun c => if (j =? c)%nat then nth p (m_data K m) 0 * g c else 0)).
  2: { intros c _. destruct (Nat.eqb_spec j c) as [->|Hne]; [now rewrite Z.eqb_refl|].
       destruct (Z.eqb_spec (Z.of_nat j) (Z.of_nat c)); [lia|ring]. }
  symmetry. now apply nsum_delta.
Qed.

Lemma row_updates_spec m W r t src (g : nat -> K) : sp_wf K m -> (r < m_rows K m)%nat ->
  (forall j, (j < m_cols K m)%nat -> rdz W (src (Z.of_nat j)) = Ok (g j)) ->
  exists us, row_updates K (cmul K) (raw_of K m) W r t src = Ok us /\
    (forall u, In u us -> fst u = t) /\
    bsum snd us = nsum (m_cols K m) (fun c => sp_get K m r c * g c).
Proof.
  intros Hwf Hr Hg. destruct (wf_row m r Hwf Hr) as [E1 [E2 [H1 H2]]]. cbv zeta in *.
  unfold row_updates, raw_of. cbn [r_indptr r_data r_indices]. rewrite E1, E2. cbn [bind].
  set (lo := nth r _ _) in *. set (hi := nth (S r) _ _) in *.
  rewrite (mapM_map _ (fun p => (t, nth p (m_data K m) 0 * g (Z.to_nat (nth p (m_indices K m) (-1)%Z))))).
  2: { intros p Hp. apply in_seq in Hp. destruct (wf_entry m p Hwf ltac:(lia)) as [j [Hj [E [R1 R2]]]].
       rewrite R1, R2. cbn [bind]. rewrite Hg by auto. cbn [bind]. now rewrite E, Nat2Z.id. }
  eexists. split; [reflexivity|]. split.
  - intros u Hu. apply in_map_iff in Hu. destruct Hu as [p [<- _]]. reflexivity.
  - rewrite bsum_map. cbn [snd]. apply row_sum; auto.
Qed.

Lemma contrib_same us t c : (forall u, In u us -> fst u = t) ->
  contrib us c = if (t =? c)%nat then bsum snd us else 0.
Proof.
  intros H. unfold contrib. destruct (Nat.eqb_spec t c) as [<-|Hne].
  - apply bsum_ext. intros u Hu. now rewrite (H u Hu), Nat.eqb_refl.
  - apply bsum_0. intros u Hu. rewrite (H u Hu). now apply Nat.eqb_neq in Hne as ->.
Qed.

Lemma mapM_exists {A B} (f : A -> res B) (P : A -> B -> Prop) l :
  (forall a, In a l -> exists b, f a = Ok b /\ P a b) ->
  exists bs, mapM f l = Ok bs /\ Forall2 P l bs.
Proof.
  induction l as [|a l IH]; intros H; cbn [mapM].
  - exists []. auto.
  - destruct (H a (or_introl eq_refl)) as [b [-> Pb]]. cbn [bind].
    destruct IH as [bs [-> F2]]; [intros; apply H; now right|]. cbn [bind]. exists (b :: bs). auto.
Qed.

Lemma bsum_Forall2 {A B} (P : A -> B -> Prop) (f : A -> K) (g : B -> K) l l' :
  Forall2 P l l' -> (forall a b, P a b -> f a = g b) -> bsum f l = bsum g l'.
Proof. induction 1; intros Hf; cbn [bsum]; auto. now rewrite (Hf _ _ H), IHForall2. Qed.

Lemma Forall2_In_r {A B} (P : A -> B -> Prop) l l' b : Forall2 P l l' -> In b l' -> exists a, In a l /\ P a b.
Proof.
  induction 1; intros Hb; [destruct Hb|]. destruct Hb as [<-|Hb].
  - exists x. split; auto. now left.
  - destruct (IHForall2 Hb) as [a [Ha Pa]]. exists a. split; auto. now right.
Qed.

Lemma rdz_nth W i : (i < length W)%nat -> rdz W (Z.of_nat i) = Ok (nth i W (c0 K)).
Proof.
  intros H. unfold rdz. replace (Z.of_nat i <? 0)%Z with false by (symmetry; apply Z.ltb_ge; lia).
  unfold rdo. rewrite Nat2Z.id. now rewrite (nth_error_nth' W 0).
Qed.

(** ** The three products *)
Lemma nl_threads_spec m W : sp_wf K m -> m_cols K m = length W ->
  exists ts, nl_threads K (cmul K) (raw_of K m) W = Ok ts /\
    Forall2 (fun i us => (forall u, In u us -> fst u = i) /\
       bsum snd us = nsum (length W) (fun b => sp_get K m i b * nth b W 0)) (seq 0 (m_rows K m)) ts.
Proof.
  intros Hwf Hc. unfold nl_threads. change (r_rows K (raw_of K m)) with (m_rows K m). apply mapM_exists. intros i Hi. apply in_seq in Hi.
  destruct (row_updates_spec m W i i (fun j => j) (fun j => nth j W 0) Hwf ltac:(lia)) as [us [E [T S]]].
  { intros j Hj. apply rdz_nth. lia. }
  exists us. rewrite Hc in S. auto.
Qed.

Lemma gaxpy_spec m W off : sp_wf K m -> m_rows K m = m_cols K m -> (off + m_rows K m <= length W)%nat ->
  exists us, csr_gaxpy K (cmul K) (raw_of K m) W off = Ok us /\
    (forall u, In u us -> (off <= fst u < off + m_rows K m)%nat) /\
    forall r, (r < m_rows K m)%nat ->
      contrib us (off + r) = nsum (m_rows K m) (fun b => sp_get K m r b * nth (off + b) W 0).
Proof.
  intros Hwf Hsq Hl. unfold csr_gaxpy. change (r_rows K (raw_of K m)) with (m_rows K m).
  destruct (mapM_exists (fun r => row_updates K (cmul K) (raw_of K m) W r (off + r) (fun j => Z.of_nat off + j)%Z)
    (fun r us => (forall u, In u us -> fst u = (off + r)%nat) /\
       bsum snd us = nsum (m_rows K m) (fun b => sp_get K m r b * nth (off + b) W 0)) (seq 0 (m_rows K m)))
    as [l [E F2]].
  { intros r Hr. apply in_seq in Hr.
    destruct (row_updates_spec m W r (off + r) (fun j => Z.of_nat off + j)%Z (fun j => nth (off + j) W 0) Hwf ltac:(lia))
      as [us [E [T S]]].
    { intros j Hj. rewrite <- Nat2Z.inj_add. apply rdz_nth. lia. }
    exists us. rewrite <- Hsq in S. auto. }
  rewrite E. cbn [bind]. eexists. split; [reflexivity|]. split.
  - intros u Hu. apply in_concat in Hu. destruct Hu as [us [Hus Hu]].
    destruct (Forall2_In_r _ _ _ _ F2 Hus) as [r [Hr [T _]]]. apply in_seq in Hr. rewrite (T _ Hu). lia.
  - intros r Hr. rewrite contrib_concat.
    rewrite <- (bsum_Forall2 _ (fun r' => if (r =? r')%nat then
         nsum (m_rows K m) (fun b => sp_get K m r' b * nth (off + b) W 0) else 0) _ _ _ F2).
    + now apply nsum_delta.
    + intros r' us [T S]. rewrite (contrib_same _ (off + r') _ T), S.
      destruct (Nat.eqb_spec r r'), (Nat.eqb_spec (off + r') (off + r)); auto; lia.
Qed.

Lemma up_threads_spec m W dwn : sp_wf K m -> m_rows K m = m_cols K m -> (0 < m_rows K m)%nat ->
  length W = (m_rows K m * dwn)%nat ->
  exists ts, up_threads K (cmul K) (raw_of K m) W = Ok ts /\
    Forall2 (fun i us => (forall u, In u us -> (i * m_rows K m <= fst u < i * m_rows K m + m_rows K m)%nat) /\
       forall r, (r < m_rows K m)%nat ->
      contrib us (i * m_rows K m + r) = nsum (m_rows K m) (fun b => sp_get K m r b * nth (i * m_rows K m + b) W 0))
      (seq 0 dwn) ts.
Proof.
  intros Hwf Hsq Hpos HW. unfold up_threads. change (r_rows K (raw_of K m)) with (m_rows K m).
  replace (m_rows K m =? 0)%nat with false by (symmetry; apply Nat.eqb_neq; lia).
  replace (length W / m_rows K m)%nat with dwn by (rewrite HW, Nat.mul_comm, Nat.div_mul; lia).
  apply mapM_exists. intros i Hi. apply in_seq in Hi.
  apply (gaxpy_spec m W (i * m_rows K m)); auto. rewrite HW. nia.
Qed.

Lemma saxpy_spec m W i n : sp_wf K m -> m_rows K m = m_cols K m -> (i < m_rows K m)%nat ->
  length W = (m_rows K m * n)%nat ->
  exists us, csr_saxpy K (cmul K) (raw_of K m) W i n = Ok us /\
    (forall u, In u us -> (i * n <= fst u < i * n + n)%nat) /\
    forall s, (s < n)%nat ->
      contrib us (i * n + s) = nsum (m_rows K m) (fun b => sp_get K m i b * nth (b * n + s) W 0).
Proof.
  intros Hwf Hsq Hi HW. destruct (wf_row m i Hwf Hi) as [E1 [E2 [H1 H2]]]. cbv zeta in *.
  unfold csr_saxpy, raw_of. cbn [r_indptr r_data r_indices]. rewrite E1, E2. cbn [bind].
  set (lo := nth i _ _) in *. set (hi := nth (S i) _ _) in *.
  rewrite (mapM_map _ (fun p => map (fun s => ((i * n + s)%nat, nth p (m_data K m) 0 *
      nth (Z.to_nat (nth p (m_indices K m) (-1)%Z) * n + s) W 0)) (seq 0 n))).
  2: { intros p Hp. apply in_seq in Hp. destruct (wf_entry m p Hwf ltac:(lia)) as [j [Hj [E [R1 R2]]]].
       apply mapM_map. intros s Hs. apply in_seq in Hs.
       rewrite R1, R2. cbn [bind]. rewrite <- Nat2Z.inj_mul, <- Nat2Z.inj_add, rdz_nth by nia.
       cbn [bind]. now rewrite E, Nat2Z.id. }
  cbn [bind]. eexists. split; [reflexivity|]. split.
  - intros u Hu. apply in_concat in Hu. destruct Hu as [us [Hus Hu]].
    apply in_map_iff in Hus. destruct Hus as [p [<- _]]. apply in_map_iff in Hu. destruct Hu as [s [<- Hs]].
    apply in_seq in Hs. cbn [fst]. lia.
  - intros s Hs. rewrite contrib_concat, bsum_map.
    rewrite (bsum_ext K _ (fun p => nth p (m_data K m) 0 *
      nth (Z.to_nat (nth p (m_indices K m) (-1)%Z) * n + s) W 0)).
    + etransitivity; [exact (row_sum m i (fun j => nth (j * n + s) W 0) Hwf Hi)|]. now rewrite <- Hsq.
    + intros p _. unfold contrib. rewrite bsum_map. cbn [fst snd].
      rewrite (bsum_ext K _ (fun s' => if (s =? s')%nat then nth p (m_data K m) 0 *
        nth (Z.to_nat (nth p (m_indices K m) (-1)%Z) * n + s') W 0 else 0)).
      * now apply nsum_delta.
      * intros s' _. destruct (Nat.eqb_spec s s'), (Nat.eqb_spec (i * n + s') (i * n + s)); auto; lia.
Qed.

Lemma dw_threads_spec m W dup : sp_wf K m -> m_rows K m = m_cols K m -> (0 < m_rows K m)%nat ->
  length W = (m_rows K m * dup)%nat ->
  exists ts, dw_threads K (cmul K) (raw_of K m) W = Ok ts /\
    Forall2 (fun i us => (forall u, In u us -> (i * dup <= fst u < i * dup + dup)%nat) /\
       forall s, (s < dup)%nat ->
      contrib us (i * dup + s) = nsum (m_rows K m) (fun b => sp_get K m i b * nth (b * dup + s) W 0))
      (seq 0 (m_rows K m)) ts.
Proof.
  intros Hwf Hsq Hpos HW. unfold dw_threads. change (r_rows K (raw_of K m)) with (m_rows K m).
  replace (m_rows K m =? 0)%nat with false by (symmetry; apply Nat.eqb_neq; lia).
  replace (length W / m_rows K m)%nat with dup by (rewrite HW, Nat.mul_comm, Nat.div_mul; lia).
  apply mapM_exists. intros i Hi. apply in_seq in Hi.
  apply (saxpy_spec m W i dup); auto. lia.
Qed.

(** Blocks of equal size: only the block of the cell contributes. *)
Lemma block_sum (ts : list (list (nat * K))) nb b i r (f : nat -> nat -> K) : (i < nb)%nat -> (r < b)%nat ->
  Forall2 (fun i us => (forall u, In u us -> (i * b <= fst u < i * b + b)%nat) /\
     forall r, (r < b)%nat -> contrib us (i * b + r) = f i r) (seq 0 nb) ts ->
  contrib (concat ts) (i * b + r) = f i r.
Proof.
  intros Hi Hr F2. rewrite contrib_concat.
  rewrite <- (bsum_Forall2 _ (fun i' => if (i =? i')%nat then f i' r else 0) _ _ _ F2).
  - now apply (nsum_delta nb i (fun i => f i r)).
  - intros i' us [T S]. destruct (Nat.eqb_spec i i') as [<-|Hne]; [now rewrite S|].
    unfold contrib. symmetry. apply bsum_0. intros u Hu. specialize (T u Hu).
    destruct (Nat.eqb_spec (fst u) (i * b + r)); [|auto]. exfalso. nia.
Qed.

(** ** Operators *)
Definition mv (D : dense K) (w : list K) (a : nat) : K :=
  nsum (d_cols K D) (fun b => d_at K D a b * nth b w 0).

Lemma nsum_mul' n m (f : nat -> K) :
  nsum (n * m) f = nsum n (fun i => nsum m (fun c => f (i * m + c)%nat)).
Proof.
  rewrite nsum_mul. apply nsum_ext. intros i _. apply nsum_ext. intros c _. f_equal. lia.
Qed.

Lemma div_block i m c : (c < m)%nat -> ((i * m + c) / m = i)%nat /\ ((i * m + c) mod m = c)%nat.
Proof.
  intros H. rewrite (Nat.add_comm (i * m)). split.
  - rewrite Nat.div_add, Nat.div_small by lia. lia.
  - rewrite Nat.mod_add, Nat.mod_small by lia. reflexivity.
Qed.

Lemma op_spec d o w y : op_fits K d o -> length w = d -> length y = d ->
  exists D y', op_dense K o = Some D /\ d_rows K D = d /\ d_cols K D = d /\
    op_matvec K o w y = Ok y' /\ length y' = d /\
    forall a, (a < d)%nat -> nth a y' 0 = nth a y 0 + mv D w a.
Proof.
  intros Ho Hw Hy. destruct o as [v|m k|m k|m]; cbn [op_fits] in Ho; [destruct Ho| | |].
  - destruct Ho as [Hwf [Hsq [Hp Hd]]].
    destruct (up_threads_spec m w k Hwf Hsq Hp ltac:(lia)) as [ts [E F2]].
    destruct (runs_spec (concat ts) y) as [y' [R [L V]]].
    { intros u Hu. apply in_concat in Hu. destruct Hu as [us [Hus Hu]].
      destruct (Forall2_In_r _ _ _ _ F2 Hus) as [i [Hi [T _]]]. apply in_seq in Hi. specialize (T _ Hu). nia. }
    eexists. exists y'. split; [reflexivity|]. cbn [kron eye csr_dense d_rows d_cols].
    split; [lia|]. split; [rewrite <- Hsq; lia|]. split.
    { cbn [op_matvec]. unfold UPmultiply. rewrite E. exact R. }
    split; [lia|]. intros a Ha. rewrite V by lia. f_equal.
    set (u := m_rows K m) in *.
    assert (Ea : a = (a / u * u + a mod u)%nat) by (rewrite (Nat.div_mod a u) at 1; lia).
    assert (Hm : (a mod u < u)%nat) by (apply Nat.mod_upper_bound; lia).
    assert (Hq : (a / u < k)%nat) by (apply Nat.div_lt_upper_bound; lia).
    rewrite Ea at 1.
    etransitivity; [exact (block_sum ts k u (a / u) (a mod u) (fun i r => nsum u (fun b => sp_get K m r b * nth (i * u + b) w 0)) Hq Hm F2)|].
    unfold mv. cbn [kron eye csr_dense d_rows d_cols d_at]. rewrite <- Hsq. fold u. rewrite nsum_mul'.
    rewrite (nsum_ext K k _ (fun i => if (a / u =? i)%nat then
         nsum u (fun c => sp_get K m (a mod u) c * nth (i * u + c) w 0) else 0)).
    2: { intros i Hi. destruct (Nat.eqb_spec (a / u) i) as [Ei|Hne].
         - apply nsum_ext. intros c Hc. destruct (div_block i u c Hc) as [-> ->].
           rewrite Ei, Nat.eqb_refl. unfold sp_get. ring.
         - apply nsum_0. intros c Hc. destruct (div_block i u c Hc) as [-> _].
           apply Nat.eqb_neq in Hne. rewrite Hne. ring. }
    symmetry. now apply nsum_delta.
  - destruct Ho as [Hwf [Hsq [Hp Hd]]].
    destruct (dw_threads_spec m w k Hwf Hsq Hp ltac:(lia)) as [ts [E F2]].
    destruct (runs_spec (concat ts) y) as [y' [R [L V]]].
    { intros u Hu. apply in_concat in Hu. destruct Hu as [us [Hus Hu]].
      destruct (Forall2_In_r _ _ _ _ F2 Hus) as [i [Hi [T _]]]. apply in_seq in Hi. specialize (T _ Hu). nia. }
    eexists. exists y'. split; [reflexivity|]. cbn [kron eye csr_dense d_rows d_cols].
    split; [lia|]. split; [rewrite <- Hsq; lia|]. split.
    { cbn [op_matvec]. unfold DWmultiply. rewrite E. exact R. }
    split; [lia|]. intros a Ha. rewrite V by lia. f_equal.
    set (u := m_rows K m) in *.
    assert (Hk : (0 < k)%nat) by (destruct k; lia).
    assert (Ea : a = (a / k * k + a mod k)%nat) by (rewrite (Nat.div_mod a k) at 1; lia).
    assert (Hm : (a mod k < k)%nat) by (apply Nat.mod_upper_bound; lia).
    assert (Hq : (a / k < u)%nat) by (apply Nat.div_lt_upper_bound; lia).
    rewrite Ea at 1.
    etransitivity; [exact (block_sum ts u k (a / k) (a mod k) (fun i s => nsum u (fun b => sp_get K m i b * nth (b * k + s) w 0)) Hq Hm F2)|].
    unfold mv. cbn [kron eye csr_dense d_rows d_cols d_at]. rewrite <- Hsq. fold u. rewrite nsum_mul'.
    apply nsum_ext. intros i Hi.
    rewrite (nsum_ext K k _ (fun c => if (a mod k =? c)%nat then sp_get K m (a / k) i * nth (i * k + c) w 0 else 0)).
    2: { intros c Hc. destruct (div_block i k c Hc) as [-> ->]. unfold sp_get.
         destruct (a mod k =? c)%nat; ring. }
    symmetry. now apply nsum_delta.
  - destruct Ho as [Hwf [Hr Hc]].
    destruct (nl_threads_spec m w Hwf ltac:(lia)) as [ts [E F2]].
    destruct (runs_spec (concat ts) y) as [y' [R [L V]]].
    { intros u Hu. apply in_concat in Hu. destruct Hu as [us [Hus Hu]].
      destruct (Forall2_In_r _ _ _ _ F2 Hus) as [i [Hi [T _]]]. apply in_seq in Hi. rewrite (T _ Hu). lia. }
    eexists. exists y'. split; [reflexivity|]. cbn [csr_dense d_rows d_cols].
    split; [auto|]. split; [auto|]. split.
    { cbn [op_matvec]. unfold Multiply. rewrite E. exact R. }
    split; [lia|]. intros a Ha. rewrite V by lia. f_equal. rewrite contrib_concat.
    rewrite <- (bsum_Forall2 _ (fun i => if (a =? i)%nat then
         nsum (length w) (fun b => sp_get K m i b * nth b w 0) else 0) _ _ _ F2).
    + etransitivity; [apply (nsum_delta (m_rows K m) a (fun i => nsum (length w) (fun b => sp_get K m i b * nth b w 0))); lia|]. unfold mv. cbn [csr_dense d_cols d_at]. rewrite Hc, Hw. reflexivity.
    + intros i us [T S]. rewrite (contrib_same _ i _ T), S.
      destruct (Nat.eqb_spec a i), (Nat.eqb_spec i a); auto; congruence.
Qed.


(** ** The whole operator list *)
Definition dsum (Ds : list (dense K)) (a b : nat) : K := bsum (fun D => d_at K D a b) Ds.

Lemma split_rest d rest : Forall (op_fits K d) rest ->
  exists Ds, split_ops K rest = ([], Ds) /\ length Ds = length rest /\
    (forall a b, dsum Ds a b = bsum (fun o => odense K o a b) rest) /\
    Forall (fun D => d_rows K D = d /\ d_cols K D = d) Ds /\
    forall w, length w = d -> forall y, length y = d ->
    exists y', foldM (fun out o => op_matvec K o w out) rest y = Ok y' /\ length y' = d /\
      forall a, (a < d)%nat -> nth a y' 0 = nth a y 0 + nsum d (fun b => dsum Ds a b * nth b w 0).
Proof.
  induction 1 as [|o rest Ho Hr IH].
  - exists []. split; [reflexivity|]. split; [reflexivity|]. split; [reflexivity|]. split; [constructor|].
    intros w Hw y Hy. exists y. split; [reflexivity|]. split; [auto|]. intros a Ha.
    rewrite nsum_0; [ring|]. intros. unfold dsum. cbn. ring.
  - destruct IH as [Ds [E [L [DS [F R]]]]].
    assert (Hs : exists D, op_dense K o = Some D /\ d_rows K D = d /\ d_cols K D = d).
    { destruct o; cbn [op_fits op_dense] in *; [destruct Ho| | |]; eexists; (split; [reflexivity|]);
        cbn [kron eye csr_dense d_rows d_cols]; split; lia. }
    destruct Hs as [D [ED [HR HC]]]. exists (D :: Ds). cbn [split_ops]. rewrite E.
    assert (Eo : match o with OpLocal _ v => (v :: [], Ds) | _ =>
        match op_dense K o with Some m => ([], m :: Ds) | None => ([], Ds) end end = ([], D :: Ds)).
    { destruct o; [destruct Ho| | |]; now rewrite ED. }
    split; [exact Eo|]. split; [cbn; now rewrite L|].
    split; [intros a b; unfold dsum; cbn [bsum]; unfold odense at 1; rewrite ED; f_equal; apply DS|]. split; [now constructor|].
    intros w Hw y Hy. destruct (op_spec d o w y Ho Hw Hy) as [D' [y1 [ED' [_ [_ [E1 [L1 V1]]]]]]].
    rewrite ED in ED'. injection ED' as <-. cbn [foldM]. rewrite E1. cbn [bind].
    destruct (R w Hw y1 L1) as [y' [E2 [L2 V2]]]. exists y'. split; [exact E2|]. split; [auto|].
    intros a Ha. rewrite V2, V1 by auto. unfold mv. rewrite HC.
    rewrite (nsum_ext K d (fun b => dsum (D :: Ds) a b * _)
       (fun b => d_at K D a b * nth b w 0 + dsum Ds a b * nth b w 0)).
    2: { intros b _. unfold dsum. cbn [bsum]. ring. }
    rewrite nsum_add. ring.
Qed.

Lemma dense_fold d Ds : forall D0, d_rows K D0 = d -> d_cols K D0 = d ->
  Forall (fun D => d_rows K D = d /\ d_cols K D = d) Ds ->
  exists D, foldM (dense_add K) Ds D0 = Ok D /\ d_rows K D = d /\ d_cols K D = d /\
    forall a b, d_at K D a b = d_at K D0 a b + dsum Ds a b.
Proof.
  induction Ds as [|D1 Ds IH]; intros D0 H1 H2 F.
  - exists D0. split; [reflexivity|]. split; [auto|]. split; [auto|]. intros. unfold dsum. cbn. ring.
  - inversion F as [|? ? [Ha Hb] F']; subst. cbn [foldM]. unfold dense_add at 1.
    rewrite Ha, Hb, !H2, !Nat.eqb_refl. cbn [andb bind].
    edestruct IH as [D [E [R1 [R2 V]]]]; [| |exact F'|exists D; split; [exact E|]; split; [exact R1|]; split; [exact R2|]].
    + reflexivity.
    + reflexivity.
    + intros a b. rewrite V. cbn [d_at]. unfold dsum. cbn [bsum]. ring.
Qed.

(** matvec_product.py:29-42 against 75-95. *)
Lemma matvec_is_todense truthy d v rest empty w : length v = d -> rest <> [] -> Forall (op_fits K d) rest ->
  length w = d -> length empty = d ->
  exists D y, todense K (OpLocal K v :: rest) = Ok D /\ d_rows K D = d /\ d_cols K D = d /\
    (forall a b, d_at K D a b = bsum (fun o => odense K o a b) rest + (if (a =? b)%nat then nth a v 0 else 0)) /\
    matvec K truthy (OpLocal K v :: rest) empty w None = Ok y /\ length y = d /\
    forall a, (a < d)%nat -> nth a y 0 = nsum d (fun b => d_at K D a b * nth b w 0).
Proof.
  intros Hv Hne F Hw He. destruct (split_rest d rest F) as [Ds [ES [L [DS [FD R]]]]].
  assert (HD : exists D, todense K (OpLocal K v :: rest) = Ok D /\ d_rows K D = d /\ d_cols K D = d /\
     forall a b, d_at K D a b = dsum Ds a b + (if (a =? b)%nat then nth a v 0 else 0)).
  { unfold todense. cbn [split_ops]. rewrite ES.
    assert (Hp : Permutation Ds (rev Ds)) by apply Permutation_rev.
    assert (FR : Forall (fun D => d_rows K D = d /\ d_cols K D = d) (rev Ds)).
    { apply Forall_forall. intros x Hx. rewrite Forall_forall in FD. apply FD. now apply in_rev. }
    destruct (rev Ds) as [|D0 Dr] eqn:ER.
    { apply Permutation_length in Hp. rewrite L in Hp. destruct rest; cbn in Hp; [easy|lia]. }
    inversion FR as [|? ? [Q1 Q2] Q3]; subst x l.
    destruct (dense_fold d (rev Dr) D0 Q1 Q2) as [D [E [R1 [R2 V]]]].
    { apply Forall_forall. intros x Hx. rewrite Forall_forall in Q3. apply Q3. now apply in_rev. }
    rewrite E. cbn [bind foldM]. unfold diag_add. rewrite R1, R2, Hv, !Nat.eqb_refl. cbn [andb bind].
    eexists. split; [reflexivity|]. cbn [d_rows d_cols d_at]. split; [auto|]. split; [auto|].
    intros a b. rewrite V.
    replace (dsum Ds a b) with (d_at K D0 a b + dsum (rev Dr) a b).
    - destruct (a =? b)%nat; ring.
    - unfold dsum. rewrite (bsum_perm K _ Ds (D0 :: Dr) Hp). cbn [bsum]. f_equal.
      apply bsum_perm. symmetry. apply Permutation_rev. }
  destruct HD as [D [E [R1 [R2 V]]]].
  unfold matvec. cbn [bind foldM]. cbn [op_matvec]. rewrite Hv, Hw, He, !Nat.eqb_refl. cbn [andb bind].
  set (y0 := map _ _).
  assert (L0 : length y0 = d) by (unfold y0; rewrite map_length, combine_length; lia).
  destruct (R w Hw y0 L0) as [y [Ey [Ly Vy]]]. exists D, y.
  split; [exact E|]. split; [exact R1|]. split; [exact R2|].
  split; [intros a b; now rewrite V, DS|]. split; [exact Ey|]. split; [exact Ly|].
  intros a Ha. rewrite Vy by auto.
  rewrite (nsum_ext K d (fun b => d_at K D a b * _) (fun b => (if (a =? b)%nat then nth a v 0 * nth b w 0 else 0) +
       dsum Ds a b * nth b w 0)).
  2: { intros b _. rewrite V. destruct (a =? b)%nat; ring. }
  rewrite nsum_add, nsum_delta by auto. f_equal. unfold y0.
  rewrite (nth_indep _ 0 (0 * 0)) by (rewrite map_length, combine_length; lia).
  change (0 * 0) with ((fun xy : K * K => fst xy * snd xy) (0, 0)).
  rewrite map_nth, combine_nth by lia. reflexivity.
Qed.

(** The empty-buffer contents never matter. *)
Lemma matvec_empty truthy v rest e1 e2 w : length e1 = length e2 ->
  matvec K truthy (OpLocal K v :: rest) e1 w None = matvec K truthy (OpLocal K v :: rest) e2 w None.
Proof.
  intros H. unfold matvec. cbn [bind foldM op_matvec]. now rewrite H.
Qed.

Lemma matvec_res_raises truthy ops empty w x1 x2 r :
  matvec K truthy ops empty w (Some (x1 :: x2 :: r)) = Err ValueError.
Proof. reflexivity. Qed.

Lemma todense_local_only v : todense K [OpLocal K v] = Err IndexError.
Proof. reflexivity. Qed.

End MV.
