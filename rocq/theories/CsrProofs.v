(** Filling CSR buffers row by row: the invariant shared by the hopping and
    non-local builders, and the dense entries of the finished matrix. *)
From Coq Require Import List Arith NArith ZArith Lia Bool.
From Verif Require Import Base HoppingModel CsrSpec.
Import ListNotations.

(** ** Generic list facts *)

Lemma nth_map_seq {A} (f : nat -> A) n m d : m < n -> nth m (map f (seq 0 n)) d = f m.
Proof.
  intros H. rewrite (nth_indep _ d (f 0)) by (now rewrite map_length, seq_length).
  rewrite map_nth, seq_nth by auto. reflexivity.
Qed.

Lemma foldM_app {A B} (f : B -> A -> res B) l l' b :
  foldM f (l ++ l') b = do b' <- foldM f l b; foldM f l' b'.
Proof. revert b; induction l; simpl; auto. intros b. destruct (f b a); simpl; auto. Qed.

Lemma foldM_ext {A B} (f g : B -> A -> res B) l b :
  (forall b a, In a l -> f b a = g b a) -> foldM f l b = foldM g l b.
Proof.
  revert b; induction l; simpl; auto. intros b H. rewrite H by auto.
  destruct (g b a); simpl; auto.
Qed.

Lemma foldM_seq {A B} (f : B -> nat -> res B) (g : B -> A -> res B) row : forall lo st,
  (forall k e st, nth_error row k = Some e -> f st (lo + k) = g st e) ->
  foldM f (seq lo (length row)) st = foldM g row st.
Proof.
  induction row as [|e row IH]; intros lo st H; simpl; auto.
  rewrite <- (H 0 e) by reflexivity. rewrite Nat.add_0_r.
  destruct (f st lo); simpl; auto. apply IH. intros k e' st' Hk.
  rewrite <- (H (S k) e') by exact Hk. f_equal. lia.
Qed.

Lemma upd_app_r {A} (l : list A) x y l' : upd (l ++ x :: l') (length l) y = Some (l ++ y :: l').
Proof. induction l; simpl; auto. now rewrite IHl. Qed.

Lemma repeat_S_sub {A} (x : A) n k : k < n -> repeat x (n - k) = x :: repeat x (n - S k).
Proof. intros H. replace (n - k) with (S (n - S k)) by lia. reflexivity. Qed.

Fixpoint psums {A} (acc : nat) (rows : list (list A)) : list nat :=
  match rows with
  | [] => [acc]
  | r :: rows => acc :: psums (acc + length r) rows
  end.

Lemma psums_length {A} (rows : list (list A)) acc : length (psums acc rows) = S (length rows).
Proof. revert acc; induction rows; simpl; auto. Qed.

Lemma psums_app {A} (rows : list (list A)) : forall acc r,
  psums acc (rows ++ [r]) = psums acc rows ++ [acc + length (concat rows) + length r].
Proof.
  induction rows; intros acc r; simpl.
  - do 2 f_equal. lia.
  - rewrite IHrows, app_length. do 2 f_equal. f_equal. lia.
Qed.

Lemma psums_nth {A} (rows : list (list A)) : forall acc k d, k <= length rows ->
  nth k (psums acc rows) d = acc + length (concat (firstn k rows)).
Proof.
  induction rows; intros acc k d Hk; destruct k; simpl in *; try lia.
  rewrite IHrows by lia. rewrite app_length. lia.
Qed.

Lemma concat_nth_error {A} (rows : list (list A)) : forall i row k e,
  nth_error rows i = Some row -> nth_error row k = Some e ->
  nth_error (concat rows) (length (concat (firstn i rows)) + k) = Some e.
Proof.
  induction rows; intros i row k e Hi Hk; destruct i; simpl in *; try discriminate.
  - inversion Hi; subst. rewrite nth_error_app1; auto. apply nth_error_Some. congruence.
  - rewrite app_length, nth_error_app2 by lia.
    replace (length a + length (concat (firstn i rows)) + k - length a)
      with (length (concat (firstn i rows)) + k) by lia.
    eauto.
Qed.

Lemma firstn_S_nth_error {A} (l : list A) i x : nth_error l i = Some x ->
  firstn (S i) l = firstn i l ++ [x].
Proof.
  revert i; induction l; intros [|i] H; simpl in *; try discriminate.
  - now inversion H.
  - f_equal. now apply IHl.
Qed.

Lemma length_flat_map {A B} (f : A -> list B) l : length (flat_map f l) = list_sum (map (fun a => length (f a)) l).
Proof. induction l; simpl; auto. now rewrite app_length, IHl. Qed.

Lemma list_sum_app l l' : list_sum (l ++ l') = list_sum l + list_sum l'.
Proof. induction l; simpl; auto. rewrite IHl. lia. Qed.

Lemma list_sum_swap {A B} (f : A -> B -> nat) la lb :
  list_sum (map (fun a => list_sum (map (f a) lb)) la) =
  list_sum (map (fun b => list_sum (map (fun a => f a b) la)) lb).
Proof.
  induction la; simpl.
  - induction lb; simpl; auto.
  - rewrite IHla. clear IHla. induction lb; simpl; auto. rewrite <- IHlb. lia.
Qed.

Lemma list_sum_ext {A} (f g : A -> nat) l : (forall a, In a l -> f a = g a) ->
  list_sum (map f l) = list_sum (map g l).
Proof. intros H. f_equal. now apply map_ext_in. Qed.

Lemma list_sum_scal {A} (f : A -> nat) c l : list_sum (map (fun a => c * f a) l) = c * list_sum (map f l).
Proof. induction l; simpl; lia. Qed.
Lemma list_sum_scal_r {A} (f : A -> nat) c l : list_sum (map (fun a => f a * c) l) = list_sum (map f l) * c.
Proof. induction l; simpl; lia. Qed.
Lemma list_sum_const {A} c (l : list A) : list_sum (map (fun _ => c) l) = length l * c.
Proof. induction l; simpl; lia. Qed.
Lemma list_sum_add {A} (f g : A -> nat) l :
  list_sum (map (fun a => f a + g a) l) = list_sum (map f l) + list_sum (map g l).
Proof. induction l; simpl; lia. Qed.

Definition b2n (b : bool) : nat := if b then 1 else 0.
Lemma length_filter_sum {A} (p : A -> bool) l : length (filter p l) = list_sum (map (fun a => b2n (p a)) l).
Proof. induction l; simpl; auto. destruct (p a); simpl; now rewrite IHl. Qed.

Lemma filter_map_length {A B} (g : A -> B) (p : B -> bool) l :
  length (filter p (map g l)) = length (filter (fun a => p (g a)) l).
Proof. induction l; simpl; auto. destruct (p (g a)); simpl; now rewrite IHl. Qed.

Lemma flat_map_if {A B} (p : A -> bool) (g : A -> B) l :
  flat_map (fun a => if p a then [g a] else []) l = map g (filter p l).
Proof. induction l; simpl; auto. destruct (p a); simpl; now rewrite IHl. Qed.

Section Fill.
Variable K : CRing.
Variable big : K -> bool.
Local Open Scope cr_scope.
Notation entry := (prod Z K).
Variables (nnz r cc : nat).

(** Buffers after finishing [rows] and appending [cur] to the next row. *)
Definition mk (rows : list (list entry)) (cur : list entry) : csr K :=
  mkcsr K
    (map (fun e => Some (snd e)) (concat rows ++ cur)
       ++ repeat None (nnz - length (concat rows ++ cur)))
    (map Some (psums 0 rows) ++ repeat None (r - length rows))
    (map (fun e => Some (fst e)) (concat rows ++ cur)
       ++ repeat None (nnz - length (concat rows ++ cur)))
    r cc.

Lemma mk_empty : empty_csrmat K nnz r cc = mk [] [].
Proof. unfold empty_csrmat, mk. cbn. now rewrite !Nat.sub_0_r. Qed.

Lemma wr_append {A} (es : list A) m x L : L = length es -> (L < m)%nat ->
  wr (map Some es ++ repeat None (m - L)) L x =
  Ok (map Some (es ++ [x]) ++ repeat None (m - S L)).
Proof.
  intros -> H. rewrite repeat_S_sub by auto. unfold wr.
  rewrite <- (map_length Some es) at 2. rewrite upd_app_r.
  rewrite map_app, <- app_assoc. reflexivity.
Qed.

Lemma mk_snoc rows cur e :
  mk rows (cur ++ [e]) =
  mkcsr K
    (map Some (map snd (concat rows ++ cur) ++ [snd e])
       ++ repeat None (nnz - S (length (concat rows ++ cur))))
    (indptr K (mk rows cur))
    (map Some (map fst (concat rows ++ cur) ++ [fst e])
       ++ repeat None (nnz - S (length (concat rows ++ cur))))
    r cc.
Proof.
  unfold mk. cbn [indptr]. rewrite app_assoc, app_length, !map_app, !map_map. cbn [length map].
  now rewrite Nat.add_1_r.
Qed.

Lemma mk_step_data rows cur e : (length (concat rows ++ cur) < nnz)%nat ->
  (do m <- set_data K (mk rows cur) (length (concat rows ++ cur)) (snd e);
   do m <- set_indices K m (length (concat rows ++ cur)) (fst e);
   Ok (S (length (concat rows ++ cur)), m)) =
  Ok (length (concat rows ++ (cur ++ [e])), mk rows (cur ++ [e])).
Proof.
  intros H. rewrite mk_snoc. rewrite (app_assoc (concat rows)), (app_length _ [e]), Nat.add_1_r.
  unfold set_data, set_indices, mk. cbn [data indptr indices nrows ncols].
  rewrite <- (map_map fst Some), <- (map_map snd Some).
  rewrite wr_append by (rewrite ?map_length; auto). cbn [bind data indptr indices nrows ncols].
  rewrite wr_append by (rewrite ?map_length; auto). reflexivity.
Qed.

Lemma mk_step_indices rows cur e : (length (concat rows ++ cur) < nnz)%nat ->
  (do m <- set_indices K (mk rows cur) (length (concat rows ++ cur)) (fst e);
   do m <- set_data K m (length (concat rows ++ cur)) (snd e);
   Ok (S (length (concat rows ++ cur)), m)) =
  Ok (length (concat rows ++ (cur ++ [e])), mk rows (cur ++ [e])).
Proof.
  intros H. rewrite mk_snoc. rewrite (app_assoc (concat rows)), (app_length _ [e]), Nat.add_1_r.
  unfold set_data, set_indices, mk. cbn [data indptr indices nrows ncols].
  rewrite <- (map_map fst Some), <- (map_map snd Some).
  rewrite wr_append by (rewrite ?map_length; auto). cbn [bind data indptr indices nrows ncols].
  rewrite wr_append by (rewrite ?map_length; auto). reflexivity.
Qed.

Lemma mk_close rows cur : (length rows < r)%nat ->
  (do p <- rd (indptr K (mk rows cur)) (length rows);
   set_indptr K (mk rows cur) (length rows + 1)
     (p + (length (concat rows ++ cur) - length (concat rows)))) =
  Ok (mk (rows ++ [cur]) []).
Proof.
  intros H. unfold mk at 1; cbn [indptr]. unfold rd.
  rewrite nth_error_app1 by (rewrite map_length, psums_length; lia).
  rewrite nth_error_map. rewrite (nth_error_nth' _ 0%nat) by (rewrite psums_length; lia).
  rewrite psums_nth, firstn_all by lia. cbn [option_map bind].
  unfold set_indptr, mk; cbn [data indptr indices nrows ncols].
  replace (r - length rows)%nat with (S r - length (psums 0 rows))%nat by (rewrite psums_length; lia).
  replace (length rows + 1)%nat with (length (psums 0 rows)) by (rewrite psums_length; lia).
  rewrite wr_append by (rewrite ?psums_length; auto; lia). cbn [bind].
  rewrite concat_app. cbn [concat]. rewrite !app_nil_r, psums_app. cbn [Nat.add].
  rewrite !app_length, psums_length. cbn [length].
  replace (length (concat rows) + (length (concat rows) + length cur - length (concat rows)))%nat
    with (length (concat rows) + length cur)%nat by lia.
  replace (S r - S (S (length rows)))%nat with (r - (length rows + 1))%nat by lia. reflexivity.
Qed.

(** [f] appends the entries [g b] to the current row. *)
Definition emits {B} (f : nat * csr K -> B -> res (nat * csr K)) (g : B -> list entry) (b : B) : Prop :=
  forall rows cur, (length (concat rows ++ cur) + length (g b) <= nnz)%nat ->
    f (length (concat rows ++ cur), mk rows cur) b =
    Ok (length (concat rows ++ (cur ++ g b)), mk rows (cur ++ g b)).

Lemma emits_foldM {B} f (g : B -> list entry) l : (forall b, In b l -> emits f g b) ->
  forall rows cur, (length (concat rows ++ cur) + length (flat_map g l) <= nnz)%nat ->
  foldM f l (length (concat rows ++ cur), mk rows cur) =
  Ok (length (concat rows ++ (cur ++ flat_map g l)), mk rows (cur ++ flat_map g l)).
Proof.
  induction l as [|b l IH]; intros He rows cur Hl; cbn [flat_map foldM].
  - now rewrite app_nil_r.
  - cbn [flat_map] in Hl. rewrite (app_length (g b)) in Hl.
    rewrite (He b (or_introl eq_refl) rows cur) by lia. cbn [bind].
    rewrite IH; [now rewrite <- !app_assoc|intros; apply He; now right|].
    rewrite !app_length in *. lia.
Qed.

(** Freezing a completely filled buffer. *)
Definition sp_of (rows : list (list entry)) : spmat K :=
  mksp K (map snd (concat rows)) (psums 0 rows) (map fst (concat rows)) r cc.

Lemma all_some_map {A} (l : list A) : all_some (map Some l) = Ok l.
Proof. induction l; simpl; auto. now rewrite IHl. Qed.

Lemma freeze_mk rows : length (concat rows) = nnz -> length rows = r ->
  freeze K (mk rows []) = Ok (sp_of rows).
Proof.
  intros H1 H2. unfold freeze, mk; cbn [data indptr indices nrows ncols].
  rewrite !app_nil_r. rewrite H1, H2, !Nat.sub_diag. cbn [repeat]. rewrite !app_nil_r.
  rewrite <- (map_map snd Some), <- (map_map fst Some). now rewrite !all_some_map.
Qed.

Lemma all_some_hole {A} (l : list A) m : (0 < m)%nat -> all_some (map Some l ++ repeat None m) = Err OutOfBounds.
Proof. intros H. induction l; simpl; [destruct m; [lia|reflexivity]|]. now rewrite IHl. Qed.

(** Reading the frozen matrix. *)
Lemma psums_mono (rows : list (list entry)) : forall k, (k < length rows)%nat ->
  (nth k (psums 0 rows) 0 <= nth (S k) (psums 0 rows) 0)%nat.
Proof.
  intros k Hk. rewrite !psums_nth by lia.
  destruct (nth_error rows k) eqn:E; [|apply nth_error_None in E; lia].
  rewrite (firstn_S_nth_error _ _ _ E), concat_app, app_length. lia.
Qed.

Lemma sp_of_wf rows : length rows = r ->
  (forall row e, In row rows -> In e row -> (0 <= fst e < Z.of_nat cc)%Z) ->
  sp_wf K (sp_of rows).
Proof.
  intros H Hc. unfold sp_wf, sp_of; cbn [m_indptr m_rows m_data m_indices m_cols].
  rewrite psums_length, !map_length.
  assert (E : nth r (psums 0 rows) 0%nat = length (concat rows)).
  { rewrite psums_nth by lia. rewrite <- H, firstn_all. reflexivity. }
  rewrite E.
  repeat split; auto.
  - destruct rows; reflexivity.
  - intros a Ha. apply psums_mono. lia.
  - apply in_map_iff in H0. destruct H0 as [e [<- He]]. apply in_concat in He.
    destruct He as [row [? ?]]. now apply (Hc row e).
  - apply in_map_iff in H0. destruct H0 as [e [<- He]]. apply in_concat in He.
    destruct He as [row [? ?]]. now apply (Hc row e).
Qed.

Lemma bsum_seq_list {A} (f : nat -> K) (g : A -> K) (l : list A) : forall lo,
  (forall k e, nth_error l k = Some e -> f (lo + k)%nat = g e) ->
  bsum f (seq lo (length l)) = bsum g l.
Proof.
  induction l as [|e l IH]; intros lo H; simpl; auto.
  rewrite <- (H 0%nat e) by reflexivity. rewrite Nat.add_0_r. f_equal. apply IH.
  intros k e' Hk. rewrite <- (H (S k) e') by exact Hk. f_equal. lia.
Qed.

Lemma sp_get_rows rows a row b : nth_error rows a = Some row ->
  sp_get K (sp_of rows) a b =
  bsum (fun e => if Z.eqb (fst e) (Z.of_nat b) then snd e else 0) row.
Proof.
  intros Ha. assert (Hl : (a < length rows)%nat) by (apply nth_error_Some; congruence).
  unfold sp_get, sp_of; cbn [m_indptr m_indices m_data].
  rewrite !psums_nth by lia. rewrite !Nat.add_0_l, (firstn_S_nth_error _ _ _ Ha), concat_app, app_length.
  cbn [concat]. rewrite app_nil_r.
  replace (length (concat (firstn a rows)) + length row - length (concat (firstn a rows)))%nat
    with (length row) by lia.
  apply bsum_seq_list. intros k e Hk.
  pose proof (concat_nth_error rows a row k e Ha Hk) as Hc.
  rewrite (nth_error_nth (map fst (concat rows)) _ (-1)%Z (x := fst e))
    by now rewrite nth_error_map, Hc.
  rewrite (nth_error_nth (map snd (concat rows)) _ 0 (x := snd e))
    by now rewrite nth_error_map, Hc.
  reflexivity.
Qed.

(** Reading a finished but not frozen matrix, entry by entry. *)
Lemma rd_indptr rows k : (k <= length rows)%nat ->
  rd (indptr K (mk rows [])) k = Ok (length (concat (firstn k rows))).
Proof.
  intros H. unfold mk, rd; cbn [indptr].
  rewrite nth_error_app1 by (rewrite map_length, psums_length; lia).
  rewrite nth_error_map, (nth_error_nth' _ 0%nat) by (rewrite psums_length; lia).
  now rewrite psums_nth by lia.
Qed.

Lemma rd_entry rows i row k e : nth_error rows i = Some row -> nth_error row k = Some e ->
  rd (indices K (mk rows [])) (length (concat (firstn i rows)) + k) = Ok (fst e) /\
  rd (data K (mk rows [])) (length (concat (firstn i rows)) + k) = Ok (snd e).
Proof.
  intros Hi Hk. pose proof (concat_nth_error rows i row k e Hi Hk) as Hc.
  assert (Hl : (length (concat (firstn i rows)) + k < length (concat rows))%nat)
    by (apply nth_error_Some; congruence).
  unfold mk, rd; cbn [indices data]. rewrite app_nil_r.
  rewrite !nth_error_app1 by (now rewrite map_length).
  now rewrite !nth_error_map, Hc.
Qed.

End Fill.

Section Offdiag.
Variable K : CRing.
Variable big : K -> bool.
Local Open Scope cr_scope.
Variable n : nat.
Variable A : nat -> nat -> K.

(** Row [i] of the compressed off-diagonal part. *)
Definition keep (i j : nat) : bool := negb (i =? j)%nat && big (A i j).
Definition Trow (i : nat) : list (Z * K) :=
  map (fun j => (Z.of_nat j, A i j)) (filter (keep i) (seq 0 n)).
Definition Trows : list (list (Z * K)) := map Trow (seq 0 n).

Lemma count_fold i l : forall c,
  fold_left (fun count j => if negb (i =? j)%nat && big (A i j) then S count else count) l c =
  (c + length (filter (keep i) l))%nat.
Proof.
  induction l; intros c; simpl; [lia|]. fold (keep i a). destruct (keep i a); simpl; rewrite IHl; lia.
Qed.

Lemma count_nnz_offdiag_spec :
  count_nnz_offdiag K big n A = length (concat Trows).
Proof.
  unfold count_nnz_offdiag, Trows. rewrite <- flat_map_concat_map.
  assert (H : forall l c, fold_left (fun count i =>
    fold_left (fun count j => if negb (i =? j)%nat && big (A i j) then S count else count) (seq 0 n) count) l c
    = (c + length (flat_map Trow l))%nat).
  { induction l; intros c; simpl; [lia|]. rewrite count_fold, IHl, app_length.
    unfold Trow at 2. rewrite map_length. lia. }
  now rewrite H.
Qed.

Lemma nnz_offdiag_spec :
  nnz_offdiag_csrmat K big n A (count_nnz_offdiag K big n A) =
  Ok (mk K (count_nnz_offdiag K big n A) n n Trows []).
Proof.
  unfold nnz_offdiag_csrmat. set (nnz := count_nnz_offdiag K big n A).
  rewrite mk_empty.
  assert (H : forall k lo, (lo + k <= n)%nat ->
    foldM (fun st i =>
      let '(count, sp_A) := st in
      let init_count := count in
      do st' <- foldM (fun st j =>
          let '(count, sp_A) := st in
          if negb (i =? j)%nat && big (A i j) then
            do sp_A <- set_indices K sp_A count (Z.of_nat j);
            do sp_A <- set_data K sp_A count (A i j);
            Ok (S count, sp_A)
          else Ok (count, sp_A)) (seq 0 n) (count, sp_A);
      let '(count, sp_A) := st' in
      do p <- rd (indptr K sp_A) i;
      do sp_A <- set_indptr K sp_A (i + 1) (p + (count - init_count));
      Ok (count, sp_A)) (seq lo k)
      (length (concat (map Trow (seq 0 lo))), mk K nnz n n (map Trow (seq 0 lo)) []) =
    Ok (length (concat (map Trow (seq 0 (lo + k)))), mk K nnz n n (map Trow (seq 0 (lo + k))) [])).
  { induction k; intros lo Hlo; cbn [seq foldM]; [now rewrite Nat.add_0_r|].
    set (rows := map Trow (seq 0 lo)).
    assert (Hr : length rows = lo) by (unfold rows; now rewrite map_length, seq_length).
    assert (Hnnz : (length (concat rows) + length (Trow lo) <= nnz)%nat).
    { unfold nnz. rewrite count_nnz_offdiag_spec. unfold Trows.
      replace n with (lo + S (n - lo - 1))%nat at 1 by lia.
      rewrite seq_app, map_app, concat_app, app_length. cbn. rewrite app_length. fold rows. lia. }
    pose proof (emits_foldM K nnz n n (B := nat)
      (fun st j => let '(count, sp_A) := st in
          if negb (lo =? j)%nat && big (A lo j) then
            do sp_A <- set_indices K sp_A count (Z.of_nat j);
            do sp_A <- set_data K sp_A count (A lo j);
            Ok (S count, sp_A)
          else Ok (count, sp_A))
      (fun j => if keep lo j then [(Z.of_nat j, A lo j)] else []) (seq 0 n)) as E.
    assert (Hf : flat_map (fun j => if keep lo j then [(Z.of_nat j, A lo j)] else []) (seq 0 n) = Trow lo).
    { apply flat_map_if. }
    rewrite Hf in E. specialize (E ltac:(
      intros j _ rows' cur' Hl; unfold keep in *;
      destruct (negb (lo =? j)%nat && big (A lo j));
      [cbn [length] in Hl; apply (mk_step_indices K nnz n n rows' cur' (Z.of_nat j, A lo j)); lia
      |now rewrite app_nil_r]) rows []).
    rewrite !app_nil_r in E. specialize (E Hnnz). cbn [app] in E.
    rewrite E. cbn [bind].
    pose proof (mk_close K nnz n n rows (Trow lo) ltac:(lia)) as C. rewrite Hr in C.
    unfold bind at 1 in C. unfold bind at 2.
    destruct (rd (indptr K (mk K nnz n n rows (Trow lo))) lo); [|discriminate].
    rewrite C. cbn [bind].
    replace (lo + S k)%nat with (S lo + k)%nat by lia. rewrite <- IHk by lia.
    rewrite seq_S, map_app, concat_app. cbn. rewrite app_nil_r. reflexivity. }
  specialize (H n 0%nat (le_n _)). cbn [seq map concat length] in H. cbn [Nat.add] in H.
  rewrite H. reflexivity.
Qed.

Lemma Trow_In i e : In e (Trow i) -> exists j, (j < n)%nat /\ i <> j /\ keep i j = true /\ e = (Z.of_nat j, A i j).
Proof.
  unfold Trow. intros H. apply in_map_iff in H. destruct H as [j [<- H]].
  apply filter_In in H. destruct H as [Hj Hk]. apply in_seq in Hj. exists j. repeat split; auto; [lia|].
  unfold keep in Hk. apply andb_true_iff in Hk. destruct Hk as [Hk _].
  now apply negb_true_iff, Nat.eqb_neq in Hk.
Qed.

Lemma Trows_nth i : (i < n)%nat -> nth_error Trows i = Some (Trow i).
Proof.
  intros H. unfold Trows. rewrite nth_error_map, (nth_error_nth' (seq 0 n) 0%nat) by (now rewrite seq_length).
  now rewrite seq_nth.
Qed.

(** Loop over the stored entries of row [i], as both builders do. *)
Lemma foldM_Trow {B} nnz (f : B -> Z -> res K -> res B) i st : (i < n)%nat ->
  (do lo <- rd (indptr K (mk K nnz n n Trows [])) i;
   do hi <- rd (indptr K (mk K nnz n n Trows [])) (i + 1);
   foldM (fun st p => do j <- rd (indices K (mk K nnz n n Trows [])) p;
                      f st j (rd (data K (mk K nnz n n Trows [])) p)) (seq lo (hi - lo)) st) =
  foldM (fun st e => f st (fst e) (Ok (snd e))) (Trow i) st.
Proof.
  intros Hi. assert (Hl : length Trows = n) by (unfold Trows; now rewrite map_length, seq_length).
  rewrite !rd_indptr by lia. cbn [bind].
  rewrite Nat.add_1_r, (firstn_S_nth_error _ _ _ (Trows_nth i Hi)), concat_app, app_length.
  cbn [concat]. rewrite app_nil_r.
  replace (length (concat (firstn i Trows)) + length (Trow i) - length (concat (firstn i Trows)))%nat
    with (length (Trow i)) by lia.
  apply foldM_seq. intros k e st' Hk.
  destruct (rd_entry K nnz n n Trows i (Trow i) k e (Trows_nth i Hi) Hk) as [E1 E2].
  rewrite E1, E2. reflexivity.
Qed.

(** Summing over the stored entries. *)
Lemma bsum_Trow i (f : nat -> K -> K) : (forall j, f j 0 = 0) ->
  bsum (fun e => f (Z.to_nat (fst e)) (snd e)) (Trow i) = nsum n (fun j => f j (offdiag K big A i j)).
Proof.
  intros Hf. unfold Trow. rewrite bsum_map, bsum_filter. unfold nsum. apply bsum_ext.
  intros j _. cbn [fst snd]. rewrite Nat2Z.id. unfold offdiag, keep.
  destruct (negb (i =? j)%nat && big (A i j)); auto.
Qed.

End Offdiag.
