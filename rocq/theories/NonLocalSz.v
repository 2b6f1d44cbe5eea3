(** Proofs about the Sz-symmetric exchange and pair-hopping builder. *)
From Coq Require Import List Arith NArith ZArith Lia Bool Ring.
From Verif Require Import Base OperatorsModel OperatorsSpec OperatorsProofs LookupModel LookupSpec
  LookupProofs SectorModel SectorSpec SectorProofs FockSpec FockProofs LocalModel HoppingModel
  CsrSpec CsrProofs HoppingProofs NonLocalModel NonLocalSpec NonLocalFock NonLocalProofs.
Import ListNotations.

Lemma concat_firstn_le {A} (all : list (list A)) k r : nth_error all k = Some r ->
  length (concat (firstn k all)) + length r <= length (concat all).
Proof.
  intros H. rewrite <- (firstn_skipn (S k) all) at 2.
  rewrite (firstn_S_nth_error _ _ _ H), !concat_app, !app_length. cbn. rewrite app_nil_r. lia.
Qed.

Lemma nth_error_list_prod {A B} (l : list A) (m : list B) : forall i k x y,
  nth_error l i = Some x -> nth_error m k = Some y ->
  nth_error (list_prod l m) (k + i * length m) = Some (x, y).
Proof.
  induction l as [|a l IH]; intros i k x y Hi Hk; destruct i; try discriminate; cbn [list_prod nth_error] in *.
  - inversion Hi; subst. rewrite nth_error_app1.
    + rewrite Nat.add_0_r, nth_error_map, Hk. reflexivity.
    + rewrite map_length. assert (k < length m) by (apply nth_error_Some; congruence). lia.
  - rewrite nth_error_app2 by (rewrite map_length; lia). rewrite map_length.
    replace (k + S i * length m - length m) with (k + i * length m) by lia. auto.
Qed.

Lemma list_sum_list_prod {A B} (f : A -> B -> nat) l m :
  list_sum (map (fun xy => f (fst xy) (snd xy)) (list_prod l m)) =
  list_sum (map (fun x => list_sum (map (f x) m)) l).
Proof.
  induction l as [|a l IH]; [reflexivity|]. cbn [list_prod map].
  rewrite map_app, list_sum_app, IH, map_map. cbn. reflexivity.
Qed.

Lemma b2n_andb a b : b2n (a && b) = b2n a * b2n b.
Proof. destruct a, b; reflexivity. Qed.

Lemma nz_bitval s i : nz (bitval s i) = occ s i.
Proof. pose proof (check_full_spec s i) as H. unfold check_full in H. rewrite H. now destruct (occ s i). Qed.

Lemma bitval_occ s i : bitval s i = if occ s i then 1%N else 0%N.
Proof. exact (check_full_spec s i). Qed.

Lemma foldM_pair {A B C} (f : A -> C -> res A) (g : B -> C -> res B) (h : B -> C -> B) l :
  (forall b c, In c l -> g b c = Ok (h b c)) ->
  forall a b a', foldM f l a = Ok a' ->
  foldM (fun st c => do x <- f (fst st) c; do y <- g (snd st) c; Ok (x, y)) l (a, b) =
  Ok (a', fold_left h l b).
Proof.
  induction l as [|c l IH]; intros Hg a b a' Hf; cbn [foldM fold_left] in *.
  - congruence.
  - cbn [fst snd]. destruct (f a c) as [x|] eqn:E; [|discriminate]. cbn [bind] in *.
    rewrite Hg by now left. cbn [bind]. apply IH; auto. intros; apply Hg; now right.
Qed.

Lemma in_seq0 n i : In i (seq 0 n) -> i < n.
Proof. intros H. apply in_seq in H. lia. Qed.

Section Sz.
Variable K : CRing.
Variable big : K -> bool.
Variable half : K.
Local Open Scope cr_scope.
Add Ring Kring : (cth K).
Variables (n nup ndw : nat).
Hypothesis Hn : (n <= 32)%nat.
Hypothesis Hup : (nup <= n)%nat.
Hypothesis Hdw : (ndw <= n)%nat.
Variable Jx : nat -> nat -> K.
Variable Jp : option (nat -> nat -> K).

Notation up := (cand n nup).
Notation dw := (cand n ndw).
Notation dup := (length up).

Definition col (f1 f2 : N) : Z := (idx dw f2 * Z.of_nat dup + idx up f1)%Z.

Definition ex_entries (sup sdw : N) (i : nat) : list (Z * K) :=
  if negb (occ sup i) && occ sdw i then
    flat_map (fun e => let j := Z.to_nat (fst e) in
      if occ sup j && negb (occ sdw j) then
        [(col (snd (cdgc sup i j)) (snd (cdgc sdw j i)),
          z2k (- fst (cdgc sup i j) * fst (cdgc sdw j i)) * snd e)]
      else []) (Trow K big n Jx i)
  else [].

Definition pr_entries (J : nat -> nat -> K) (sup sdw : N) (i : nat) : list (Z * K) :=
  if negb (occ sup i) && negb (occ sdw i) then
    flat_map (fun e => let j := Z.to_nat (fst e) in
      if occ sup j && occ sdw j then
        [(col (snd (cdgc sup i j)) (snd (cdgc sdw i j)),
          z2k (fst (cdgc sup i j) * fst (cdgc sdw i j)) * snd e)]
      else []) (Trow K big n J i)
  else [].

Definition nl_entries (ds : N * N) : list (Z * K) :=
  flat_map (ex_entries (snd ds) (fst ds)) (seq 0 n) ++
  match Jp with None => [] | Some J => flat_map (pr_entries J (snd ds) (fst ds)) (seq 0 n) end.

(** Increment of the diagonal. *)
Definition tmp_of (sup sdw : N) : K :=
  fold_left (fun t i => fold_left (fun t e => t + snd e *
      z2k (Z.of_N (bitval sup i * bitval sup (Z.to_nat (fst e)) +
                   bitval sdw i * bitval sdw (Z.to_nat (fst e)))%N)) (Trow K big n Jx i) t) (seq 0 n) 0.
Definition dterm (ds : N * N) : K := tmp_of (snd ds) (fst ds) * (- half).

Lemma put_spec nnz d z1 f1 z2 f2 neg v rows cur :
  (length (concat rows ++ cur) < nnz)%nat ->
  put K up dw (z1, f1) (z2, f2) neg (Ok v) (length (concat rows ++ cur), mk K nnz d d rows cur) =
  let e := (col f1 f2, z2k (if neg then (- z1 * z2) else (z1 * z2))%Z * v) in
  Ok (length (concat rows ++ (cur ++ [e])), mk K nnz d d rows (cur ++ [e])).
Proof.
  intros H. unfold put. rewrite !binsearch_idx. cbn [bind]. cbv zeta. fold (col f1 f2).
  rewrite <- mk_step_data by auto. reflexivity.
Qed.

Lemma exch_put_emits nnz d nnzT sup sdw i : (i < n)%nat ->
  emits K nnz d d (exch_put K (mk K nnzT n n (Trows K big n Jx) []) up dw sup sdw)
    (ex_entries sup sdw) i.
Proof.
  intros Hi rows cur Hl. unfold exch_put, ex_entries in *. rewrite !nz_bitval.
  destruct (negb (occ sup i) && occ sdw i); [|now rewrite app_nil_r].
  rewrite for_row_Trow by auto.
  apply (emits_foldM K nnz d d (B := Z * K)); auto.
  intros e He rows' cur' Hl'. cbv zeta in *. rewrite !nz_bitval.
  destruct (occ sup (Z.to_nat (fst e)) && negb (occ sdw (Z.to_nat (fst e)))); [|now rewrite app_nil_r].
  cbn [length] in Hl'.
  rewrite (surjective_pairing (cdgc sup i (Z.to_nat (fst e)))) at 1.
  rewrite (surjective_pairing (cdgc sdw (Z.to_nat (fst e)) i)) at 1.
  apply put_spec. lia.
Qed.

Lemma pair_put_emits nnz d nnzT J sup sdw i : (i < n)%nat ->
  emits K nnz d d (pair_put K (mk K nnzT n n (Trows K big n J) []) up dw sup sdw)
    (pr_entries J sup sdw) i.
Proof.
  intros Hi rows cur Hl. unfold pair_put, pr_entries in *. rewrite !nz_bitval.
  destruct (negb (occ sup i) && negb (occ sdw i)); [|now rewrite app_nil_r].
  rewrite for_row_Trow by auto.
  apply (emits_foldM K nnz d d (B := Z * K)); auto.
  intros e He rows' cur' Hl'. cbv zeta in *. rewrite !nz_bitval.
  destruct (occ sup (Z.to_nat (fst e)) && occ sdw (Z.to_nat (fst e))); [|now rewrite app_nil_r].
  cbn [length] in Hl'.
  rewrite (surjective_pairing (cdgc sup i (Z.to_nat (fst e)))) at 1.
  rewrite (surjective_pairing (cdgc sdw i (Z.to_nat (fst e)))) at 1.
  apply put_spec. lia.
Qed.

Lemma exch_tmp_spec nnzT sup sdw t i : (i < n)%nat ->
  exch_tmp K (mk K nnzT n n (Trows K big n Jx) []) sup sdw t i =
  Ok (fold_left (fun t e => t + snd e *
      z2k (Z.of_N (bitval sup i * bitval sup (Z.to_nat (fst e)) +
                   bitval sdw i * bitval sdw (Z.to_nat (fst e)))%N)) (Trow K big n Jx i) t).
Proof.
  intros Hi. unfold exch_tmp. rewrite for_row_Trow by auto.
  generalize (Trow K big n Jx i) as l. intros l. revert t.
  induction l as [|e l IH]; intros t; cbn [foldM fold_left bind]; auto.
Qed.

(** All rows, in the order in which the double loop visits them. *)
Definition pairs : list (N * N) := list_prod dw up.
Definition all_rows : list (list (Z * K)) := map nl_entries pairs.

Definition nnz_tot : nat :=
  ((count_nnz_offdiag K big n Jx + fst (copt K big n Jp)) * binomZ (Z.of_nat n - 2) (Z.of_nat nup - 1)
   * binomZ (Z.of_nat n - 2) (Z.of_nat ndw - 1))%nat.
Notation d := (length dw * dup)%nat.

Lemma ex_length sup sdw i : length (ex_entries sup sdw i) =
  list_sum (map (fun e => (b2n (negb (occ sup i) && occ sup (Z.to_nat (fst e))) *
                           b2n (negb (occ sdw (Z.to_nat (fst e))) && occ sdw i))%nat) (Trow K big n Jx i)).
Proof.
  unfold ex_entries. destruct (negb (occ sup i) && occ sdw i) eqn:E.
  - rewrite length_flat_map. apply list_sum_ext. intros e _. cbv zeta.
    apply andb_true_iff in E. destruct E as [-> ->]. rewrite andb_true_r. cbn [andb].
    destruct (occ sup (Z.to_nat (fst e))), (occ sdw (Z.to_nat (fst e))); reflexivity.
  - rewrite (list_sum_ext _ (fun _ => 0%nat)), list_sum_const; [cbn; lia|].
    intros e _. apply andb_false_iff in E. destruct E as [-> | ->]; cbn [andb b2n]; [lia|].
    rewrite andb_false_r. cbn. lia.
Qed.

Lemma pr_length J sup sdw i : length (pr_entries J sup sdw i) =
  list_sum (map (fun e => (b2n (negb (occ sup i) && occ sup (Z.to_nat (fst e))) *
                           b2n (negb (occ sdw i) && occ sdw (Z.to_nat (fst e))))%nat) (Trow K big n J i)).
Proof.
  unfold pr_entries. destruct (negb (occ sup i) && negb (occ sdw i)) eqn:E.
  - rewrite length_flat_map. apply list_sum_ext. intros e _. cbv zeta.
    apply andb_true_iff in E. destruct E as [-> ->]. cbn [andb].
    destruct (occ sup (Z.to_nat (fst e))), (occ sdw (Z.to_nat (fst e))); reflexivity.
  - rewrite (list_sum_ext _ (fun _ => 0%nat)), list_sum_const; [cbn; lia|].
    intros e _. apply andb_false_iff in E. destruct E as [-> | ->]; cbn [andb b2n]; lia.
Qed.

(** Counting a product pattern over the whole sector. *)
Lemma count_pattern (J : nat -> nat -> K) (fu fd : nat -> nat -> N -> bool) (cu cd : nat) :
  (forall i j, (i < n)%nat -> (j < n)%nat -> i <> j -> cnt (fu i j) n nup = cu) ->
  (forall i j, (i < n)%nat -> (j < n)%nat -> i <> j -> cnt (fd i j) n ndw = cd) ->
  list_sum (map (fun ds => list_sum (map (fun i => list_sum (map (fun e =>
      (b2n (fu i (Z.to_nat (fst e)) (snd ds)) * b2n (fd i (Z.to_nat (fst e)) (fst ds)))%nat)
        (Trow K big n J i))) (seq 0 n))) pairs) =
  (count_nnz_offdiag K big n J * cu * cd)%nat.
Proof.
  intros Hu Hd. rewrite list_sum_swap.
  rewrite (list_sum_ext _ (fun i => (length (Trow K big n J i) * (cu * cd))%nat)).
  - rewrite list_sum_scal_r. rewrite count_nnz_offdiag_spec. unfold Trows.
    rewrite <- flat_map_concat_map, length_flat_map. lia.
  - intros i Hi. apply in_seq in Hi. rewrite list_sum_swap.
    rewrite (list_sum_ext _ (fun _ => (cu * cd)%nat)), list_sum_const; auto.
    intros e He. apply Trow_In in He. destruct He as [j [Hj [Hij [_ ->]]]]. cbn [fst snd].
    rewrite Nat2Z.id. unfold pairs.
    rewrite (list_sum_list_prod (fun x y => (b2n (fu i j y) * b2n (fd i j x))%nat)).
    rewrite (list_sum_ext _ (fun x => (cu * b2n (fd i j x))%nat)).
    + rewrite list_sum_scal. f_equal. rewrite <- length_filter_sum. apply (Hd i j); auto; lia.
    + intros x _. rewrite list_sum_scal_r. f_equal. rewrite <- length_filter_sum. apply (Hu i j); auto; lia.
Qed.

Lemma all_rows_total : length (concat all_rows) = nnz_tot.
Proof.
  unfold all_rows. rewrite <- flat_map_concat_map, length_flat_map. unfold nl_entries, nnz_tot.
  rewrite (list_sum_ext _ (fun ds =>
     (list_sum (map (fun i => length (ex_entries (snd ds) (fst ds) i)) (seq 0 n)) +
      match Jp with None => 0 | Some J => list_sum (map (fun i => length (pr_entries J (snd ds) (fst ds) i)) (seq 0 n)) end)%nat)).
  2: { intros ds _. rewrite app_length, length_flat_map. destruct Jp; [now rewrite length_flat_map|reflexivity]. }
  rewrite list_sum_add. rewrite !Nat.mul_add_distr_r. f_equal.
  - rewrite <- (count_pattern Jx (fun i j s => negb (occ s i) && occ s j) (fun i j s => negb (occ s j) && occ s i)).
    + apply list_sum_ext. intros ds _. apply list_sum_ext. intros i _. apply ex_length.
    + intros. now apply cnt_hop_binomZ.
    + intros. apply cnt_hop_binomZ; auto.
  - destruct Jp as [J|]; cbn [copt fst].
    + rewrite <- (count_pattern J (fun i j s => negb (occ s i) && occ s j) (fun i j s => negb (occ s i) && occ s j)).
      * apply list_sum_ext. intros ds _. apply list_sum_ext. intros i _. apply pr_length.
      * intros. now apply cnt_hop_binomZ.
      * intros. now apply cnt_hop_binomZ.
    + rewrite list_sum_const. lia.
Qed.

(** State of the loops after [k] rows. *)
Variable vec : list K.
Hypothesis Hvec : length vec = d.

Definition D (k : nat) : K := dterm (nth k pairs (0%N, 0%N)).
Definition vecm (k : nat) : list K :=
  map (fun m => if (m <? k)%nat then nth m vec 0 + D m else nth m vec 0) (seq 0 (length vec)).
Definition stm (k : nat) : nat * csr K * list K :=
  (length (concat (firstn k all_rows)), mk K nnz_tot d d (firstn k all_rows) [], vecm k).

Lemma vecm_length k : length (vecm k) = length vec.
Proof. unfold vecm. now rewrite map_length, seq_length. Qed.

Lemma vecm_nth k m : (m < length vec)%nat ->
  nth m (vecm k) 0 = if (m <? k)%nat then nth m vec 0 + D m else nth m vec 0.
Proof.
  intros H. unfold vecm. now rewrite nth_map_seq.
Qed.

Lemma vecm_0 : vecm 0 = vec.
Proof.
  apply (list_ext _ _ 0); [apply vecm_length|]. intros i Hi. rewrite vecm_length in Hi.
  now rewrite vecm_nth.
Qed.

Lemma add_at_vecm k : (k < length vec)%nat -> add_at K (vecm k) k (D k) = Ok (vecm (S k)).
Proof.
  intros Hk. unfold add_at.
  rewrite (nth_error_nth' (vecm k) 0) by (rewrite vecm_length; auto).
  rewrite vecm_nth by auto. rewrite Nat.ltb_irrefl.
  rewrite upd_upd_tot by (now rewrite vecm_length). f_equal.
  apply (list_ext _ _ 0); [now rewrite upd_tot_length, !vecm_length|].
  intros i Hi. rewrite upd_tot_length, vecm_length in Hi.
  rewrite nth_upd_tot by (now rewrite vecm_length). rewrite !vecm_nth by auto.
  destruct (Nat.eqb_spec k i) as [<-|Hne].
  - replace (k <? S k)%nat with true by (symmetry; apply Nat.ltb_lt; lia). reflexivity.
  - destruct (Nat.ltb_spec i k), (Nat.ltb_spec i (S k)); auto; lia.
Qed.

Lemma nl_row_step idw iup sdw sup nx np : nth_error dw idw = Some sdw -> nth_error up iup = Some sup ->
  nl_row K half n (mk K nx n n (Trows K big n Jx) [])
    (match Jp with None => None | Some J => Some (mk K np n n (Trows K big n J) []) end)
    up dw idw sdw (stm (iup + idw * dup)) iup = Ok (stm (S (iup + idw * dup))).
Proof.
  intros Hd Hu. unfold nl_row. rewrite Hu. unfold stm at 1. cbn [fst].
  set (k := (iup + idw * dup)%nat).
  assert (Hp : nth_error pairs k = Some (sdw, sup)) by (apply nth_error_list_prod; auto).
  assert (Hr : nth_error all_rows k = Some (nl_entries (sdw, sup)))
    by (unfold all_rows; now rewrite nth_error_map, Hp).
  assert (Hk : (k < d)%nat).
  { unfold pairs in Hp. assert (H : (k < length (list_prod dw up))%nat) by (apply nth_error_Some; congruence).
    now rewrite prod_length in H. }
  assert (Hlen : length (firstn k all_rows) = k).
  { rewrite firstn_length. unfold all_rows, pairs. rewrite map_length, prod_length. lia. }
  pose proof (concat_firstn_le all_rows k _ Hr) as Hle. rewrite all_rows_total in Hle.
  set (rows := firstn k all_rows) in *.
  set (ex := flat_map (ex_entries sup sdw) (seq 0 n)).
  set (pr := match Jp with None => [] | Some J => flat_map (pr_entries J sup sdw) (seq 0 n) end).
  assert (Enl : nl_entries (sdw, sup) = ex ++ pr) by reflexivity.
  rewrite Enl, app_length in Hle.
  (* exchange *)
  assert (Ex : foldM (exch_put K (mk K nx n n (Trows K big n Jx) []) up dw sup sdw) (seq 0 n)
                 (length (concat rows), mk K nnz_tot d d rows []) =
               Ok (length (concat rows ++ ex), mk K nnz_tot d d rows ex)).
  { pose proof (emits_foldM K nnz_tot d d _ (ex_entries sup sdw) (seq 0 n)
      (fun i Hi => exch_put_emits nnz_tot d nx sup sdw i (in_seq0 n i Hi)) rows []) as E.
    rewrite !app_nil_r in E. apply E. fold ex. lia. }
  rewrite (foldM_pair _ _ (fun t i => fold_left (fun t e => t + snd e *
      z2k (Z.of_N (bitval sup i * bitval sup (Z.to_nat (fst e)) +
                   bitval sdw i * bitval sdw (Z.to_nat (fst e)))%N)) (Trow K big n Jx i) t) _
      (fun t i Hi => exch_tmp_spec nx sup sdw t i (in_seq0 n i Hi)) _ _ _ Ex).
  cbn [bind]. fold (tmp_of sup sdw).
  assert (ED : tmp_of sup sdw * (- half) = D k).
  { unfold D. rewrite (nth_error_nth _ _ _ Hp). reflexivity. }
  rewrite ED. fold k. rewrite add_at_vecm by lia. cbn [bind].
  (* pair hopping *)
  assert (Ep : match
        match Jp with None => None | Some J => Some (mk K np n n (Trows K big n J) []) end
      with
      | None => Ok (length (concat rows ++ ex), mk K nnz_tot d d rows ex)
      | Some T => foldM (pair_put K T up dw sup sdw) (seq 0 n) (length (concat rows ++ ex), mk K nnz_tot d d rows ex)
      end = Ok (length (concat rows ++ (ex ++ pr)), mk K nnz_tot d d rows (ex ++ pr))).
  { unfold pr in *. destruct Jp as [J|]; [|now rewrite app_nil_r].
    apply (emits_foldM K nnz_tot d d _ (pr_entries J sup sdw) (seq 0 n)
      (fun i Hi => pair_put_emits nnz_tot d np J sup sdw i (in_seq0 n i Hi)) rows ex).
    rewrite app_length. lia. }
  rewrite Ep. cbn [bind].
  pose proof (mk_close K nnz_tot d d rows (ex ++ pr) ltac:(lia)) as C. rewrite Hlen in C.
  replace (iup + dup * idw)%nat with k by (unfold k; lia).
  unfold bind at 1 in C. unfold bind at 1.
  destruct (rd (indptr K (mk K nnz_tot d d rows (ex ++ pr))) k); [|discriminate].
  rewrite C. cbn [bind]. unfold stm.
  rewrite (firstn_S_nth_error _ _ _ Hr), concat_app, Enl. cbn [concat]. rewrite app_nil_r.
  reflexivity.
Qed.

Lemma nl_inner idw sdw nx np : nth_error dw idw = Some sdw -> forall m lo, (lo + m <= dup)%nat ->
  foldM (nl_row K half n (mk K nx n n (Trows K big n Jx) [])
    (match Jp with None => None | Some J => Some (mk K np n n (Trows K big n J) []) end)
    up dw idw sdw) (seq lo m) (stm (lo + idw * dup)) = Ok (stm (lo + m + idw * dup)).
Proof.
  intros Hd. induction m; intros lo Hlo; cbn [seq foldM]; [now rewrite Nat.add_0_r|].
  destruct (nth_error up lo) as [sup|] eqn:Eu; [|apply nth_error_None in Eu; lia].
  rewrite (nl_row_step idw lo sdw sup nx np Hd Eu). cbn [bind].
  change (S (lo + idw * dup)) with (S lo + idw * dup)%nat. rewrite IHm by lia. do 2 f_equal. lia.
Qed.

Lemma nl_outer nx np : forall m lo, (lo + m <= length dw)%nat ->
  foldM (fun st idw => match nth_error dw idw with
    | None => Err IndexError
    | Some sdw => foldM (nl_row K half n (mk K nx n n (Trows K big n Jx) [])
        (match Jp with None => None | Some J => Some (mk K np n n (Trows K big n J) []) end)
        up dw idw sdw) (seq 0 dup) st end) (seq lo m) (stm (lo * dup)) = Ok (stm ((lo + m) * dup)).
Proof.
  induction m; intros lo Hlo; cbn [seq foldM]; [now rewrite Nat.add_0_r|].
  destruct (nth_error dw lo) as [sdw|] eqn:Ed; [|apply nth_error_None in Ed; lia].
  pose proof (nl_inner lo sdw nx np Ed dup 0%nat (le_n _)) as E. cbn [Nat.add] in E. rewrite E. cbn [bind].
  change (dup + lo * dup)%nat with (S lo * dup)%nat. rewrite IHm by lia. do 3 f_equal. lia.
Qed.

Lemma build_nl_sz_spec :
  build_nl_sz K big half n (Some Jx) Jp up dw vec =
  Ok (mk K nnz_tot d d all_rows [], vecm d, false).
Proof.
  unfold build_nl_sz.
  destruct (cand_nonempty n nup Hup) as [su [lu Eu]]. destruct (cand_nonempty n ndw Hdw) as [sd [ld Ed]].
  assert (Hsu : in_sector n nup su) by (apply cand_In; rewrite Eu; now left).
  assert (Hsd : in_sector n ndw sd) by (apply cand_In; rewrite Ed; now left).
  rewrite Eu at 1. rewrite Ed at 1.
  rewrite !count_bits_popcount by (apply Hsu || apply Hsd).
  destruct Hsu as [_ ->]. destruct Hsd as [_ ->]. rewrite !nat_N_Z.
  rewrite compress_spec, compress_opt_spec. cbn [bind fst snd].
  fold nnz_tot. rewrite mk_empty.
  assert (E0 : (0%nat, mk K nnz_tot d d [] [], vec) = stm (0 * dup)).
  { unfold stm. cbn [Nat.mul firstn concat length]. now rewrite vecm_0. }
  rewrite E0.
  replace (snd (copt K big n Jp)) with
    (match Jp with None => None | Some J => Some (mk K (fst (copt K big n Jp)) n n (Trows K big n J) []) end)
    by (destruct Jp; reflexivity).
  rewrite nl_outer by lia. cbn [bind Nat.add]. unfold stm.
  assert (El : length all_rows = d) by (unfold all_rows, pairs; now rewrite map_length, prod_length).
  rewrite <- El, firstn_all, El. unfold truncate. cbn [data].
  rewrite all_rows_total. unfold mk at 1. cbn [data].
  rewrite app_length, map_length, repeat_length, app_nil_r, all_rows_total.
  replace (nnz_tot =? nnz_tot + (nnz_tot - nnz_tot))%nat with true by (symmetry; apply Nat.eqb_eq; lia).
  reflexivity.
Qed.

(** ** Matrix elements *)

Lemma col_eq f1 f2 jb kb ub db : in_sector n nup f1 -> in_sector n ndw f2 ->
  nth_error up jb = Some ub -> nth_error dw kb = Some db ->
  Z.eqb (col f1 f2) (Z.of_nat (jb + kb * dup)) = N.eqb f1 ub && N.eqb f2 db.
Proof.
  intros H1 H2 Hu Hd.
  destruct (idx_cand n nup f1 H1) as [k1 [L1 [E1 I1]]].
  destruct (idx_cand n ndw f2 H2) as [k2 [L2 [E2 I2]]].
  assert (Lj : (jb < dup)%nat) by (apply nth_error_Some; congruence).
  unfold col. rewrite I1, I2. apply Bool.eq_iff_eq_true.
  rewrite Z.eqb_eq, andb_true_iff, !N.eqb_eq. split.
  - intros E. assert (Ek : (k1 + k2 * dup = jb + kb * dup)%nat) by lia.
    assert (Ed : k2 = kb).
    { apply (f_equal (fun x => x / dup)%nat) in Ek.
      rewrite !Nat.div_add, !Nat.div_small in Ek by lia. lia. }
    subst k2. assert (k1 = jb) by lia. subst k1. split; congruence.
  - intros [-> ->].
    assert (k1 = jb) by (eapply (increasing_nth_inj up); eauto using cand_increasing).
    assert (k2 = kb) by (eapply (increasing_nth_inj dw); eauto using cand_increasing).
    subst. lia.
Qed.

Lemma elem_both W t1 t2 u dd a b :
  word (2 * n) W (combine n u dd) = both n a b ->
  (forall z t, a = Some (z, t) -> (t < 2 ^ N.of_nat n)%N) -> (t1 < 2 ^ N.of_nat n)%N ->
  elem (2 * n) W (combine n t1 t2) (combine n u dd) =
  match a, b with
  | Some (z1, f1), Some (z2, f2) => if N.eqb f1 t1 && N.eqb f2 t2 then (z1 * z2)%Z else 0%Z
  | _, _ => 0%Z
  end.
Proof.
  intros E Ha Ht. unfold elem. rewrite E. unfold both.
  destruct a as [[z1 f1]|]; auto. destruct b as [[z2 f2]|]; auto.
  specialize (Ha z1 f1 eq_refl).
  replace (N.eqb (combine n f1 f2) (combine n t1 t2)) with (N.eqb f1 t1 && N.eqb f2 t2); auto.
  apply Bool.eq_iff_eq_true. rewrite andb_true_iff, !N.eqb_eq. split.
  - intros [-> ->]; auto.
  - intros Ec. eapply combine_inj; eauto.
Qed.

Lemma hop_lt s i j z t : (s < 2 ^ N.of_nat n)%N -> (i < n)%nat ->
  word n [Cr i; An j] s = Some (z, t) -> (t < 2 ^ N.of_nat n)%N.
Proof.
  intros Hs Hi. cbn [word]. destruct (app1 n (An j) s) as [[z1 u]|] eqn:E; [|discriminate].
  destruct (app1 n (Cr i) u) as [[z2 v]|] eqn:E2; [|discriminate]. intros E'; inversion E'; subst.
  apply (app1_lt n (Cr i) u z2); auto. now apply (app1_lt_An n j s z1).
Qed.

Section Elements.
Variables (jb kb : nat) (ua da ub db : N).
Hypothesis Hua : in_sector n nup ua.
Hypothesis Hda : in_sector n ndw da.
Hypothesis Hub : nth_error up jb = Some ub.
Hypothesis Hdb : nth_error dw kb = Some db.
Notation Sa := (combine n ua da).
Notation Sb := (combine n ub db).
Notation pick := (fun e : Z * K => if Z.eqb (fst e) (Z.of_nat (jb + kb * dup)) then snd e else 0).

Lemma ub_lt : (ub < 2 ^ N.of_nat n)%N.
Proof. assert (H : In ub up) by (eapply nth_error_In; eauto). apply cand_In in H. apply H. Qed.

Lemma elem_ex i j : (i < n)%nat -> (j < n)%nat -> i <> j ->
  elem (2 * n) (exch_word n i j 0 1) Sb Sa =
  if (occ ua j && negb (occ ua i)) && (occ da i && negb (occ da j)) then
    if N.eqb (snd (cdgc ua i j)) ub && N.eqb (snd (cdgc da j i)) db
    then (fst (cdgc ua i j) * fst (cdgc da j i))%Z else 0%Z
  else 0%Z.
Proof.
  intros Hi Hj Hij.
  rewrite (elem_both _ ub db ua da _ _ (word_exch_ud n i j ua da Hi Hj (proj1 Hua))).
  3: apply ub_lt.
  2: { intros z t. apply hop_lt; auto. apply Hua. }
  rewrite (word_hop ua i j n) by (auto; eapply sector_lt32; eauto).
  rewrite (word_hop da j i n) by (auto; eapply sector_lt32; eauto).
  destruct (occ ua j && negb (occ ua i)); cbn [andb]; auto.
  destruct (cdgc ua i j) as [z1 f1]. cbn [fst snd].
  destruct (occ da i && negb (occ da j)); auto; destruct (cdgc da j i); reflexivity.
Qed.

Lemma elem_pr i j : (i < n)%nat -> (j < n)%nat -> i <> j ->
  elem (2 * n) (pair_word n i j 0) Sb Sa =
  if (occ ua j && negb (occ ua i)) && (occ da j && negb (occ da i)) then
    if N.eqb (snd (cdgc ua i j)) ub && N.eqb (snd (cdgc da i j)) db
    then (fst (cdgc ua i j) * fst (cdgc da i j))%Z else 0%Z
  else 0%Z.
Proof.
  intros Hi Hj Hij.
  rewrite (elem_both _ ub db ua da _ _ (word_pair_u n i j ua da Hi Hj (proj1 Hua))).
  3: apply ub_lt.
  2: { intros z t. apply hop_lt; auto. apply Hua. }
  rewrite (word_hop ua i j n) by (auto; eapply sector_lt32; eauto).
  rewrite (word_hop da i j n) by (auto; eapply sector_lt32; eauto).
  destruct (occ ua j && negb (occ ua i)); cbn [andb]; auto.
  destruct (cdgc ua i j) as [z1 f1]. cbn [fst snd].
  destruct (occ da j && negb (occ da i)); auto; destruct (cdgc da i j); reflexivity.
Qed.

Lemma ex_sum : bsum pick (flat_map (ex_entries ua da) (seq 0 n)) =
  - coupling K n (offdiag K big Jx) (fun i j => exch_word n i j 0 1) Sb Sa.
Proof.
  rewrite bsum_flat_map. unfold coupling, nsum at 1. rewrite <- bsum_opp. apply bsum_ext.
  intros i Hi. apply in_seq0 in Hi.
  rewrite <- (bsum_Trow K big n Jx i (fun j x => x * z2k (elem (2 * n) (exch_word n i j 0 1) Sb Sa)))
    by (intros; ring).
  rewrite <- bsum_opp. unfold ex_entries.
  destruct (negb (occ ua i) && occ da i) eqn:Ci.
  - rewrite bsum_flat_map. apply bsum_ext. intros e He.
    apply Trow_In in He. destruct He as [j [Hj [Hij [_ ->]]]]. cbn [fst snd]. cbv zeta. rewrite Nat2Z.id.
    rewrite elem_ex by auto. apply andb_true_iff in Ci. destruct Ci as [C1 C2].
    apply negb_true_iff in C1. rewrite C1, C2. cbn [negb andb]. rewrite andb_true_r.
    destruct (occ ua j && negb (occ da j)) eqn:Cj.
    + apply andb_true_iff in Cj. destruct Cj as [C3 C4]. cbn [bsum fst snd].
      apply negb_true_iff in C4.
      rewrite (col_eq _ _ jb kb ub db); auto.
      * destruct (N.eqb (snd (cdgc ua i j)) ub && N.eqb (snd (cdgc da j i)) db); [|cbn; ring].
        rewrite !z2k_mul, z2k_opp. ring.
      * apply cdgc_in_sector; auto; apply Hua.
      * apply cdgc_in_sector; auto; apply Hda.
    + cbn; ring.
  - cbn [bsum]. symmetry. apply bsum_0. intros e He.
    apply Trow_In in He. destruct He as [j [Hj [Hij [_ ->]]]]. cbn [fst snd]. rewrite Nat2Z.id.
    rewrite elem_ex by auto.
    destruct (occ ua i), (occ da i); try discriminate; cbn [negb andb]; rewrite ?andb_false_r; cbn; ring.
Qed.

Lemma pr_sum J : bsum pick (flat_map (pr_entries J ua da) (seq 0 n)) =
  coupling K n (offdiag K big J) (fun i j => pair_word n i j 0) Sb Sa.
Proof.
  rewrite bsum_flat_map. unfold coupling, nsum at 1. apply bsum_ext.
  intros i Hi. apply in_seq0 in Hi.
  rewrite <- (bsum_Trow K big n J i (fun j x => x * z2k (elem (2 * n) (pair_word n i j 0) Sb Sa)))
    by (intros; ring).
  unfold pr_entries.
  destruct (negb (occ ua i) && negb (occ da i)) eqn:Ci.
  - rewrite bsum_flat_map. apply bsum_ext. intros e He.
    apply Trow_In in He. destruct He as [j [Hj [Hij [_ ->]]]]. cbn [fst snd]. cbv zeta. rewrite Nat2Z.id.
    rewrite elem_pr by auto. apply andb_true_iff in Ci. destruct Ci as [C1 C2].
    apply negb_true_iff in C1. apply negb_true_iff in C2. rewrite C1, C2. cbn [negb]. rewrite !andb_true_r.
    destruct (occ ua j && occ da j) eqn:Cj.
    + apply andb_true_iff in Cj. destruct Cj as [C3 C4]. cbn [bsum fst snd].
      rewrite (col_eq _ _ jb kb ub db); auto.
      * destruct (N.eqb (snd (cdgc ua i j)) ub && N.eqb (snd (cdgc da i j)) db); [|cbn; ring].
        rewrite !z2k_mul. ring.
      * apply cdgc_in_sector; auto; apply Hua.
      * apply cdgc_in_sector; auto; apply Hda.
    + cbn; ring.
  - cbn [bsum]. symmetry. apply bsum_0. intros e He.
    apply Trow_In in He. destruct He as [j [Hj [Hij [_ ->]]]]. cbn [fst snd]. rewrite Nat2Z.id.
    rewrite elem_pr by auto.
    destruct (occ ua i), (occ da i); try discriminate; cbn [negb andb]; rewrite ?andb_false_r; cbn; ring.
Qed.

End Elements.

Lemma nl_get ja ka jb kb ua da ub db :
  nth_error up ja = Some ua -> nth_error dw ka = Some da ->
  nth_error up jb = Some ub -> nth_error dw kb = Some db ->
  sp_get K (sp_of K d d all_rows) (ja + ka * dup) (jb + kb * dup) =
  coupling K n (opt_offdiag K big Jp) (fun i j => pair_word n i j 0) (combine n ub db) (combine n ua da)
  - coupling K n (offdiag K big Jx) (fun i j => exch_word n i j 0 1) (combine n ub db) (combine n ua da).
Proof.
  intros Ha Hda Hb Hdb.
  rewrite (sp_get_rows K _ _ _ _ (nl_entries (da, ua))).
  2: { unfold all_rows. rewrite nth_error_map. unfold pairs.
       now rewrite (nth_error_list_prod dw up ka ja da ua). }
  assert (Sa : in_sector n nup ua) by (apply cand_In; eapply nth_error_In; eauto).
  assert (Sd : in_sector n ndw da) by (apply cand_In; eapply nth_error_In; eauto).
  unfold nl_entries. cbn [fst snd]. rewrite bsum_app, (ex_sum jb kb ua da ub db) by auto.
  destruct Jp as [J|]; cbn [opt_offdiag].
  - rewrite (pr_sum jb kb ua da ub db) by auto. ring.
  - cbn [bsum]. rewrite coupling_0. ring.
Qed.

Lemma nl_wf : sp_wf K (sp_of K d d all_rows).
Proof.
  assert (G : forall ja ka ua da, nth_error up ja = Some ua -> nth_error dw ka = Some da -> True) by auto.
  apply sp_of_wf; [unfold all_rows, pairs; now rewrite map_length, prod_length|].
  intros row e Hr He. unfold all_rows, pairs in Hr. apply in_map_iff in Hr.
  destruct Hr as [[sd su] [<- Hp]]. apply in_prod_iff in Hp. destruct Hp as [Hd Hu].
  apply cand_In in Hd. apply cand_In in Hu.
  assert (C : forall f1 f2, in_sector n nup f1 -> in_sector n ndw f2 -> (0 <= col f1 f2 < Z.of_nat d)%Z).
  { intros f1 f2 H1 H2. destruct (idx_cand n nup f1 H1) as [k1 [L1 [_ I1]]].
    destruct (idx_cand n ndw f2 H2) as [k2 [L2 [_ I2]]]. unfold col. rewrite I1, I2. nia. }
  unfold nl_entries in He. cbn [fst snd] in He. apply in_app_iff in He. destruct He as [He|He].
  - apply in_flat_map in He. destruct He as [i [Hi He]]. apply in_seq0 in Hi.
    unfold ex_entries in He. destruct (negb (occ su i) && occ sd i) eqn:Ci; [|destruct He].
    apply in_flat_map in He. destruct He as [e' [He' He]]. apply Trow_In in He'.
    destruct He' as [j [Hj [Hij [_ ->]]]]. cbn [fst snd] in He. cbv zeta in He. rewrite Nat2Z.id in He.
    destruct (occ su j && negb (occ sd j)) eqn:Cj; [|destruct He]. destruct He as [<-|[]]. cbn [fst].
    apply andb_true_iff in Ci. apply andb_true_iff in Cj. rewrite negb_true_iff in Ci, Cj.
    apply C; apply cdgc_in_sector; auto; try apply Hu; try apply Hd; tauto.
  - destruct Jp as [J|]; [|destruct He]. apply in_flat_map in He. destruct He as [i [Hi He]]. apply in_seq0 in Hi.
    unfold pr_entries in He. destruct (negb (occ su i) && negb (occ sd i)) eqn:Ci; [|destruct He].
    apply in_flat_map in He. destruct He as [e' [He' He]]. apply Trow_In in He'.
    destruct He' as [j [Hj [Hij [_ ->]]]]. cbn [fst snd] in He. cbv zeta in He. rewrite Nat2Z.id in He.
    destruct (occ su j && occ sd j) eqn:Cj; [|destruct He]. destruct He as [<-|[]]. cbn [fst].
    apply andb_true_iff in Ci. apply andb_true_iff in Cj. rewrite !negb_true_iff in Ci.
    apply C; apply cdgc_in_sector; auto; try apply Hu; try apply Hd; tauto.
Qed.

Lemma nl_freeze : freeze K (mk K nnz_tot d d all_rows []) = Ok (sp_of K d d all_rows).
Proof.
  apply freeze_mk; [apply all_rows_total|]. unfold all_rows, pairs. now rewrite map_length, prod_length.
Qed.

End Sz.
