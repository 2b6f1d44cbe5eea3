(** [nnz_csrmat] by the size of its buffers. *)
From Coq Require Import List Arith NArith ZArith Lia Bool.
From Verif Require Import Base HoppingModel CsrSpec CsrProofs NnzModel NnzSpec.
Import ListNotations.

Section Nnz.
Variable K : CRing.
Variable big : K -> bool.
Local Open Scope cr_scope.
Variables (n nnz : nat) (A : nat -> nat -> K).

Definition ents (i : nat) (l : list nat) : list (Z * K) := map (fun j => (Z.of_nat j, A i j)) (filter (fun j => big (A i j)) l).
Definition frow (i : nat) : list (Z * K) := ents i (seq 0 n).
Definition frows (k : nat) : list (list (Z * K)) := map frow (seq 0 k).

Lemma upd_end {B} (l : list B) x : upd l (length l) x = None.
Proof. induction l; simpl; auto. now rewrite IHl. Qed.

Definition cell (i : nat) (st : nat * csr K) (j : nat) : res (nat * csr K) :=
  let '(count, sp_A) := st in
  if big (A i j) then
    do sp_A <- set_indices K sp_A count (Z.of_nat j);
    do sp_A <- set_data K sp_A count (A i j);
    Ok (S count, sp_A)
  else Ok (count, sp_A).

Lemma row_run i l : forall rows cur, (length (concat rows ++ cur) <= nnz)%nat ->
  foldM (cell i) l (length (concat rows ++ cur), mk K nnz n n rows cur) =
  if (length (concat rows ++ cur) + length (ents i l) <=? nnz)%nat then Ok (length (concat rows ++ (cur ++ ents i l)), mk K nnz n n rows (cur ++ ents i l)) else Err IndexError.
Proof.
  induction l as [|j l IH]; intros rows cur HL.
  - cbn [ents filter map length foldM]. rewrite Nat.add_0_r, (proj2 (Nat.leb_le _ _) HL). unfold ents. cbn. now rewrite !app_nil_r.
  - cbn [foldM]. unfold cell at 1. unfold ents. cbn [filter]. destruct (big (A i j)) eqn:B.
    + destruct (Nat.eq_dec (length (concat rows ++ cur)) nnz) as [E|NE].
      * cbn [map length]. rewrite (proj2 (Nat.leb_gt _ _)) by lia. unfold set_indices, wr, mk at 1. cbn [indices].
        rewrite (E), Nat.sub_diag. cbn [repeat]. rewrite app_nil_r.
        replace nnz with (length (map (fun e : Z * K => Some (fst e)) (concat rows ++ cur))) at 1 by (now rewrite map_length). now rewrite upd_end.
      * pose proof (mk_step_indices K nnz n n rows cur (Z.of_nat j, A i j) ltac:(lia)) as E. cbn [fst snd] in E. rewrite E. cbn [bind].
        rewrite IH by (rewrite app_assoc, app_length; cbn [length]; lia). cbn [map]. fold (ents i l).
        replace (length (concat rows ++ cur ++ [(Z.of_nat j, A i j)]) + length (ents i l))%nat with (length (concat rows ++ cur) + length ((Z.of_nat j, A i j) :: ents i l))%nat by (rewrite !app_length; cbn [length]; lia).
        now rewrite <- (app_assoc cur).
    + cbn [bind]. rewrite IH by exact HL. reflexivity.
Qed.
Definition step (st : nat * csr K) (i : nat) : res (nat * csr K) :=
  let '(count, sp_A) := st in
  let init_count := count in
  do st' <- foldM (cell i) (seq 0 n) (count, sp_A);
  let '(count, sp_A) := st' in
  do p <- rd (indptr K sp_A) i;
  do sp_A <- set_indptr K sp_A (i + 1) (p + (count - init_count));
  Ok (count, sp_A).
Lemma frows_S k : frows (S k) = frows k ++ [frow k].
Proof. unfold frows. now rewrite seq_S, map_app. Qed.
Lemma frows_length k : length (frows k) = k.
Proof. unfold frows. now rewrite map_length, seq_length. Qed.
Lemma len_S k : length (concat (frows (S k))) = (length (concat (frows k)) + length (frow k))%nat.
Proof. rewrite frows_S, concat_app, app_length. cbn. now rewrite app_nil_r. Qed.
Lemma len_mono lo k : (length (concat (frows lo)) <= length (concat (frows (lo + k))))%nat.
Proof. induction k; [now rewrite Nat.add_0_r|]. rewrite Nat.add_succ_r, len_S. lia. Qed.

Lemma rows_run k : forall lo, (lo + k <= n)%nat -> (length (concat (frows lo)) <= nnz)%nat ->
  foldM step (seq lo k) (length (concat (frows lo)), mk K nnz n n (frows lo) []) =
  if (length (concat (frows (lo + k))) <=? nnz)%nat then Ok (length (concat (frows (lo + k))), mk K nnz n n (frows (lo + k)) []) else Err IndexError.
Proof.
  induction k as [|k IH]; intros lo Hn HL; cbn [seq foldM].
  - rewrite Nat.add_0_r, (proj2 (Nat.leb_le _ _) HL). reflexivity.
  - unfold step at 1. pose proof (row_run lo (seq 0 n) (frows lo) []) as E. rewrite app_nil_r in E. rewrite (E HL). fold (frow lo). cbn [app].
    pose proof (len_S lo) as LS. pose proof (len_mono (S lo) k) as LM. replace (S lo + k)%nat with (lo + S k)%nat in LM by lia.
    destruct (Nat.leb_spec (length (concat (frows lo)) + length (frow lo)) nnz) as [H|H]; cbn [bind].
    + pose proof (mk_close K nnz n n (frows lo) (frow lo)) as C. rewrite frows_length in C. specialize (C ltac:(lia)).
      unfold bind at 1 in C. unfold bind at 2. destruct (rd (indptr K (mk K nnz n n (frows lo) (frow lo))) lo); [|discriminate]. rewrite C. cbn [bind].
      rewrite app_length, <- len_S, <- frows_S. rewrite IH by lia. now replace (S lo + k)%nat with (lo + S k)%nat by lia.
    + rewrite (proj2 (Nat.leb_gt _ _)) by lia. reflexivity.
Qed.
Lemma nnz_run : nnz_csrmat K big n A nnz = if (length (concat (frows n)) <=? nnz)%nat then Ok (mk K nnz n n (frows n) []) else Err IndexError.
Proof.
  unfold nnz_csrmat. rewrite mk_empty.
  assert (E : foldM step (seq 0 n) (0%nat, mk K nnz n n [] []) = if (length (concat (frows n)) <=? nnz)%nat then Ok (length (concat (frows n)), mk K nnz n n (frows n) []) else Err IndexError) by (exact (rows_run n 0 (le_n _) (Nat.le_0_l _))).
  change (foldM _ (seq 0 n) _) with (foldM step (seq 0 n) (0%nat, mk K nnz n n [] [])). rewrite E. now destruct (length (concat (frows n)) <=? nnz)%nat.
Qed.
Lemma above_rows : above K big n A = length (concat (frows n)).
Proof.
  unfold above, frows. generalize (seq 0 n) at 1 3. intros l. induction l as [|i l IH]; [reflexivity|].
  cbn [list_prod map concat]. rewrite filter_app, !app_length, IH. f_equal. unfold frow, ents. rewrite map_length, filter_map_length. reflexivity.
Qed.

Lemma nnz_cases : nnz_csrmat K big n A nnz = if (above K big n A <=? nnz)%nat then Ok (mk K nnz n n (frows n) []) else Err IndexError.
Proof. rewrite above_rows. exact nnz_run. Qed.
Lemma nnz_short : (nnz < above K big n A)%nat -> nnz_csrmat K big n A nnz = Err IndexError.
Proof. intros H. rewrite nnz_cases. now rewrite (proj2 (Nat.leb_gt _ _) H). Qed.
Lemma nnz_long : (above K big n A < nnz)%nat -> exists m, nnz_csrmat K big n A nnz = Ok m /\ freeze K m = Err OutOfBounds.
Proof.
  intros H. rewrite nnz_cases, (proj2 (Nat.leb_le _ _)) by lia. eexists. split; [reflexivity|]. rewrite above_rows in H. unfold freeze, mk. cbn [data]. rewrite app_nil_r.
  rewrite <- (map_map snd Some), all_some_hole by lia. reflexivity.
Qed.
Lemma row_entry i j : (j < n)%nat -> bsum (fun e : Z * K => if Z.eqb (fst e) (Z.of_nat j) then snd e else 0) (frow i) = chopped K big A i j.
Proof.
  intros Hj. unfold frow, ents, chopped. rewrite bsum_map, bsum_filter. rewrite (bsum_single K _ (seq 0 n) j).
  - cbn [fst snd]. now rewrite Z.eqb_refl.
  - apply seq_NoDup.
  - apply in_seq. lia.
  - intros k _ N. cbn [fst snd]. destruct (Z.eqb_spec (Z.of_nat k) (Z.of_nat j)) as [E|]; [apply Nat2Z.inj in E; congruence|]. now destruct (big (A i k)).
Qed.
Lemma nnz_exact : nnz = above K big n A -> exists m sp, nnz_csrmat K big n A nnz = Ok m /\ freeze K m = Ok sp /\ sp_wf K sp /\ m_rows K sp = n /\ m_cols K sp = n /\ length (m_data K sp) = nnz /\
  (forall x, In x (m_data K sp) -> big x = true) /\ forall i j, (i < n)%nat -> (j < n)%nat -> sp_get K sp i j = chopped K big A i j.
Proof.
  intros H. rewrite nnz_cases, (proj2 (Nat.leb_le _ _)) by lia. exists (mk K nnz n n (frows n) []), (sp_of K n n (frows n)). rewrite above_rows in H.
  split; [reflexivity|]. split; [apply freeze_mk; [auto|apply frows_length]|].
  split. { apply sp_of_wf; [apply frows_length|]. intros row e HR HE. unfold frows in HR. apply in_map_iff in HR. destruct HR as (i & <- & _). unfold frow, ents in HE. apply in_map_iff in HE. destruct HE as (j & <- & HE). apply filter_In in HE. destruct HE as (HE & _). apply in_seq in HE. cbn [fst]. lia. }
  split; [reflexivity|]. split; [reflexivity|]. split; [cbn [sp_of m_data]; rewrite map_length; auto|]. split.
  - cbn [sp_of m_data]. intros x I. apply in_map_iff in I. destruct I as ([c v] & <- & I). apply in_concat in I. destruct I as (row & HR & HE). apply in_map_iff in HR. destruct HR as (i & <- & _). apply in_map_iff in HE. destruct HE as (j & E & HE). injection E as <- <-. now apply filter_In in HE.
  - intros i j Hi Hj. rewrite (sp_get_rows K n n (frows n) i (frow i) j); [now apply row_entry|]. unfold frows. rewrite nth_error_map, (nth_error_nth' _ 0%nat) by (now rewrite seq_length). now rewrite seq_nth.
Qed.
End Nnz.
