(** Proofs about the script ded.py. *)
From Coq Require Import String Reals List Arith NArith ZArith Bool Lia Lra Psatz.
From Verif Require Import Base RBase RLin CBase IntProofs DedModel ParModel ParSpec.
Import ListNotations.
Local Open Scope R_scope.

Add Ring cxr : cx_ring.

(** ** Shares *)
Lemma share_other N size r : (r < size - 1)%nat -> my_N N size r = (N / size)%nat.
Proof. intros H. unfold my_N. destruct (Nat.eqb_spec r (size - 1)); lia. Qed.
Lemma share_last N size : my_N N size (size - 1) = (N / size + N mod size)%nat.
Proof. unfold my_N. now rewrite Nat.eqb_refl. Qed.
Lemma shares_sum N size : (0 < size)%nat -> total_count size (my_N N size) = N.
Proof.
  intros H. unfold total_count. destruct size as [|m]; [lia|]. rewrite seq_S, map_app, list_sum_app. cbn [Nat.add map list_sum fold_right].
  replace (map (my_N N (S m)) (seq 0 m)) with (map (fun _ => (N / S m)%nat) (seq 0 m)) by (apply map_ext_in; intros r Hr; apply in_seq in Hr; symmetry; apply share_other; lia).
  assert (Q : forall l, list_sum (map (fun _ : nat => (N / S m)%nat) l) = (length l * (N / S m))%nat) by (clear; induction l as [|a l IH]; [reflexivity|cbn [map list_sum fold_right length]; change (fold_right Nat.add 0%nat) with list_sum; rewrite IH; cbn [Nat.mul]; reflexivity]).
  rewrite Q, seq_length, Nat.add_0_r. replace (my_N N (S m) m) with (N / S m + N mod S m)%nat by (rewrite <- share_last; f_equal; lia).
  pose proof (Nat.div_mod N (S m) ltac:(lia)) as D. set (q := (N / S m)%nat) in *. set (t := (N mod S m)%nat) in *. clearbody q t. nia.
Qed.
Lemma share_zero N size r : (N < size)%nat -> (r < size - 1)%nat -> my_N N size r = 0%nat.
Proof. intros H Hr. rewrite share_other by auto. now apply Nat.div_small. Qed.

(** ** Random numbers *)
Lemma draws_shared stream n N size r r' t' : (r <= r')%nat -> rank_draw stream n N size r (2 * (N / size) * (r' - r) + t') = rank_draw stream n N size r' t'.
Proof. intros H. unfold rank_draw. apply map_ext. intros i. f_equal. unfold position, my_start. replace r' with (r + (r' - r))%nat at 2 by lia. ring. Qed.
Lemma position_block n N size r t i : (i < n)%nat -> (position n N size r t i / n = 2 * (N / size) * r + t /\ position n N size r t i mod n = i)%nat.
Proof.
  intros Hi. unfold position, my_start. replace (2 * n * (N / size) * r + (t * n + i))%nat with (i + (2 * (N / size) * r + t) * n)%nat by ring.
  rewrite Nat.div_add, Nat.mod_add by lia. rewrite Nat.div_small, Nat.mod_small by auto. lia.
Qed.
Lemma positions_distinct n N size r r' t t' i i' : (t < 2 * (N / size))%nat -> (t' < 2 * (N / size))%nat -> (i < n)%nat -> (i' < n)%nat ->
  position n N size r t i = position n N size r' t' i' -> r = r' /\ t = t' /\ i = i'.
Proof.
  intros Ht Ht' Hi Hi' E. destruct (position_block n N size r t i Hi) as [A B]. destruct (position_block n N size r' t' i' Hi') as [A' B']. rewrite E in A, B.
  rewrite A' in A. rewrite B' in B. set (q := (N / size)%nat) in *. assert (r = r') by nia. subst. split; [reflexivity|]. split; [lia|congruence].
Qed.

(** ** Reduction *)
Section Red.
Variables (size : nat) (solve : nat -> R -> list cx) (sigma0 : R) (len : nat).
Hypothesis Hs : (0 < size)%nat.
Hypothesis HL : forall r, (r < size)%nat -> length (solve r sigma0) = len.
Lemma fold_badd l acc : length acc = len -> (forall x, In x l -> length x = len) -> length (fold_left badd l acc) = len /\
  forall j, (j < len)%nat -> nth j (fold_left badd l acc) (rcx 0) = cxadd (nth j acc (rcx 0)) (csum (length l) (fun t => nth j (nth t l []) (rcx 0))).
Proof.
  revert acc. induction l as [|x l IH]; intros acc LA HX; cbn [fold_left length].
  - split; [exact LA|]. intros j Hj. unfold csum, nsum. apply cx_eq; cbn; ring.
  - assert (LX : length x = len) by (apply HX; now left). assert (LB : length (badd acc x) = len) by (unfold badd; rewrite map_length, combine_length; lia).
    destruct (IH (badd acc x) LB) as [A B]; [intros; apply HX; now right|]. split; [exact A|]. intros j Hj. rewrite B by auto.
    unfold csum at 2. rewrite (nsum_S_l CxRing). change (@nsum CxRing) with csum. change (cadd CxRing) with cxadd. cbn [nth].
    unfold badd. rewrite (nth_indep _ (rcx 0) (cxadd (fst (rcx 0, rcx 0)) (snd (rcx 0, rcx 0)))) by (rewrite map_length, combine_length; lia).
    rewrite (map_nth (fun p : cx * cx => cxadd (fst p) (snd p))), combine_nth by lia. cbn [fst snd]. ring.
Qed.
Lemma root_entry j : (j < len)%nat -> length (root_buffer size solve sigma0) = len /\
  nth j (root_buffer size solve sigma0) (rcx 0) = cxdiv (csum size (fun r => nth j (solve r sigma0) (rcx 0))) (rcx (INR size)).
Proof.
  intros Hj. unfold root_buffer, reduce. destruct (fold_badd (map (fun r => solve r sigma0) (seq 1 (size - 1))) (solve 0%nat sigma0)) as [A B].
  { apply HL; lia. } { intros x Hx. apply in_map_iff in Hx. destruct Hx as (r & <- & Hr). apply in_seq in Hr. apply HL. lia. }
  split; [now rewrite map_length|]. rewrite (nth_indep _ (rcx 0) (cxdiv (rcx 0) (rcx (INR size)))) by (rewrite map_length; lia). rewrite (map_nth (fun x => cxdiv x (rcx (INR size)))).
  rewrite B by auto. f_equal. rewrite map_length, seq_length. destruct size as [|m]; [lia|]. unfold csum at 2. rewrite (nsum_S_l CxRing). change (@nsum CxRing) with csum. change (cadd CxRing) with cxadd.
  f_equal. replace (S m - 1)%nat with m by lia. apply csum_ext. intros t Ht. f_equal.
  rewrite (nth_indep _ [] (solve 0%nat sigma0)) by (rewrite map_length, seq_length; lia). rewrite (map_nth (fun r => solve r sigma0)). now rewrite seq_nth by lia.
Qed.
End Red.
Lemma rcx_nz x : x <> 0 -> cxinv (rcx x) = rcx (/ x).
Proof. intros H. unfold cxinv, rcx, cxn2, re, im. cbn. apply cx_eq; cbn; field; auto. Qed.
Lemma scal_r n c f : csum n (fun i => cxmul (f i) c) = cxmul (csum n f) c.
Proof. transitivity (cxmul c (csum n f)); [|ring]. rewrite <- csum_scal_l. apply csum_ext. intros. ring. Qed.
(** Each rank returns the mean over its samples: the weight of a sample depends on its rank. *)
Lemma weights size cnt x : (0 < size)%nat -> (forall r, (r < size)%nat -> (0 < cnt r)%nat) ->
  cxdiv (csum size (rank_mean cnt x)) (rcx (INR size)) = csum size (fun r => cxmul (rcx (/ (INR size * INR (cnt r)))) (csum (cnt r) (x r))).
Proof.
  intros Hs HC. unfold cxdiv. rewrite <- (scal_r size (cxinv (rcx (INR size)))). apply csum_ext. intros r Hr. unfold rank_mean, cxdiv.
  assert (0 < INR size) by (now apply lt_0_INR). assert (0 < INR (cnt r)) by (apply lt_0_INR, HC; auto).
  rewrite !rcx_nz by lra. rewrite Rinv_mult, rcx_mul. ring.
Qed.
Lemma equal_shares size cnt x q : (0 < size)%nat -> (0 < q)%nat -> (forall r, (r < size)%nat -> cnt r = q) -> cxdiv (csum size (rank_mean cnt x)) (rcx (INR size)) = all_mean size cnt x.
Proof.
  intros Hs Hq HC. rewrite weights by (auto; intros r Hr; rewrite HC; auto). unfold all_mean.
  assert (T : total_count size cnt = (size * q)%nat).
  { unfold total_count. replace (map cnt (seq 0 size)) with (map (fun _ => q) (seq 0 size)) by (apply map_ext_in; intros r Hr; apply in_seq in Hr; symmetry; apply HC; lia).
    assert (Q : forall l, list_sum (map (fun _ : nat => q) l) = (length l * q)%nat) by (clear; induction l as [|a l IH]; [reflexivity|cbn [map list_sum fold_right length]; change (fold_right Nat.add 0%nat) with list_sum; rewrite IH; cbn [Nat.mul]; reflexivity]). now rewrite Q, seq_length. }
  assert (0 < INR size) by (now apply lt_0_INR). assert (0 < INR q) by (now apply lt_0_INR).
  rewrite T, mult_INR. unfold cxdiv. rewrite rcx_nz by nra. rewrite <- scal_r. apply csum_ext. intros r Hr. rewrite (HC r Hr). ring.
Qed.
(** The script's average is that of all samples, for all values, only for equal shares. *)
Theorem average_iff N size : (0 < size)%nat -> (size <= N)%nat ->
  ((forall x, cxdiv (csum size (rank_mean (my_N N size) x)) (rcx (INR size)) = all_mean size (my_N N size) x) <-> (N mod size = 0)%nat).
Proof.
  intros Hs HN. assert (Q0 : (0 < N / size)%nat) by (apply Nat.div_str_pos; lia). split.
  - intros H. destruct (Nat.eq_dec size 1) as [->|]; [apply Nat.mod_1_r|]. specialize (H (fun r _ => if (r =? 0)%nat then rcx 1 else rcx 0)).
    rewrite weights in H; [|auto|intros r Hr; unfold my_N; lia].
    assert (C1 : csum (my_N N size 0) (fun _ => rcx 1) = rcx (INR (N / size))).
    { rewrite share_other by lia. clear. induction (N / size)%nat as [|k IH]; [apply cx_eq; reflexivity|]. unfold csum in *. rewrite (nsum_S CxRing). change (@nsum CxRing) with csum in *. change (cadd CxRing) with cxadd.
      rewrite IH, S_INR. apply cx_eq; unfold rcx, cxadd, re, im; cbn; ring. }
    assert (C0 : forall k, csum k (fun _ => rcx 0) = rcx 0) by (intros k; apply csum_0; reflexivity).
    rewrite (csum_single size _ 0%nat) in H; [|lia|intros i Hi Hn0; destruct (Nat.eqb_spec i 0); [lia|]; rewrite C0; unfold rcx, cxmul; apply cx_eq; cbn; ring].
    cbn [Nat.eqb] in H. rewrite C1 in H. unfold all_mean in H. rewrite (csum_single size _ 0%nat) in H; [|lia|intros i Hi Hn0; destruct (Nat.eqb_spec i 0); [lia|]; apply C0].
    cbn [Nat.eqb] in H. rewrite C1, shares_sum in H by auto. rewrite share_other in H by lia. set (q := (N / size)%nat) in *.
    assert (P1 : 0 < INR size) by (now apply lt_0_INR). assert (P2 : 0 < INR q) by (now apply lt_0_INR). assert (P3 : 0 < INR N) by (apply lt_0_INR; lia).
    unfold cxdiv in H. rewrite rcx_nz in H by lra. rewrite <- !rcx_mul in H. apply (f_equal fst) in H. cbn [rcx fst] in H.
    assert (E : INR N = INR size * INR q).
    { apply (f_equal (fun y => y * (INR N * INR size))) in H. replace (/ (INR size * INR q) * INR q * (INR N * INR size)) with (INR N) in H by (field; split; lra). rewrite H. field. lra. }
    rewrite <- mult_INR in E. apply INR_eq in E. pose proof (Nat.div_mod N size ltac:(lia)) as DM. fold q in DM. lia.
  - intros H x. apply (equal_shares size _ x (N / size)); auto. intros r Hr. unfold my_N. rewrite H. destruct (r =? size - 1)%nat; lia.
Qed.

(** ** The loop *)
Section Loop.
Variables (size : nat) (tol : R) (max_it : nat) (solve : nat -> R -> list cx) (at_fermi : list cx -> R).
Hypothesis Ht : 0 <= tol.
Notation f := (root_eps size solve at_fermi).
Notation run := (rounds size tol max_it solve at_fermi).
Lemma start_on it : goes_on tol max_it it (tol + 1) = (it <? max_it)%nat.
Proof. unfold goes_on. replace (Rltb tol (Rabs (tol + 1))) with true; [apply andb_true_r|]. symmetry. apply Rltb_spec. rewrite Rabs_pos_eq by lra. lra. Qed.
(** [k] more rounds, none of which meets the tolerance before the last. *)
Lemma rounds_go k : forall fuel it s eps, goes_on tol max_it it eps = true -> (it + k <= max_it)%nat -> (forall i, (S i < k)%nat -> tol < Rabs (f (iterate f i s))) ->
  (0 < k)%nat -> run (k + fuel) it s eps (tol + 1) = run fuel (it + k) (iterate f k s) (f (iterate f (k - 1) s)) (tol + 1).
Proof.
  assert (I1 : forall i s, iterate f (S i) s = iterate f i (s + f s)).
  { induction i as [|i IH]; intros s; [reflexivity|]. change (iterate f (S (S i)) s) with (iterate f (S i) s + f (iterate f (S i) s)). rewrite IH. reflexivity. }
  induction k as [|k IH]; intros fuel it s eps G B H P; [lia|]. cbn [Nat.add rounds]. rewrite G, start_on.
  assert (L : (it <? max_it)%nat = true) by (apply Nat.ltb_lt; lia). rewrite L, andb_true_r.
  assert (NX : run (k + fuel) (S it) (s + f s) (f s) (tol + 1) = run fuel (it + S k) (iterate f (S k) s) (f (iterate f (S k - 1) s)) (tol + 1)).
  { destruct k as [|k].
    - cbn [Nat.add Nat.sub iterate]. replace (it + 1)%nat with (S it) by lia. reflexivity.
    - rewrite (IH fuel (S it) (s + f s) (f s)).
      + replace (S it + S k)%nat with (it + S (S k))%nat by lia. replace (S (S k) - 1)%nat with (S k) by lia. replace (S k - 1)%nat with k by lia. rewrite <- !I1. reflexivity.
      + unfold goes_on. rewrite (proj2 (Nat.ltb_lt (S it) max_it)) by lia. cbn [andb]. apply Rltb_spec. specialize (H 0%nat ltac:(lia)). exact H.
      + lia.
      + intros i Hi. rewrite <- I1. apply H. lia.
      + lia. }
  destruct (1 <? size)%nat; exact NX.
Qed.
Lemma start_rounds k s : (0 < k)%nat -> (k <= max_it)%nat -> (forall i, (S i < k)%nat -> tol < Rabs (f (iterate f i s))) ->
  script size tol max_it solve at_fermi s = run (S max_it - k) k (iterate f k s) (f (iterate f (k - 1) s)) (tol + 1).
Proof.
  intros K L H. unfold script. replace (S max_it) with (k + (S max_it - k))%nat at 1 by lia. rewrite rounds_go; auto. rewrite start_on. apply Nat.ltb_lt. lia.
Qed.
(** No convergence before the last allowed round: all ranks do max_it rounds. *)
Theorem script_full s : (0 < max_it)%nat -> (forall i, (S i < max_it)%nat -> tol < Rabs (f (iterate f i s))) -> script size tol max_it solve at_fermi s = Ok (Finished max_it (iterate f max_it s)).
Proof.
  intros P H. rewrite (start_rounds max_it s P (le_n _) H). replace (S max_it - max_it)%nat with 1%nat by lia. cbn [rounds]. unfold goes_on. rewrite Nat.ltb_irrefl. cbn [andb]. now rewrite andb_false_r.
Qed.
(** Convergence in an earlier round [k]: a single rank stops there, several ranks deadlock. *)
Theorem script_converged s k : (0 < k)%nat -> (k < max_it)%nat -> (forall i, (S i < k)%nat -> tol < Rabs (f (iterate f i s))) -> Rabs (f (iterate f (k - 1) s)) <= tol ->
  script size tol max_it solve at_fermi s = Ok (if (1 <? size)%nat then Deadlock k (iterate f k s) else Finished k (iterate f k s)).
Proof.
  intros P L H C. rewrite (start_rounds k s P ltac:(lia) H). replace (S max_it - k)%nat with (S (max_it - k)) by lia. cbn [rounds]. rewrite start_on.
  replace (goes_on tol max_it k (f (iterate f (k - 1) s))) with false.
  2: { symmetry. unfold goes_on. replace (Rltb tol (Rabs (f (iterate f (k - 1) s)))) with false; [apply andb_false_r|]. symmetry. apply Rltb_false. exact C. }
  rewrite (proj2 (Nat.ltb_lt k max_it)) by lia. rewrite andb_true_r. destruct (1 <? size)%nat; reflexivity.
Qed.
Theorem script_none s : max_it = 0%nat -> script size tol max_it solve at_fermi s = Ok (Finished 0 s).
Proof. intros ->. unfold script. cbn [rounds]. unfold goes_on. cbn. now rewrite andb_false_r. Qed.
(** One of the three happens, so the script always ends in one of these ways. *)
Theorem script_cases s : max_it = 0%nat \/ ((0 < max_it)%nat /\ forall i, (S i < max_it)%nat -> tol < Rabs (f (iterate f i s))) \/
  exists k, (0 < k)%nat /\ (k < max_it)%nat /\ (forall i, (S i < k)%nat -> tol < Rabs (f (iterate f i s))) /\ Rabs (f (iterate f (k - 1) s)) <= tol.
Proof.
  destruct max_it as [|M]; [now left|right].
  assert (G : forall m, (forall i, (i < m)%nat -> tol < Rabs (f (iterate f i s))) \/ exists k, (0 < k)%nat /\ (k <= m)%nat /\ (forall i, (S i < k)%nat -> tol < Rabs (f (iterate f i s))) /\ Rabs (f (iterate f (k - 1) s)) <= tol).
  { induction m as [|m [IH|(k & A & B & C & D)]]; [left; intros; lia| |right; exists k; repeat split; auto].
    destruct (Rle_lt_dec (Rabs (f (iterate f m s))) tol) as [D|D].
    - right. exists (S m). split; [lia|]. split; [lia|]. split; [intros i Hi; apply IH; lia|]. now replace (S m - 1)%nat with m by lia.
    - left. intros i Hi. destruct (Nat.eq_dec i m) as [->|]; [exact D|apply IH; lia]. }
  destruct (G M) as [H|(k & A & B & C & D)]; [left; split; [lia|]; intros i Hi; apply H; lia|right; exists k; repeat split; auto; lia].
Qed.
End Loop.
Theorem script_stopped tol max_it solve at_fermi s k s' : 0 <= tol -> (k < max_it)%nat -> script 1 tol max_it solve at_fermi s = Ok (Finished k s') ->
  exists last, s' = last + root_eps 1 solve at_fermi last /\ Rabs (root_eps 1 solve at_fermi last) <= tol.
Proof.
  intros Ht L E. destruct (script_cases 1 tol max_it solve at_fermi s) as [Z|[[P H]|(k' & A & B & C & D)]]; [lia| |].
  - rewrite (script_full 1 tol max_it solve at_fermi Ht s P H) in E. injection E as -> _. lia.
  - rewrite (script_converged 1 tol max_it solve at_fermi Ht s k' A B C D) in E. cbn [Nat.ltb Nat.leb] in E. injection E as <- <-.
    exists (iterate (root_eps 1 solve at_fermi) (k' - 1) s). split; [|exact D]. destruct k' as [|k']; [lia|]. replace (S k' - 1)%nat with k' by lia. reflexivity.
Qed.

(** ** Averages on the root *)
Theorem root_weights N size solve sigma0 len j x : (0 < size)%nat -> (size <= N)%nat -> (forall r, (r < size)%nat -> length (solve r sigma0) = len) -> (j < len)%nat ->
  (forall r, (r < size)%nat -> nth j (solve r sigma0) (rcx 0) = rank_mean (my_N N size) x r) ->
  nth j (root_buffer size solve sigma0) (rcx 0) = csum size (fun r => cxmul (rcx (/ (INR size * INR (my_N N size r)))) (csum (my_N N size r) (x r))).
Proof.
  intros Hs HN HL Hj HM. destruct (root_entry size solve sigma0 len Hs HL j Hj) as [_ E]. rewrite E, (csum_ext size _ _ HM). apply weights; auto.
  intros r Hr. pose proof (Nat.div_str_pos N size ltac:(lia)). unfold my_N. lia.
Qed.
Theorem root_mean_iff N size : (0 < size)%nat -> (size <= N)%nat ->
  ((forall solve sigma0 len j x, (forall r, (r < size)%nat -> length (solve r sigma0) = len) -> (j < len)%nat ->
      (forall r, (r < size)%nat -> nth j (solve r sigma0) (rcx 0) = rank_mean (my_N N size) x r) ->
      nth j (root_buffer size solve sigma0) (rcx 0) = all_mean size (my_N N size) x) <-> (N mod size = 0)%nat).
Proof.
  intros Hs HN. rewrite <- (average_iff N size Hs HN). split.
  - intros H x. specialize (H (fun r _ => [rank_mean (my_N N size) x r]) 0 1%nat 0%nat x ltac:(reflexivity) ltac:(lia) ltac:(reflexivity)). rewrite <- H.
    destruct (root_entry size (fun r _ => [rank_mean (my_N N size) x r]) 0 1 Hs ltac:(reflexivity) 0%nat ltac:(lia)) as [_ E]. now rewrite E.
  - intros H solve sigma0 len j x HL Hj HM. destruct (root_entry size solve sigma0 len Hs HL j Hj) as [_ E]. rewrite E, (csum_ext size _ _ HM). apply H.
Qed.
Theorem few big half eigh eigsh fsolve kB wild n U sigma0 beta zs dos nsamples sigma N size r draws z0 rs : (N < size)%nat -> (r < size - 1)%nat ->
  hd_error zs = Some z0 -> sampler_init dos (re z0) (re (last zs z0)) n nsamples = Ok rs ->
  siam_solve big half eigh eigsh fsolve kB wild n U sigma0 beta zs dos nsamples sigma (my_N N size r) draws = Err ZeroDivisionError.
Proof.
  intros H Hr HZ HI. rewrite share_zero by auto. unfold siam_solve. destruct zs as [|z zs]; [discriminate|]. injection HZ as ->. rewrite HI. cbn [bind]. destruct draws; reflexivity.
Qed.
Theorem eps_value size solve at_fermi s w : (0 < size)%nat -> (forall r, (r < size)%nat -> length (solve r s) = (w + 3)%nat) ->
  root_eps size solve at_fermi s = at_fermi (map (fun j => cxdiv (csum size (fun r => nth j (solve r s) (rcx 0))) (rcx (INR size))) (seq 0 w)).
Proof.
  intros Hs HL. unfold root_eps. f_equal. destruct (root_entry size solve s _ Hs HL 0%nat ltac:(lia)) as [L _]. unfold drop3. rewrite L. replace (w + 3 - 3)%nat with w by lia.
  apply (list_ext _ _ (rcx 0)); [rewrite firstn_length, map_length, seq_length; lia|]. rewrite firstn_length. intros j Hj. assert (Hj' : (j < w)%nat) by lia.
  destruct (root_entry size solve s _ Hs HL j ltac:(lia)) as [_ E].
  rewrite (nth_indep (map _ _) (rcx 0) ((fun j => cxdiv (csum size (fun r => nth j (solve r s) (rcx 0))) (rcx (INR size))) 0%nat)) by (now rewrite map_length, seq_length).
  rewrite (map_nth (fun j => cxdiv (csum size (fun r => nth j (solve r s) (rcx 0))) (rcx (INR size)))), seq_nth by auto. rewrite <- (firstn_skipn w (root_buffer size solve s)), app_nth1 in E by (rewrite firstn_length; lia). exact E.
Qed.
Theorem draw_entries stream n N size r t : length (rank_draw stream n N size r t) = n /\ forall i, (i < n)%nat -> nth i (rank_draw stream n N size r t) 0 = stream (2 * n * (N / size) * r + (t * n + i))%nat.
Proof.
  unfold rank_draw. split; [now rewrite map_length, seq_length|]. intros i Hi. rewrite (nth_indep _ 0 ((fun i => stream (position n N size r t i)) 0%nat)) by (now rewrite map_length, seq_length).
  rewrite (map_nth (fun i => stream (position n N size r t i))), seq_nth by auto. reflexivity.
Qed.
