(** Routines that meet the contracts of stebz, stein and stemr. *)
From Coq Require Import Reals List Arith ZArith Bool Permutation Lia Lra Psatz.
From Verif Require Import Base RBase RLin SpectralProofs EighProofs TriSpec TriProofs.
Import ListNotations.
Local Open Scope R_scope.

Lemma filter_le {A} (f g : A -> bool) l : (forall x, In x l -> f x = true -> g x = true) -> (length (filter f l) <= length (filter g l))%nat.
Proof.
  induction l as [|x l IH]; intros H; [reflexivity|]. cbn. pose proof (H x (or_introl eq_refl)) as Hx. specialize (IH (fun y Hy => H y (or_intror Hy))).
  destruct (f x), (g x); cbn; try lia; specialize (Hx eq_refl); discriminate.
Qed.
Lemma filter_lt {A} (f g : A -> bool) l x : (forall x, In x l -> f x = true -> g x = true) -> In x l -> f x = false -> g x = true -> (length (filter f l) < length (filter g l))%nat.
Proof.
  induction l as [|y l IH]; intros H I F G; [destruct I|]. cbn. pose proof (H y (or_introl eq_refl)) as Hy. pose proof (filter_le f g l (fun y Hy => H y (or_intror Hy))) as LE. destruct I as [->|I].
  - rewrite F, G. cbn. lia.
  - specialize (IH (fun y Hy => H y (or_intror Hy)) I F G). destruct (f y), (g y); cbn; try lia; specialize (Hy eq_refl); discriminate.
Qed.
Lemma filter_seq_incr f n : forall s j k, (j < k)%nat -> (k < length (filter f (seq s n)))%nat -> (nth j (filter f (seq s n)) 0 < nth k (filter f (seq s n)) 0)%nat.
Proof.
  induction n as [|n IH]; intros s j k Hj Hk; [cbn in Hk; lia|]. cbn [seq filter] in *. destruct (f s); [|now apply IH]. destruct k as [|k]; [lia|]. cbn [length] in Hk. destruct j as [|j]; cbn [nth].
  - assert (I : In (nth k (filter f (seq (S s) n)) 0%nat) (filter f (seq (S s) n))) by (apply nth_In; lia). apply filter_In, proj1, in_seq in I. lia.
  - apply IH; lia.
Qed.

Section Real.
Variables a b : list R.
Let n := length a.
Let T := tmat a b.
Let M := bound1 n T.
Let c := 2 * M + 1.
(** Blocks pulled apart. *)
Definition lift (i j : nat) : R := T i j + if (i =? j)%nat then c * INR (block b i) else 0.
Let ps := pairs n lift n.
Definition rv (k : nat) : nat -> R := vec_of ps k.
Definition rfirst (k : nat) : nat := match find (fun i => if Req_EM_T (rv k i) 0 then false else true) (seq 0 n) with Some i => i | None => O end.
Definition rblk (k : nat) : nat := block b (rfirst k).
Definition rval (k : nat) : R := val_of ps k - c * INR (rblk k).

Lemma Mpos : 0 <= M. Proof. apply bound1_nonneg. Qed.
Lemma lift_sym : sym n lift.
Proof. intros i j Hi Hj. unfold lift. rewrite (tmat_sym n a b i j Hi Hj : T i j = T j i), (Nat.eqb_sym j i). destruct (Nat.eqb_spec i j) as [->|]; reflexivity. Qed.
Lemma lift_mv u i : (i < n)%nat -> mv n lift u i = mv n T u i + c * INR (block b i) * u i.
Proof.
  intros Hi. unfold mv, lift.
  transitivity (rsum n (fun j => T i j * u j) + rsum n (fun j => (if (i =? j)%nat then c * INR (block b i) else 0) * u j)).
  - rewrite <- rsum_add. apply rsum_ext. intros j _. ring.
  - f_equal. rewrite (rsum_single n _ i Hi); [now rewrite Nat.eqb_refl|]. intros j _ N. destruct (Nat.eqb_spec i j); [lia|ring].
Qed.
Lemma value_bound x u : eigenvector n T x u -> 0 < rsum n (fun i => u i * u i) -> Rabs x <= M.
Proof.
  intros E P. pose proof (qf_bound n T u) as Q. fold M in Q. assert (X : qf n T u = x * dot n u u).
  { unfold qf. transitivity (dot n u (fun i => x * u i)); [apply dot_ext; auto|]. rewrite dot_comm. apply dot_scal. }
  rewrite X, Rabs_mult, (Rabs_right (dot n u u)) in Q by (apply Rle_ge, dot_nonneg). apply (Rmult_le_reg_r (dot n u u)); [exact P|exact Q].
Qed.
Lemma nonzero_norm u i : (i < n)%nat -> u i <> 0 -> 0 < rsum n (fun i => u i * u i).
Proof.
  intros Hi N. apply Rlt_le_trans with (u i * u i); [nra|]. apply (rsum_term_le n (fun i => u i * u i)); [intros; nra|exact Hi].
Qed.
Lemma some_nonzero u : rsum n (fun i => u i * u i) = 1 -> exists i, (i < n)%nat /\ u i <> 0.
Proof.
  intros N. destruct (classic_dec_fin n (fun i => if Req_EM_T (u i) 0 then 1 else 0)) as [(i & Hi & Q)|A].
  - exists i. split; [exact Hi|]. destruct (Req_EM_T _ _); [lra|assumption].
  - exfalso. rewrite rsum_0 in N; [lra|]. intros i Hi. specialize (A i Hi). destruct (Req_EM_T (u i) 0) as [->|]; [ring|lra].
Qed.
Lemma apart p q x y : Rabs x <= M -> Rabs y <= M -> x + c * INR p <= y + c * INR q -> (p <= q)%nat.
Proof.
  intros X Y L. destruct (Nat.le_gt_cases p q) as [|G]; [assumption|]. exfalso. assert (I : INR q + 1 <= INR p) by (rewrite <- S_INR; apply le_INR; lia).
  pose proof Mpos. pose proof (Rle_abs x). pose proof (Rle_abs (- x)). pose proof (Rle_abs y). pose proof (Rle_abs (- y)). rewrite Rabs_Ropp in *. assert (C : c * (INR q + 1) <= c * INR p) by (apply Rmult_le_compat_l; [unfold c; lra|exact I]). unfold c in *. lra.
Qed.
Lemma projected l u p : eigenvector n lift l u -> eigenvector n T (l - c * INR p) (fun i => if (block b i =? p)%nat then u i else 0).
Proof.
  intros E i Hi. specialize (E i Hi). unfold apply_mat in *. change (mv n lift u i = l * u i) in E. rewrite lift_mv in E by auto. destruct (Nat.eqb_spec (block b i) p) as [B|B].
  - transitivity (mv n T u i); [|rewrite B in E; lra]. apply rsum_ext. intros j Hj. destruct (Nat.eqb_spec (block b j) p) as [B'|B']; [reflexivity|]. unfold T. rewrite decoupled by lia. ring.
  - rewrite Rmult_0_r. apply rsum_0. intros j Hj. destruct (Nat.eqb_spec (block b j) p) as [B'|B']; [|ring]. unfold T. rewrite decoupled by lia. ring.
Qed.
Lemma single l u i j : eigenvector n lift l u -> (i < n)%nat -> (j < n)%nat -> u i <> 0 -> u j <> 0 -> block b i = block b j.
Proof.
  intros E Hi Hj Ni Nj. assert (B : forall i, (i < n)%nat -> u i <> 0 -> Rabs (l - c * INR (block b i)) <= M).
  { intros k Hk Nk. apply (value_bound _ _ (projected l u (block b k) E)). apply (nonzero_norm _ k Hk). now rewrite Nat.eqb_refl. }
  pose proof (B i Hi Ni) as Bi. pose proof (B j Hj Nj) as Bj. apply Nat.le_antisymm; [apply (apart _ _ _ _ Bi Bj); lra|apply (apart _ _ _ _ Bj Bi); lra].
Qed.

Lemma rv_ortho : orthonormal n n rv.
Proof. exact (proj1 (pairs_spec n lift n lift_sym (le_n n))). Qed.
Lemma rv_lift k : (k < n)%nat -> eigenvector n lift (val_of ps k) (rv k).
Proof. intros Hk i Hi. exact (proj1 (proj2 (pairs_spec n lift n lift_sym (le_n n))) k i Hk Hi). Qed.
Lemma rv_unit k : (k < n)%nat -> rsum n (fun i => rv k i * rv k i) = 1.
Proof. intros Hk. rewrite (rv_ortho k k Hk Hk). now rewrite Nat.eqb_refl. Qed.
Lemma rfirst_ok k : (k < n)%nat -> (rfirst k < n)%nat /\ rv k (rfirst k) <> 0.
Proof.
  intros Hk. unfold rfirst. destruct (find _ _) as [i|] eqn:F.
  - apply find_some in F. destruct F as [I F]. apply in_seq in I. split; [lia|]. destruct (Req_EM_T _ _); [discriminate|assumption].
  - exfalso. destruct (some_nonzero (rv k) (rv_unit k Hk)) as (i & Hi & N). pose proof (find_none _ _ F i (proj2 (in_seq n 0 i) ltac:(lia))) as Q. cbv beta in Q. destruct (Req_EM_T _ _); [contradiction|discriminate].
Qed.
Lemma rv_inside k : (k < n)%nat -> inside n b (rblk k) (rv k).
Proof.
  intros Hk i Hi B. destruct (Req_EM_T (rv k i) 0) as [|N]; [assumption|]. elim B. destruct (rfirst_ok k Hk) as [F N']. exact (single _ _ i (rfirst k) (rv_lift k Hk) Hi F N N').
Qed.
Lemma rv_eigen k : (k < n)%nat -> eigenvector n T (rval k) (rv k).
Proof.
  intros Hk i Hi. pose proof (rv_lift k Hk i Hi) as E. change (mv n lift (rv k) i = val_of ps k * rv k i) in E. rewrite lift_mv in E by auto. change (mv n T (rv k) i = rval k * rv k i). unfold rval.
  destruct (Nat.eq_dec (block b i) (rblk k)) as [B|B]; [rewrite B in E; lra|]. rewrite (rv_inside k Hk i Hi B) in *. lra.
Qed.
Lemma rval_bound k : (k < n)%nat -> Rabs (rval k) <= M.
Proof. intros Hk. apply (value_bound _ _ (rv_eigen k Hk)). rewrite rv_unit by auto. lra. Qed.

(** Unreduced blocks have simple eigenvalues. *)
Lemma forward x u p r : eigenvector n T x u -> inside n b p u -> block b r = p -> (forall i, (i < r)%nat -> block b i <> p) -> u r = 0 -> forall i, (i < n)%nat -> u i = 0.
Proof.
  intros E I Br MIN U0 i. induction i as [i IH] using lt_wf_ind. intros Hi. destruct (Nat.eq_dec (block b i) p) as [B|B]; [|now apply I].
  destruct (Nat.lt_trichotomy i r) as [Q|[->|Q]]; [elim (MIN _ Q B)|exact U0|]. destruct i as [|i]; [lia|].
  assert (Bi : block b i = p) by (pose proof (block_mono b r i ltac:(lia)); pose proof (block_mono b i (S i) ltac:(lia)); lia).
  assert (Zi : forall j, (j <= i)%nat -> u j = 0) by (intros j Hj; apply IH; lia).
  pose proof (E i ltac:(lia)) as Q'. unfold apply_mat in Q'. rewrite (Zi i) in Q' by lia. rewrite (rsum_single n _ (S i) Hi) in Q'.
  - unfold T, tmat in Q'. rewrite (proj2 (Nat.eqb_neq i (S i))), Nat.eqb_refl in Q' by lia.
    cbn [block] in B. destruct (Req_EM_T (nth i b 0) 0) as [|NZ]; [lia|]. apply (Rmult_eq_reg_l (nth i b 0)); [lra|exact NZ].
  - intros j Hj NJ. destruct (Nat.le_gt_cases j i) as [L|L]; [rewrite (Zi j L); ring|]. unfold T, tmat. rewrite (proj2 (Nat.eqb_neq i j)), (proj2 (Nat.eqb_neq j (S i))), (proj2 (Nat.eqb_neq i (S j))) by lia. ring.
Qed.
Lemma first_row p i : block b i = p -> exists r, (r <= i)%nat /\ block b r = p /\ forall j, (j < r)%nat -> block b j <> p.
Proof.
  induction i as [|i IH]; intros B; [exists O; split; [lia|]; split; [exact B|lia]|]. destruct (Nat.eq_dec (block b i) p) as [Q|Q].
  - destruct (IH Q) as (r & L & H). exists r. split; [lia|exact H].
  - exists (S i). split; [lia|]. split; [exact B|]. intros j Hj Bj. pose proof (block_mono b j i ltac:(lia)). pose proof (block_mono b i (S i) ltac:(lia)). lia.
Qed.
Lemma simple x p u v : eigenvector n T x u -> eigenvector n T x v -> inside n b p u -> inside n b p v ->
  rsum n (fun i => u i * u i) = 1 -> rsum n (fun i => v i * v i) = 1 -> rsum n (fun i => u i * v i) = 0 -> False.
Proof.
  intros Eu Ev Iu Iv Nu Nv O. destruct (some_nonzero u Nu) as (i & Hi & Ni). assert (B : block b i = p) by (destruct (Nat.eq_dec (block b i) p); [assumption|elim Ni; now apply Iu]).
  destruct (first_row p i B) as (r & Lr & Br & MIN).
  assert (W : forall j, (j < n)%nat -> v r * u j + - u r * v j = 0).
  { apply (forward x (fun j => v r * u j + - u r * v j) p r); [|intros j Hj Bj; rewrite (Iu j Hj Bj), (Iv j Hj Bj); ring|exact Br|exact MIN|ring].
    intros j Hj. transitivity (v r * apply_mat n T u j + - u r * apply_mat n T v j); [|rewrite (Eu j Hj), (Ev j Hj); ring].
    unfold apply_mat. rewrite <- !rsum_scal_l, <- rsum_add. apply rsum_ext. intros k _. ring. }
  assert (V0 : v r = 0).
  { transitivity (rsum n (fun j => u j * (v r * u j + - u r * v j))); [|apply rsum_0; intros j Hj; rewrite (W j Hj); ring].
    transitivity (v r * rsum n (fun i => u i * u i) + - u r * rsum n (fun i => u i * v i)); [rewrite Nu, O; ring|]. rewrite <- !rsum_scal_l, <- rsum_add. apply rsum_ext. intros k _. ring. }
  rewrite rsum_0 in Nv; [lra|]. intros j Hj. rewrite (forward x v p r Ev Iv Br MIN V0 j Hj). ring.
Qed.

(** By block and value, strictly. *)
Lemma rlex j k : (j < k)%nat -> (k < n)%nat -> (rblk j < rblk k)%nat \/ rblk j = rblk k /\ rval j < rval k.
Proof.
  intros Hj Hk. assert (L : val_of ps j <= val_of ps k) by (apply (ascending_le (val_of ps) n (proj2 (proj2 (pairs_spec n lift n lift_sym (le_n n))))); lia).
  assert (B : (rblk j <= rblk k)%nat) by (apply (apart _ _ (rval j) (rval k)); [apply rval_bound; lia|apply rval_bound; lia|unfold rval; lra]).
  destruct (Nat.eq_dec (rblk j) (rblk k)) as [E|N]; [right|left; lia]. split; [exact E|]. assert (LE : rval j <= rval k) by (unfold rval; rewrite E; lra).
  destruct (Req_EM_T (rval j) (rval k)) as [Q|Q]; [exfalso|lra].
  apply (simple (rval j) (rblk j) (rv j) (rv k)); [apply rv_eigen; lia|rewrite Q; now apply rv_eigen|apply rv_inside; lia|rewrite E; now apply rv_inside|apply rv_unit; lia|now apply rv_unit|].
  rewrite (rv_ortho j k ltac:(lia) Hk). destruct (Nat.eqb_spec j k); [lia|reflexivity].
Qed.

(** Position in the sorted spectrum. *)
Definition before (j k : nat) : bool := if Rlt_dec (rval j) (rval k) then true else if Req_EM_T (rval j) (rval k) then (j <? k)%nat else false.
Definition rank (k : nat) : nat := length (filter (fun j => before j k) (seq 0 n)).
Lemma before_spec j k : before j k = true <-> rval j < rval k \/ rval j = rval k /\ (j < k)%nat.
Proof.
  unfold before. destruct (Rlt_dec _ _) as [L|L]; [tauto|]. destruct (Req_EM_T _ _) as [E|E].
  - rewrite Nat.ltb_lt. split; [auto|]. intros [?|[_ ?]]; [contradiction|assumption].
  - split; [discriminate|]. intros [?|[? _]]; contradiction.
Qed.
Lemma before_irrefl k : before k k = false.
Proof. destruct (before k k) eqn:E; [|reflexivity]. apply before_spec in E. destruct E as [?|[_ ?]]; [lra|lia]. Qed.
Lemma before_rank j k : (j < n)%nat -> before j k = true -> (rank j < rank k)%nat.
Proof.
  intros Hj B. apply (filter_lt _ _ _ j); [|apply in_seq; lia|apply before_irrefl|exact B]. intros x _ X. rewrite before_spec in *.
  destruct X as [X|[X X']], B as [B|[B B']]; [left; lra|left; lra|left; lra|right; split; [lra|lia]].
Qed.
Lemma before_total j k : j <> k -> before j k = true \/ before k j = true.
Proof. intros N. rewrite !before_spec. destruct (Rtotal_order (rval j) (rval k)) as [?|[?|?]]; [now left; left| |now right; left]. destruct (Nat.lt_total j k) as [?|[?|?]]; [now left; right|contradiction|now right; right]. Qed.
Lemma rank_lt k : (k < n)%nat -> (rank k < n)%nat.
Proof.
  intros Hk. unfold rank. apply Nat.lt_le_trans with (length (filter (fun _ => true) (seq 0 n))).
  - apply (filter_lt _ _ _ k); [auto|apply in_seq; lia|apply before_irrefl|reflexivity].
  - rewrite <- (seq_length n 0) at 2. clear. induction (seq 0 n); cbn; lia.
Qed.
Lemma rank_inj j k : (j < n)%nat -> (k < n)%nat -> rank j = rank k -> j = k.
Proof.
  intros Hj Hk E. destruct (Nat.eq_dec j k) as [|N]; [assumption|]. exfalso. destruct (before_total j k N) as [B|B]; [pose proof (before_rank j k Hj B)|pose proof (before_rank k j Hk B)]; lia.
Qed.
Lemma rank_nodup l : NoDup l -> (forall x, In x l -> (x < n)%nat) -> NoDup (map rank l).
Proof.
  induction l as [|x l IH]; intros N H; [constructor|]. apply NoDup_cons_iff in N. destruct N as [NI N]. cbn. constructor; [|apply IH; [exact N|intros y Hy; apply H; now right]].
  intros I. apply in_map_iff in I. destruct I as (y & E & I). assert (y = x) by (apply rank_inj; [apply H; now right|apply H; now left|exact E]). subst. contradiction.
Qed.
Lemma rank_onto r : (r < n)%nat -> exists k, (k < n)%nat /\ rank k = r.
Proof.
  intros Hr. assert (I : incl (seq 0 n) (map rank (seq 0 n))).
  { apply NoDup_length_incl; [|rewrite map_length; lia|].
    - apply rank_nodup; [apply seq_NoDup|]. intros x Hx. apply in_seq in Hx. lia.
    - intros y Hy. apply in_map_iff in Hy. destruct Hy as (x & <- & Hx). apply in_seq in Hx. apply in_seq. pose proof (rank_lt x ltac:(lia)). lia. }
  specialize (I r (proj2 (in_seq n 0 r) ltac:(lia))). apply in_map_iff in I. destruct I as (k & E & Hk). apply in_seq in Hk. exists k. split; [lia|exact E].
Qed.
Definition unrank (r : nat) : nat := match find (fun k => rank k =? r)%nat (seq 0 n) with Some k => k | None => O end.
Lemma unrank_spec r : (r < n)%nat -> (unrank r < n)%nat /\ rank (unrank r) = r.
Proof.
  intros Hr. unfold unrank. destruct (find _ _) as [k|] eqn:F.
  - apply find_some in F. destruct F as [I F]. apply in_seq in I. apply Nat.eqb_eq in F. split; [lia|exact F].
  - exfalso. destruct (rank_onto r Hr) as (k & Hk & E). pose proof (find_none _ _ F k (proj2 (in_seq n 0 k) ltac:(lia))) as Q. cbv beta in Q. apply Nat.eqb_neq in Q. contradiction.
Qed.
Lemma unrank_rank k : (k < n)%nat -> unrank (rank k) = k.
Proof. intros Hk. destruct (unrank_spec (rank k) (rank_lt k Hk)) as [L E]. now apply rank_inj. Qed.
Definition sorted_value (r : nat) : R := rval (unrank r).
Lemma sorted_spectrum : spectrum n T sorted_value.
Proof.
  split.
  - intros j k L Hk. destruct (unrank_spec j ltac:(lia)) as [Lj Ej]. destruct (unrank_spec k Hk) as [Lk Ek]. unfold sorted_value. destruct (Rle_lt_dec (rval (unrank j)) (rval (unrank k))) as [|G]; [assumption|].
    exfalso. pose proof (before_rank (unrank k) (unrank j) Lk (proj2 (before_spec _ _) (or_introl G))). lia.
  - exists (fun r => rv (unrank r)). split.
    + intros j k Hj Hk. destruct (unrank_spec j Hj) as [Lj Ej]. destruct (unrank_spec k Hk) as [Lk Ek]. rewrite (rv_ortho _ _ Lj Lk). destruct (Nat.eqb_spec j k) as [->|N]; [now rewrite Nat.eqb_refl|]. destruct (Nat.eqb_spec (unrank j) (unrank k)) as [Q|]; [|reflexivity]. elim N. now rewrite <- Ej, <- Ek, Q.
    + intros k Hk. apply rv_eigen. now apply unrank_spec.
Qed.
Definition chosen (lo m : nat) : list nat := filter (fun k => (lo <=? rank k) && (rank k <? lo + m))%nat (seq 0 n).
Lemma chosen_in lo m k : In k (chosen lo m) <-> (k < n)%nat /\ (lo <= rank k < lo + m)%nat.
Proof. unfold chosen. rewrite filter_In, in_seq, andb_true_iff, Nat.leb_le, Nat.ltb_lt. split; intros; lia. Qed.
Lemma chosen_ranks lo m : (lo + m <= n)%nat -> Permutation (map rank (chosen lo m)) (seq lo m).
Proof.
  intros L. apply NoDup_Permutation; [|apply seq_NoDup|].
  - apply rank_nodup; [apply NoDup_filter, seq_NoDup|]. intros x Hx. now apply chosen_in in Hx.
  - intros r. rewrite in_map_iff, in_seq. split.
    + intros (k & <- & I). apply chosen_in in I. lia.
    + intros H. destruct (rank_onto r ltac:(lia)) as (k & Hk & E). exists k. split; [exact E|]. apply chosen_in. lia.
Qed.
Lemma chosen_length lo m : (lo + m <= n)%nat -> length (chosen lo m) = m.
Proof. intros L. rewrite <- (map_length rank), (Permutation_length (chosen_ranks lo m L)). apply seq_length. Qed.
Lemma chosen_values lo m : (lo + m <= n)%nat -> Permutation (map rval (chosen lo m)) (map sorted_value (seq lo m)).
Proof.
  intros L. rewrite <- (chosen_ranks lo m L), map_map. rewrite (map_ext_in rval (fun k => sorted_value (rank k))); [reflexivity|].
  intros k I. apply chosen_in in I. unfold sorted_value. now rewrite unrank_rank by lia.
Qed.
(** Every eigenvalue of a block is found. *)
Lemma complete p x : block_value a b p x -> exists k, (k < n)%nat /\ rblk k = p /\ rval k = x.
Proof.
  intros (u & I & N & E). fold n in I, N, E. fold T in E.
  assert (EL : eigenvector n lift (x + c * INR p) u).
  { intros i Hi. change (mv n lift u i = (x + c * INR p) * u i). rewrite lift_mv by auto. replace (mv n T u i) with (x * u i) by (symmetry; exact (E i Hi)).
    destruct (Nat.eq_dec (block b i) p) as [->|B]; [ring|]. rewrite (I i Hi B). ring. }
  destruct (classic_dec_fin n (fun k => if Req_EM_T (dot n (rv k) u) 0 then 1 else 0)) as [(k & Hk & Q)|A].
  - destruct (Req_EM_T (dot n (rv k) u) 0) as [|NZ]; [lra|].
    assert (V : val_of ps k = x + c * INR p) by (destruct (Req_EM_T (val_of ps k) (x + c * INR p)) as [|D]; [assumption|]; elim NZ; exact (eigen_orthogonal n lift _ _ _ _ lift_sym (rv_lift k Hk) EL D)).
    assert (BX : Rabs x <= M) by (apply (value_bound x u E); lra). pose proof (rval_bound k Hk) as BK.
    assert (W : rval k + c * INR (rblk k) = x + c * INR p) by (unfold rval; lra).
    assert (P : rblk k = p) by (apply Nat.le_antisymm; [apply (apart _ _ (rval k) x)|apply (apart _ _ x (rval k))]; auto; lra).
    exists k. split; [exact Hk|]. split; [exact P|]. rewrite P in W. lra.
  - exfalso. assert (Z : forall k, (k < n)%nat -> dot n (rv k) u = 0) by (intros k Hk; specialize (A k Hk); destruct (Req_EM_T _ _); [assumption|lra]).
    destruct (some_nonzero u N) as (i & Hi & NZ). apply NZ.
    transitivity (rsum n (fun j => u j * rsum n (fun k => rv k j * rv k i))).
    + rewrite (rsum_single n _ i Hi).
      * rewrite (orthonormal_complete n n rv rv_ortho eq_refl i i Hi Hi), Nat.eqb_refl. ring.
      * intros j Hj NJ. rewrite (orthonormal_complete n n rv rv_ortho eq_refl j i Hj Hi). destruct (Nat.eqb_spec j i); [contradiction|ring].
    + transitivity (rsum n (fun k => dot n (rv k) u * rv k i)); [|apply rsum_0; intros k Hk; rewrite (Z k Hk); ring].
      transitivity (rsum n (fun j => rsum n (fun k => u j * (rv k j * rv k i)))); [apply rsum_ext; intros; symmetry; apply rsum_scal_l|]. rewrite rsum_swap. apply rsum_ext. intros k _. unfold dot. rewrite <- rsum_scal_r. apply rsum_ext. intros j _. ring.
Qed.
Definition rvec (p : nat) (x : R) : nat -> R :=
  match find (fun k => (rblk k =? p)%nat && if Req_EM_T (rval k) x then true else false) (seq 0 n) with Some k => rv k | None => fun _ => 0 end.
Lemma rvec_spec p x : block_value a b p x -> inside n b p (rvec p x) /\ rsum n (fun i => rvec p x i * rvec p x i) = 1 /\ eigenvector n T x (rvec p x).
Proof.
  intros B. unfold rvec. destruct (find _ _) as [k|] eqn:F.
  - apply find_some in F. destruct F as [I F]. apply in_seq in I. apply andb_true_iff in F. destruct F as [F1 F2]. apply Nat.eqb_eq in F1. destruct (Req_EM_T _ _) as [F3|]; [|discriminate]. subst.
    split; [apply rv_inside; lia|]. split; [apply rv_unit; lia|apply rv_eigen; lia].
  - exfalso. destruct (complete p x B) as (k & Hk & <- & <-). pose proof (find_none _ _ F k (proj2 (in_seq n 0 k) ltac:(lia))) as Q. cbv beta in Q. rewrite Nat.eqb_refl in Q. destruct (Req_EM_T _ _); [discriminate|congruence].
Qed.
End Real.

Definition real_stebz (a b : list R) (il iu : Z) (bb : bool) : nat * list R * list nat * list nat :=
  let lo := Z.to_nat (il - 1) in let m := (Z.to_nat iu - lo)%nat in
  if bb then (m, map (rval a b) (chosen a b lo m), map (rblk a b) (chosen a b lo m), []) else (m, map (sorted_value a b) (seq lo m), map (fun _ => 1%nat) (seq lo m), []).
Definition real_stein (a b w : list R) (ib sp : list nat) : list (list R) :=
  map (fun i => map (fun k => rvec a b (nth k ib 0%nat) (nth k w 0) i) (seq 0 (length w))) (seq 0 (length a)).
Definition real_stemr (a b_ : list R) (vecs : bool) : list R * list (list R) :=
  let b := removelast b_ in
  (map (sorted_value a b) (seq 0 (length a)), map (fun i => map (fun r => rv a b (unrank a b r) i) (seq 0 (length a))) (seq 0 (length a))).

Lemma nth_map_seq {A} (f : nat -> A) s m k d : (k < m)%nat -> nth k (map f (seq s m)) d = f (s + k)%nat.
Proof. intros H. rewrite (nth_indep _ d (f O)) by (rewrite map_length, seq_length; lia). now rewrite map_nth, seq_nth by lia. Qed.
Lemma nth_map {A B} (f : A -> B) l k d d' : (k < length l)%nat -> nth k (map f l) d = f (nth k l d').
Proof. intros H. rewrite (nth_indep _ d (f d')) by (rewrite map_length; lia). apply map_nth. Qed.

Lemma real_stebz_contract : stebz_contract real_stebz.
Proof.
  intros a b n lo m bb [La Lb] Hm Hl. subst n. unfold real_stebz. replace (Z.to_nat (Z.of_nat lo + 1 - 1)) with lo by lia. replace (Z.to_nat (Z.of_nat (lo + m)) - lo)%nat with m by lia.
  destruct bb.
  - assert (LC : length (chosen a b lo m) = m) by (now apply chosen_length). eexists. eexists. eexists. exists (sorted_value a b). split; [reflexivity|]. split; [apply sorted_spectrum|].
    rewrite !map_length, LC. split; [lia|]. split; [lia|].
    assert (IN : forall k, (k < m)%nat -> (nth k (chosen a b lo m) 0 < length a)%nat).
    { intros k Hk. assert (I : In (nth k (chosen a b lo m) 0%nat) (chosen a b lo m)) by (apply nth_In; lia). now apply chosen_in in I. }
    split; [rewrite firstn_all2 by (rewrite map_length; lia); now apply chosen_values|]. split.
    + intros k Hk. rewrite (nth_map (rblk a b) _ k _ 0%nat), (nth_map (rval a b) _ k _ 0%nat) by lia. exists (rv a b (nth k (chosen a b lo m) 0%nat)).
      split; [apply rv_inside; auto|]. split; [apply rv_unit; auto|apply rv_eigen; auto].
    + intros j k Hj Hk. rewrite !(nth_map (rblk a b) _ _ _ 0%nat), !(nth_map (rval a b) _ _ _ 0%nat) by lia. apply rlex; [|auto]. apply filter_seq_incr; [exact Hj|]. fold (chosen a b lo m). lia.
  - eexists. eexists. eexists. exists (sorted_value a b). split; [reflexivity|]. split; [apply sorted_spectrum|]. rewrite !map_length, !seq_length. split; [lia|]. split; [lia|]. apply firstn_all2. rewrite map_length, seq_length. lia.
Qed.
Lemma real_stein_contract : stein_contract real_stein.
Proof.
  intros a b n w ib sp [La Lb] Li BV BB v. subst n. split; [unfold v, real_stein; now rewrite map_length, seq_length|]. split.
  - intros r Hr. unfold v, real_stein in Hr. apply in_map_iff in Hr. destruct Hr as (i & <- & _). now rewrite map_length, seq_length.
  - intros k Hk c. assert (C : forall i, (i < length a)%nat -> c i = rvec a b (nth k ib 0%nat) (nth k w 0) i).
    { intros i Hi. unfold c, v, real_stein. now rewrite nth_map_seq, nth_map_seq by lia. }
    destruct (rvec_spec a b _ _ (BV k Hk)) as (I & N & E). split; [|split].
    + intros i Hi B. rewrite C by auto. now apply I.
    + rewrite <- N. apply rsum_ext. intros i Hi. now rewrite C.
    + intros i Hi. rewrite C by auto. rewrite <- (E i Hi). apply rsum_ext. intros j Hj. now rewrite C.
Qed.
Lemma real_stemr_contract : stemr_contract real_stemr.
Proof.
  intros a b g n vecs [La Lb]. subst n. unfold real_stemr. rewrite removelast_last. eexists. eexists. split; [reflexivity|]. rewrite map_length, seq_length. split; [reflexivity|].
  assert (V : forall k, (k < length a)%nat -> nth k (map (sorted_value a b) (seq 0 (length a))) 0 = sorted_value a b k) by (intros k Hk; now rewrite nth_map_seq).
  pose proof (sorted_spectrum a b) as S. split; [intros j k Hj Hk; rewrite !V by lia; now apply (proj1 S)|]. split; [exists (sorted_value a b); split; [exact S|exact V]|]. intros _.
  assert (C : forall k i, (k < length a)%nat -> (i < length a)%nat -> nth k (nth i (map (fun i => map (fun r => rv a b (unrank a b r) i) (seq 0 (length a))) (seq 0 (length a))) []) 0 = rv a b (unrank a b k) i).
  { intros k i Hk Hi. now rewrite nth_map_seq, nth_map_seq by lia. }
  split; [now rewrite map_length, seq_length|]. split; [intros r Hr; apply in_map_iff in Hr; destruct Hr as (i & <- & _); now rewrite map_length, seq_length|]. split.
  - intros j k Hj Hk. transitivity (rsum (length a) (fun i => rv a b (unrank a b j) i * rv a b (unrank a b k) i)); [apply rsum_ext; intros i Hi; now rewrite !C|].
    destruct (unrank_spec a b j Hj) as [Lj Ej]. destruct (unrank_spec a b k Hk) as [Lk Ek]. rewrite (rv_ortho a b _ _ Lj Lk). destruct (Nat.eqb_spec j k) as [->|N]; [now rewrite Nat.eqb_refl|]. destruct (Nat.eqb_spec (unrank a b j) (unrank a b k)) as [Q|]; [|reflexivity]. elim N. now rewrite <- Ej, <- Ek, Q.
  - intros k Hk i Hi. rewrite V, C by auto. unfold sorted_value. rewrite <- (rv_eigen a b (unrank a b k) (proj1 (unrank_spec a b k Hk)) i Hi). apply rsum_ext. intros j Hj. now rewrite C.
Qed.
