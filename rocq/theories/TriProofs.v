(** Proofs about the diagonalisation of tridiagonal matrices. *)
From Coq Require Import Reals List Arith ZArith Bool Permutation Lia Lra Psatz.
From Verif Require Import Base RBase RLin LanczosModel LanczosSpec SpectralProofs EighProofs TriModel TriSpec.
Import ListNotations.
Local Open Scope R_scope.

Lemma tmat_sym n a b : sym n (tmat a b).
Proof.
  intros i j _ _. unfold tmat. rewrite (Nat.eqb_sym j i). destruct (Nat.eqb_spec i j) as [->|N]; [reflexivity|].
  destruct (Nat.eqb_spec j (S i)), (Nat.eqb_spec i (S j)); try lia; reflexivity.
Qed.
Lemma tmat_tri a b i j : @tri RField a (0 :: b) i j = tmat a b i j.
Proof.
  unfold tri, tmat. destruct (i =? j)%nat eqn:E; [reflexivity|]. destruct (Nat.eqb_spec j (S i)) as [->|]; [reflexivity|]. destruct (Nat.eqb_spec i (S j)) as [->|]; reflexivity.
Qed.

Lemma block_mono b i j : (i <= j)%nat -> (block b i <= block b j)%nat.
Proof. induction 1; [lia|]. cbn [block]. destruct (Req_EM_T _ _); lia. Qed.
Lemma block_next b i : block b (S i) = block b i \/ block b (S i) = S (block b i) /\ nth i b 0 = 0.
Proof. cbn [block]. destruct (Req_EM_T _ _); [right|left]; [split; [lia|assumption]|lia]. Qed.
(** The matrix does not couple different blocks. *)
Lemma decoupled a b i j : block b i <> block b j -> tmat a b i j = 0.
Proof.
  intros N. unfold tmat. destruct (Nat.eqb_spec i j) as [->|]; [now elim N|].
  destruct (Nat.eqb_spec j (S i)) as [->|]; [destruct (block_next b i) as [E|[_ Z]]; [now elim N|exact Z]|].
  destruct (Nat.eqb_spec i (S j)) as [->|]; [destruct (block_next b j) as [E|[_ Z]]; [now elim N|exact Z]|reflexivity].
Qed.

(** Eigenvectors of different eigenvalues are orthogonal. *)
Lemma eigen_orthogonal n A x y u v : sym n A -> eigenvector n A x u -> eigenvector n A y v -> x <> y -> rsum n (fun i => u i * v i) = 0.
Proof.
  intros S U V N. assert (E : dot n u (mv n A v) = dot n (mv n A u) v) by now apply mv_sym.
  assert (E1 : dot n u (mv n A v) = y * dot n u v).
  { transitivity (dot n u (fun i => y * v i)); [apply dot_ext; auto|]. rewrite dot_comm, dot_scal, dot_comm. reflexivity. }
  assert (E2 : dot n (mv n A u) v = x * dot n u v).
  { transitivity (dot n (fun i => x * u i) v); [apply dot_ext; auto|]. apply dot_scal. }
  change (dot n u v = 0). rewrite E1, E2 in E. apply (Rmult_eq_reg_l (y - x)); [|lra]. lra.
Qed.
Lemma inside_orthogonal n b p q u v : inside n b p u -> inside n b q v -> p <> q -> rsum n (fun i => u i * v i) = 0.
Proof.
  intros U V N. apply rsum_0. intros i Hi. destruct (Nat.eq_dec (block b i) p) as [E|E].
  - rewrite (V i Hi) by lia. ring.
  - rewrite (U i Hi E). ring.
Qed.

Lemma ascending_first n A e : spectrum n A e -> (0 < n)%nat -> forall x, e 0%nat * rsum n (fun i => x i * x i) <= rsum n (fun i => x i * apply_mat n A x i).
Proof.
  intros [AS [v [OV EV]]] Hn x. apply (spectral_bound n A v e (e O) x); [exact OV| |].
  - intros k i Hk Hi. exact (EV k Hk i Hi).
  - intros k Hk. apply AS; lia.
Qed.

Lemma tri_eigen_make (a b w : list R) (U : list (list R)) n m : length a = n -> length w = m -> length U = n -> (forall r, In r U -> length r = m) ->
  (forall i j, (i < m)%nat -> (j < m)%nat -> rsum n (fun k => nth i (nth k U []) 0 * nth j (nth k U []) 0) = if (i =? j)%nat then 1 else 0) ->
  (forall i, (i < m)%nat -> eigenvector n (tmat a b) (nth i w 0) (fun k => nth i (nth k U []) 0)) -> @tri_eigen RField a b w U.
Proof.
  intros <- <- LU LR ON EV. split; [exact LU|]. split; [exact LR|]. split; [exact ON|]. intros i j Hi Hj.
  transitivity (rsum (length a) (fun k => tmat a b j k * nth i (nth k U []) 0)); [|exact (EV i Hi j Hj)].
  apply rsum_ext. intros k Hk. now rewrite tmat_tri.
Qed.
Lemma tri_eigen_elim (a b w : list R) (U : list (list R)) n m : length a = n -> length w = m -> @tri_eigen RField a b w U ->
  (forall i j, (i < m)%nat -> (j < m)%nat -> rsum n (fun k => nth i (nth k U []) 0 * nth j (nth k U []) 0) = if (i =? j)%nat then 1 else 0) /\
  (forall i, (i < m)%nat -> eigenvector n (tmat a b) (nth i w 0) (fun k => nth i (nth k U []) 0)).
Proof.
  intros <- <- (LU & LR & ON & EV). split; [exact ON|]. intros i Hi j Hj. unfold apply_mat.
  transitivity (rsum (length a) (fun k => @tri RField a (0 :: b) j k * nth i (nth k U []) 0)); [|exact (EV i j Hi Hj)].
  apply rsum_ext. intros k Hk. now rewrite tmat_tri.
Qed.

Section Contracts.
Variables (stebz : list R -> list R -> Z -> Z -> bool -> nat * list R * list nat * list nat)
  (stein : list R -> list R -> list R -> list nat -> list nat -> list (list R)) (stemr : list R -> list R -> bool -> list R * list (list R)) (garbage : R).
Hypothesis SB : stebz_contract stebz.
Hypothesis SI : stein_contract stein.
Hypothesis SM : stemr_contract stemr.
Notation part := (solve_partial stebz stein).
Notation eigt := (eigh_tridiagonal stebz stein stemr garbage).

(** Eigenvalues alone: the requested slice of the spectrum. *)
Lemma partial_values a b n lo m : tshape a b n -> (0 < m)%nat -> (lo + m <= n)%nat ->
  exists e, spectrum n (tmat a b) e /\ eigt a b 2 (Z.of_nat lo, Z.of_nat (lo + m) - 1)%Z true = Ok (Vals (map e (seq lo m))).
Proof.
  intros TS Hm Hl. destruct (SB a b n lo m false TS Hm Hl) as (w & ib & sp & e & E & S & _ & _ & F). exists e. split; [exact S|].
  unfold eigh_tridiagonal, solve_partial. cbn [negb orb Z.eqb fst snd]. replace (Z.of_nat (lo + m) - 1 + 1)%Z with (Z.of_nat (lo + m)) by lia. rewrite E. cbn. now rewrite F.
Qed.

(** With eigenvectors: eigenpairs of the requested slice, by blocks. *)
Lemma partial_pairs a b n lo m : tshape a b n -> (0 < m)%nat -> (lo + m <= n)%nat ->
  exists e w ib U, spectrum n (tmat a b) e /\ eigt a b 2 (Z.of_nat lo, Z.of_nat (lo + m) - 1)%Z false = Ok (Pairs w U) /\
    Permutation w (map e (seq lo m)) /\ @tri_eigen RField a b w U /\ by_block m ib w /\
    forall k, (k < m)%nat -> inside n b (nth k ib 0%nat) (fun i => nth k (nth i U []) 0).
Proof.
  intros TS Hm Hl. destruct (SB a b n lo m true TS Hm Hl) as (w & ib & sp & e & E & S & Lw & Li & P & BV & BB).
  assert (L : length (firstn m w) = m) by (rewrite firstn_length; lia).
  assert (NW : forall k, (k < m)%nat -> nth k (firstn m w) 0 = nth k w 0).
  { intros k Hk. rewrite <- (firstn_skipn m w) at 2. now rewrite app_nth1 by lia. }
  assert (BB' : by_block (length (firstn m w)) ib (firstn m w)).
  { intros j k Hj Hk. rewrite L in Hk. rewrite !NW by lia. apply BB; lia. }
  assert (BV' : forall k, (k < length (firstn m w))%nat -> block_value a b (nth k ib 0%nat) (nth k (firstn m w) 0)) by (intros k Hk; rewrite L in Hk; rewrite NW by lia; now apply BV).
  destruct (SI a b n (firstn m w) ib sp TS ltac:(lia) BV' BB') as (LV & LR & COL). set (v := stein a b (firstn m w) ib sp) in *.
  assert (FV : map (firstn m) v = v).
  { rewrite <- (map_id v) at 2. apply map_ext_in. intros r Hr. apply firstn_all2. rewrite (LR r Hr). lia. }
  exists e, (firstn m w), ib, v. split; [exact S|]. split.
  { unfold eigh_tridiagonal, solve_partial. cbn [negb orb Z.eqb fst snd]. replace (Z.of_nat (lo + m) - 1 + 1)%Z with (Z.of_nat (lo + m)) by lia. rewrite E. cbn. now fold v; rewrite FV. }
  split; [exact P|]. split; [|split; [now rewrite L in BB'|intros k Hk; apply (COL k); lia]]. rewrite L in *.
  apply (tri_eigen_make a b _ v n m (proj1 TS) L LV LR).
  - intros i j Hi Hj. destruct (Nat.eqb_spec i j) as [->|N]; [apply (COL j Hj)|].
    destruct (COL i Hi) as (Ii & _ & Ei). destruct (COL j Hj) as (Ij & _ & Ej).
    destruct (Nat.eq_dec (nth i ib 0%nat) (nth j ib 0%nat)) as [EB|NB].
    + apply (eigen_orthogonal n (tmat a b) (nth i (firstn m w) 0) (nth j (firstn m w) 0)); [apply tmat_sym|exact Ei|exact Ej|].
      destruct (Nat.lt_total i j) as [Q|[Q|Q]]; [|contradiction|]; [destruct (BB' i j Q Hj)|destruct (BB' j i Q Hi)]; lia || lra.
    + exact (inside_orthogonal n b _ _ _ _ Ii Ij NB).
  - intros i Hi. apply (COL i Hi).
Qed.

(** Ascending lists with the same elements. *)
Lemma sorted_perm (l l' : list R) : Permutation l l' -> (forall j k, (j <= k)%nat -> (k < length l)%nat -> nth j l 0 <= nth k l 0) ->
  (forall j k, (j <= k)%nat -> (k < length l')%nat -> nth j l' 0 <= nth k l' 0) -> l = l'.
Proof.
  revert l'. induction l as [|x l IH]; intros l' P A B; [apply Permutation_nil in P; now subst|].
  destruct l' as [|y l']; [symmetry in P; apply Permutation_nil in P; discriminate|].
  assert (XY : x = y).
  { apply Rle_antisym.
    - assert (I : In y (x :: l)) by (eapply Permutation_in; [symmetry; exact P|left; reflexivity]). destruct (In_nth _ _ 0 I) as (k & Hk & <-). apply (A O k); [lia|exact Hk].
    - assert (I : In x (y :: l')) by (eapply Permutation_in; [exact P|left; reflexivity]). destruct (In_nth _ _ 0 I) as (k & Hk & <-). apply (B O k); [lia|exact Hk]. }
  subst y. f_equal. apply IH; [eapply Permutation_cons_inv; exact P| |].
  - intros j k H H'. apply (A (S j) (S k)); cbn; lia.
  - intros j k H H'. apply (B (S j) (S k)); cbn; lia.
Qed.
Lemma slice_sorted n A e lo m : spectrum n A e -> (lo + m <= n)%nat -> forall j k, (j <= k)%nat -> (k < m)%nat -> nth j (map e (seq lo m)) 0 <= nth k (map e (seq lo m)) 0.
Proof.
  intros [AS _] L j k H H'. rewrite !(nth_indep _ 0 (e O)) by (rewrite map_length, seq_length; lia). rewrite !map_nth, !seq_nth by lia. apply AS; lia.
Qed.

(** Without vanishing off-diagonal elements the eigenvalues come in ascending order. *)
Lemma unreduced a b n lo m : tshape a b n -> (0 < m)%nat -> (lo + m <= n)%nat -> (forall i, (S i < n)%nat -> nth i b 0 <> 0) ->
  exists e U, spectrum n (tmat a b) e /\ eigt a b 2 (Z.of_nat lo, Z.of_nat (lo + m) - 1)%Z false = Ok (Pairs (map e (seq lo m)) U) /\ @tri_eigen RField a b (map e (seq lo m)) U.
Proof.
  intros TS Hm Hl NZ. destruct (partial_pairs a b n lo m TS Hm Hl) as (e & w & ib & U & S & E & P & TE & BB & INS).
  assert (Lw : length w = m) by (rewrite (Permutation_length P), map_length; apply seq_length).
  assert (ONE : forall i, (i < n)%nat -> block b i = 1%nat).
  { induction i as [|i IH]; intros Hi; [reflexivity|]. cbn [block]. rewrite IH by lia. destruct (Req_EM_T _ _) as [Z|_]; [elim (NZ i Hi Z)|reflexivity]. }
  assert (IB : forall k, (k < m)%nat -> nth k ib 0%nat = 1%nat).
  { intros k Hk. destruct (Nat.eq_dec (nth k ib 0%nat) 1) as [|N]; [assumption|]. exfalso.
    destruct (tri_eigen_elim a b w U n m (proj1 TS) Lw TE) as (ON & _). specialize (ON k k Hk Hk). rewrite Nat.eqb_refl in ON.
    rewrite rsum_0 in ON; [lra|]. intros i Hi. assert (Q : nth k (nth i U []) 0 = 0) by (apply (INS k Hk i Hi); rewrite ONE by auto; lia). rewrite Q. ring. }
  assert (W : w = map e (seq lo m)).
  { apply sorted_perm; [exact P| |].
    - intros j k Hj Hk. rewrite Lw in Hk. destruct (Nat.eq_dec j k) as [->|N]; [lra|]. destruct (BB j k ltac:(lia) Hk) as [Q|[_ Q]]; [rewrite !IB in Q by lia; lia|lra].
    - intros j k Hj Hk. rewrite map_length, seq_length in Hk. now apply (slice_sorted n (tmat a b)). }
  subst w. exists e, U. auto.
Qed.

(** A diagonal matrix comes back in the order of its diagonal. *)
Lemma diagonal a b n : tshape a b n -> (forall i, (S i < n)%nat -> nth i b 0 = 0) ->
  exists U, eigt a b 2 (0, Z.of_nat n - 1)%Z false = Ok (Pairs a U).
Proof.
  intros TS Z. assert (La : length a = n) by apply TS. assert (Hn : (0 < n)%nat) by (destruct TS; lia).
  assert (BI : forall i, (i < n)%nat -> block b i = S i).
  { induction i as [|i IH]; intros Hi; [reflexivity|]. cbn [block]. rewrite IH by lia. destruct (Req_EM_T _ _) as [_|N]; [lia|elim N; apply Z; lia]. }
  destruct (partial_pairs a b n 0%nat n TS Hn (le_n _)) as (e & w & ib & U & S & E & P & TE & BB & INS). exists U. cbn [Nat.add] in E. change (Z.of_nat 0) with 0%Z in E. rewrite E. do 2 f_equal.
  assert (Lw : length w = n) by (rewrite (Permutation_length P), map_length; apply seq_length). destruct (tri_eigen_elim a b w U n n La Lw TE) as (ON & EV).
  assert (FULL : forall k, (k < n)%nat -> exists i, (i < n)%nat /\ nth k ib 0%nat = Datatypes.S i /\ nth k w 0 = nth i a 0).
  { intros k Hk. destruct (classic_dec_fin n (fun i => if Req_EM_T (nth k (nth i U []) 0) 0 then 1 else 0)) as [(i & Hi & Q)|N].
    - exists i. split; [exact Hi|]. destruct (Req_EM_T _ _) as [|NZ]; [lra|]. split.
      + destruct (Nat.eq_dec (block b i) (nth k ib 0%nat)) as [B|B]; [rewrite <- B; now apply BI|]. elim NZ. apply (INS k Hk i Hi B).
      + specialize (EV k Hk i Hi). unfold apply_mat in EV.
        rewrite (rsum_single n _ i Hi) in EV; [unfold tmat in EV; rewrite Nat.eqb_refl in EV; symmetry; now apply Rmult_eq_reg_r in EV|].
        intros j Hj NJ. rewrite decoupled by (rewrite !BI by auto; lia). ring.
    - exfalso. specialize (ON k k Hk Hk). rewrite Nat.eqb_refl, rsum_0 in ON; [lra|].
      intros i Hi. assert (X : nth k (nth i U []) 0 = 0) by (specialize (N i Hi); destruct (Req_EM_T _ _); [assumption|lra]). rewrite X. ring. }
  assert (INC : forall j k, (j < k)%nat -> (k < n)%nat -> (nth j ib 0 < nth k ib 0)%nat).
  { intros j k Hj Hk. destruct (BB j k Hj Hk) as [Q|[Q1 Q2]]; [exact Q|]. exfalso. destruct (FULL j ltac:(lia)) as (i & _ & I1 & I2). destruct (FULL k Hk) as (i' & _ & I1' & I2').
    assert (i = i') by lia. subst i'. lra. }
  assert (LOW : forall k, (k < n)%nat -> (Datatypes.S k <= nth k ib 0)%nat).
  { induction k as [|k IH]; intros Hk; [destruct (FULL O Hk) as (i & _ & I & _); lia|]. specialize (IH ltac:(lia)). specialize (INC k (Datatypes.S k) ltac:(lia) Hk). lia. }
  assert (UP : forall d k, (k + d = n - 1)%nat -> (nth k ib 0 <= Datatypes.S k)%nat).
  { induction d as [|d IH]; intros k Hk; [destruct (FULL k ltac:(lia)) as (i & Hi & I & _); lia|]. specialize (IH (Datatypes.S k) ltac:(lia)). specialize (INC k (Datatypes.S k) ltac:(lia) ltac:(lia)). lia. }
  apply (nth_ext _ _ 0 0); [lia|]. intros k Hk. rewrite Lw in Hk. destruct (FULL k Hk) as (i & Hi & I & ->). specialize (LOW k Hk). specialize (UP (n - 1 - k)%nat k ltac:(lia)). f_equal. lia.
Qed.

(** The lowest eigenvalue. *)
Lemma lowest a b n : tshape a b n -> exists x, egs_tridiag stebz stein a b = Ok x /\
  (exists v, rsum n (fun i => v i * v i) = 1 /\ eigenvector n (tmat a b) x v) /\
  forall v, x * rsum n (fun i => v i * v i) <= rsum n (fun i => v i * apply_mat n (tmat a b) v i).
Proof.
  intros TS. assert (Hn : (0 < n)%nat) by (destruct TS; lia). destruct (SB a b n 0%nat 1%nat false TS ltac:(lia) ltac:(lia)) as (w & ib & sp & e & E & S & _ & _ & F).
  exists (e O). split; [|split].
  - unfold egs_tridiag, solve_partial. change (stebz a b (fst (0, 0)%Z + 1) (snd (0, 0)%Z + 1) (negb true)) with (stebz a b (Z.of_nat 0 + 1)%Z (Z.of_nat (0 + 1)) false). rewrite E. cbn [fst]. rewrite F. reflexivity.
  - destruct S as [_ (v & OV & EV)]. exists (v O). split; [|now apply EV]. rewrite (OV O O Hn Hn). reflexivity.
  - now apply ascending_first.
Qed.
Lemma lowest_pair a b n : tshape a b n -> exists x U, gs_tridiag stebz stein a b = ([x], Some U) /\ egs_tridiag stebz stein a b = Ok x /\ @tri_eigen RField a b [x] U.
Proof.
  intros TS. assert (Hn : (0 < n)%nat) by (destruct TS; lia). destruct (partial_pairs a b n 0%nat 1%nat TS ltac:(lia) ltac:(lia)) as (e & w & ib & U & S & E & P & TE & _).
  destruct (SB a b n 0%nat 1%nat false TS ltac:(lia) ltac:(lia)) as (w' & ib' & sp & e' & E' & S' & _ & _ & F).
  cbn [seq map] in P. apply Permutation_sym, Permutation_length_1_inv in P. subst w.
  assert (EE : e O = e' O).
  { assert (B : forall f g, spectrum n (tmat a b) f -> spectrum n (tmat a b) g -> f O <= g O).
    { intros f g Sf [_ (v & OV & EV)]. pose proof (ascending_first n _ f Sf Hn (v O)) as Q. assert (N : rsum n (fun i => v O i * v O i) = 1) by (rewrite (OV O O Hn Hn); reflexivity).
      rewrite N in Q. rewrite (rsum_ext n (fun i => v O i * apply_mat n (tmat a b) (v O) i) (fun i => g O * (v O i * v O i))) in Q by (intros i Hi; rewrite (EV O Hn i Hi); ring). rewrite rsum_scal_l, N in Q. lra. }
    apply Rle_antisym; apply B; assumption. }
  exists (e O), U. split; [|split; [|exact TE]].
  - unfold gs_tridiag. unfold eigh_tridiagonal in E. cbn [negb orb Z.eqb] in E. change (Z.of_nat 0, (Z.of_nat (0 + 1) - 1)%Z) with (0, 0)%Z in E.
    unfold solve_partial in *. destruct (stebz _ _ _ _ _) as [[[m w] i] p]. cbn [fst snd] in E. injection E as E1 E2. now rewrite E1, <- E2, E1.
  - unfold egs_tridiag, solve_partial. change (stebz a b (fst (0, 0)%Z + 1) (snd (0, 0)%Z + 1) (negb true)) with (stebz a b (Z.of_nat 0 + 1)%Z (Z.of_nat (0 + 1)) false). rewrite E'. cbn [fst]. rewrite F, EE. reflexivity.
Qed.

(** The whole spectrum. *)
Lemma full a b n range : tshape a b n -> exists w U, eigt a b 0 range false = Ok (Pairs w U) /\ length w = n /\ @tri_eigen RField a b w U /\
  forall j k, (j <= k)%nat -> (k < n)%nat -> nth j w 0 <= nth k w 0.
Proof.
  intros TS. destruct (SM a b garbage n true TS) as (w & v & E & Lw & AS & _ & V). destruct (V eq_refl) as (LV & LR & OV & EV). exists w, v.
  split; [unfold eigh_tridiagonal, solve_full; cbn [negb orb Z.eqb]; rewrite E; reflexivity|]. split; [exact Lw|]. split; [|exact AS].
  apply (tri_eigen_make a b w v n n (proj1 TS) Lw LV LR); [exact OV|exact EV].
Qed.
Lemma full_values a b n range : tshape a b n -> exists e, spectrum n (tmat a b) e /\ eigt a b 0 range true = Ok (Vals (map e (seq 0 n))).
Proof.
  intros TS. destruct (SM a b garbage n false TS) as (w & v & E & Lw & _ & (e & S & W) & _). exists e. split; [exact S|].
  unfold eigh_tridiagonal, solve_full. cbn [negb orb Z.eqb]. rewrite E. cbn [fst]. do 2 f_equal. apply (nth_ext _ _ 0 (e O)); [rewrite map_length, seq_length; exact Lw|].
  intros k Hk. rewrite map_nth, seq_nth by lia. apply W. lia.
Qed.
Lemma bad_select a b select range only : select <> 0%Z -> select <> 2%Z -> eigt a b select range only = Err AssertionError.
Proof. intros N0 N2. unfold eigh_tridiagonal. destruct (Z.eqb_spec select 0), (Z.eqb_spec select 2); try contradiction. reflexivity. Qed.

Notation sls := (sl_solve_options stebz stein stemr garbage).
(** The second pass asked for eigenvalues only. *)
Lemma only_full mv a b v0 range : tshape a (skipn 1 b) (length a) ->
  exists e, spectrum (length a) (tmat a (skipn 1 b)) e /\
  sls mv a b v0 0 range true = if (length a =? 2)%nat then Ok (Number (e O)) else Err ValueError.
Proof.
  intros TS. destruct (full_values a (skipn 1 b) (length a) range TS) as (e & S & E). exists e. split; [exact S|]. unfold sl_solve_options. cbn [negb orb Z.eqb]. rewrite E. cbn [bind].
  destruct (length a) as [|[|[|m]]]; reflexivity.
Qed.
Lemma only_partial mv a b v0 lo m : tshape a (skipn 1 b) (length a) -> (0 < m)%nat -> (lo + m <= length a)%nat ->
  exists e, spectrum (length a) (tmat a (skipn 1 b)) e /\
  sls mv a b v0 2 (Z.of_nat lo, Z.of_nat (lo + m) - 1)%Z true = if (m =? 2)%nat then Ok (Number (e lo)) else Err ValueError.
Proof.
  intros TS Hm Hl. destruct (partial_values a (skipn 1 b) (length a) lo m TS Hm Hl) as (e & S & E). exists e. split; [exact S|]. unfold sl_solve_options. cbn [negb orb Z.eqb]. cbn [Z.eqb] in E. rewrite E. cbn [bind].
  destruct m as [|[|[|m]]]; reflexivity.
Qed.
(** With vectors it is the second pass of C59. *)
Lemma with_vectors mv a b v0 select range w U : eigt a (skipn 1 b) select range false = Ok (Pairs w U) ->
  sls mv a b (Some v0) select range false = (do wX <- sl_solve RField sqrt (fun _ _ => Ok (w, U)) mv a b v0; Ok (Vectors (fst wX) (snd wX))) /\
  sls mv a b None select range false = Err AssertionError.
Proof.
  intros E. assert (Q : negb ((select =? 0) || (select =? 2))%Z = false).
  { unfold eigh_tridiagonal in E. destruct (negb _); [discriminate|reflexivity]. }
  unfold sl_solve_options. rewrite Q, E. cbn [bind]. split; [|reflexivity]. destruct (sl_solve _ _ _ _ _ _ _) as [[w' X]|]; reflexivity.
Qed.
End Contracts.
