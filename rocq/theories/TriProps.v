(** C109, C110: tridiagonal eigenproblems and the options of the second Lanczos pass. *)
From Coq Require Import Reals List Arith ZArith Bool Permutation Lia Lra Psatz.
From Verif Require Import Base RBase RLin LanczosModel LanczosSpec CfModel GflSpec TriModel TriSpec TriProofs TriRealProofs TriSolveProofs.
Import ListNotations.
Local Open Scope R_scope.

(** ** C109 *)
(** The LAPACK contracts can be met. *)
Theorem C109_contracts : stebz_contract real_stebz /\ stein_contract real_stein /\ stemr_contract real_stemr.
Proof. exact (conj real_stebz_contract (conj real_stein_contract real_stemr_contract)). Qed.
Print Assumptions C109_contracts.

(** select = 0: the complete eigenbasis in ascending order. *)
Theorem C109_full : forall stebz stein stemr garbage, stemr_contract stemr -> forall a b n range, tshape a b n ->
  (exists w U, eigh_tridiagonal stebz stein stemr garbage a b 0 range false = Ok (Pairs w U) /\ length w = n /\ @tri_eigen RField a b w U /\
    forall j k, (j <= k)%nat -> (k < n)%nat -> nth j w 0 <= nth k w 0) /\
  exists e, spectrum n (tmat a b) e /\ eigh_tridiagonal stebz stein stemr garbage a b 0 range true = Ok (Vals (map e (seq 0 n))).
Proof. exact (fun s t m g C a b n r H => conj (full s t m g C a b n r H) (full_values s t m g C a b n r H)). Qed.
Print Assumptions C109_full.
(** The form used by the Green's functions (C67). *)
Theorem C109_sound : forall stebz stein stemr garbage range, stemr_contract stemr ->
  eigh_sound (fun a b => match eigh_tridiagonal stebz stein stemr garbage a b 0 range false with Ok (Pairs w U) => Ok (w, U) | Ok (Vals _) => Err ValueError | Err e => Err e end).
Proof. exact eigh_tridiagonal_sound. Qed.
Print Assumptions C109_sound.

(** select = 2: eigenvalues number lo .. lo+m-1, ascending if they are asked for alone;
    with eigenvectors the same eigenvalues with orthonormal eigenvectors, by blocks. *)
Theorem C109_range_values : forall stebz stein stemr garbage, stebz_contract stebz -> forall a b n lo m, tshape a b n -> (0 < m)%nat -> (lo + m <= n)%nat ->
  exists e, spectrum n (tmat a b) e /\ eigh_tridiagonal stebz stein stemr garbage a b 2 (Z.of_nat lo, Z.of_nat (lo + m) - 1)%Z true = Ok (Vals (map e (seq lo m))).
Proof. exact partial_values. Qed.
Print Assumptions C109_range_values.
Theorem C109_range : forall stebz stein stemr garbage, stebz_contract stebz -> stein_contract stein -> forall a b n lo m, tshape a b n -> (0 < m)%nat -> (lo + m <= n)%nat ->
  exists e w ib U, spectrum n (tmat a b) e /\ eigh_tridiagonal stebz stein stemr garbage a b 2 (Z.of_nat lo, Z.of_nat (lo + m) - 1)%Z false = Ok (Pairs w U) /\
    Permutation w (map e (seq lo m)) /\ @tri_eigen RField a b w U /\ by_block m ib w /\
    forall k, (k < m)%nat -> inside n b (nth k ib 0%nat) (fun i => nth k (nth i U []) 0).
Proof. exact partial_pairs. Qed.
Print Assumptions C109_range.
Theorem C109_unreduced : forall stebz stein stemr garbage, stebz_contract stebz -> stein_contract stein -> forall a b n lo m, tshape a b n -> (0 < m)%nat -> (lo + m <= n)%nat -> (forall i, (S i < n)%nat -> nth i b 0 <> 0) ->
  exists e U, spectrum n (tmat a b) e /\ eigh_tridiagonal stebz stein stemr garbage a b 2 (Z.of_nat lo, Z.of_nat (lo + m) - 1)%Z false = Ok (Pairs (map e (seq lo m)) U) /\ @tri_eigen RField a b (map e (seq lo m)) U.
Proof. exact unreduced. Qed.
Print Assumptions C109_unreduced.
(** A diagonal matrix: the eigenvalues come in the order of the diagonal. *)
Theorem C109_order_refuted : forall stebz stein stemr garbage, stebz_contract stebz -> stein_contract stein -> forall a b n, tshape a b n -> (forall i, (S i < n)%nat -> nth i b 0 = 0) ->
  exists U, eigh_tridiagonal stebz stein stemr garbage a b 2 (0, Z.of_nat n - 1)%Z false = Ok (Pairs a U).
Proof. exact diagonal. Qed.
Print Assumptions C109_order_refuted.

(** egs_tridiag is the minimum of the quadratic form; gs_tridiag belongs to it. *)
Theorem C109_lowest : forall stebz stein, stebz_contract stebz -> forall a b n, tshape a b n -> exists x, egs_tridiag stebz stein a b = Ok x /\
  (exists v, rsum n (fun i => v i * v i) = 1 /\ eigenvector n (tmat a b) x v) /\
  forall v, x * rsum n (fun i => v i * v i) <= rsum n (fun i => v i * apply_mat n (tmat a b) v i).
Proof. exact lowest. Qed.
Print Assumptions C109_lowest.
Theorem C109_lowest_pair : forall stebz stein (stemr : list R -> list R -> bool -> list R * list (list R)) (garbage : R), stebz_contract stebz -> stein_contract stein -> forall a b n, tshape a b n ->
  exists x U, gs_tridiag stebz stein a b = ([x], Some U) /\ egs_tridiag stebz stein a b = Ok x /\ @tri_eigen RField a b [x] U.
Proof. exact lowest_pair. Qed.
Print Assumptions C109_lowest_pair.
Theorem C109_select : forall stebz stein stemr garbage a b select range only, select <> 0%Z -> select <> 2%Z -> eigh_tridiagonal stebz stein stemr garbage a b select range only = Err AssertionError.
Proof. exact bad_select. Qed.
Print Assumptions C109_select.

Example C109_ex : exists U, eigh_tridiagonal real_stebz real_stein real_stemr 7 [2; 1] [0] 2 (0, 1)%Z false = Ok (Pairs [2; 1] U).
Proof.
  apply (C109_order_refuted real_stebz real_stein real_stemr 7 real_stebz_contract real_stein_contract [2; 1] [0] 2); [split; reflexivity|].
  intros i Hi. replace i with 0%nat by lia. reflexivity.
Qed.
(** The same matrix without eigenvectors. *)
Example C109_ex_values : eigh_tridiagonal real_stebz real_stein real_stemr 7 [2; 1] [0] 2 (0, 1)%Z true = Ok (Vals [1; 2]).
Proof.
  assert (TS : tshape [2; 1] [0] 2) by (split; reflexivity).
  destruct (C109_range_values real_stebz real_stein real_stemr 7 real_stebz_contract [2; 1] [0] 2 0 2 TS ltac:(lia) ltac:(lia)) as (e & [AS (v & O & EV)] & E). cbn [seq map Nat.add] in E. change (Z.of_nat 0, (Z.of_nat 2 - 1)%Z) with (0, 1)%Z in E. rewrite E. clear E.
  assert (V : forall k, (k < 2)%nat -> (2 * v k 0%nat = e k * v k 0%nat) /\ (1 * v k 1%nat = e k * v k 1%nat) /\ v k 0%nat * v k 0%nat + v k 1%nat * v k 1%nat = 1).
  { intros k Hk. pose proof (EV k Hk 0%nat ltac:(lia)) as E0. pose proof (EV k Hk 1%nat ltac:(lia)) as E1. pose proof (O k k Hk Hk) as N. rewrite Nat.eqb_refl in N.
    unfold apply_mat, rsum in *. cbn in E0, E1, N. split; [lra|]. split; [lra|lra]. }
  assert (X : v 0%nat 0%nat * v 1%nat 0%nat + v 0%nat 1%nat * v 1%nat 1%nat = 0) by (pose proof (O 0%nat 1%nat ltac:(lia) ltac:(lia)) as Q; unfold rsum in Q; cbn in Q; lra).
  destruct (V 0%nat ltac:(lia)) as (A0 & A1 & A2). destruct (V 1%nat ltac:(lia)) as (B0 & B1 & B2). specialize (AS 0%nat 1%nat ltac:(lia) ltac:(lia)).
  assert (Q0 : (2 - e 0%nat) * v 0%nat 0%nat = 0) by lra. assert (Q1 : (1 - e 0%nat) * v 0%nat 1%nat = 0) by lra.
  assert (P0 : (2 - e 1%nat) * v 1%nat 0%nat = 0) by lra. assert (P1 : (1 - e 1%nat) * v 1%nat 1%nat = 0) by lra.
  apply Rmult_integral in Q0, Q1, P0, P1. destruct Q0 as [Q0|Q0], Q1 as [Q1|Q1], P0 as [P0|P0], P1 as [P1|P1]; try (rewrite ?Q0, ?Q1, ?P0, ?P1 in *; exfalso; nra).
  do 3 f_equal; [lra|f_equal; lra].
Qed.
Example C109_ex_lowest : egs_tridiag real_stebz real_stein [0; 0] [1] = Ok (-1).
Proof.
  destruct (C109_lowest real_stebz real_stein real_stebz_contract [0; 0] [1] 2 (conj eq_refl eq_refl)) as (x & -> & (v & N & EV) & MIN). f_equal.
  specialize (MIN (fun i => match i with O => 1 | _ => -1 end)). pose proof (EV 0%nat ltac:(lia)) as E0. pose proof (EV 1%nat ltac:(lia)) as E1.
  unfold apply_mat, rsum in *. cbn in MIN, N, E0, E1.
  assert (Q : (x + 1) * (x - 1) = 0) by nra. apply Rmult_integral in Q. lra.
Qed.

(** ** C110 *)
(** A range of Ritz pairs after a Lanczos run: ascending values, orthonormal vectors. *)
Theorem C110_ritz : forall stebz stein stemr garbage, stebz_contract stebz -> stein_contract stein ->
  forall (E : Type) d mv tiny (egs : list R -> list R -> res E) close phi0 v0 ga gb maxn ND s lo m,
  @symmetric_op RField d mv -> tiny 0 = true -> length phi0 = d -> (0 < ND)%nat ->
  real_sl_tridiag tiny egs close mv phi0 ga gb maxn ND = Ok s ->
  v0 = phi0 \/ (length v0 = d /\ forall i, nth i phi0 0 = nth 0 (ret_b _ _ s) 0 * nth i v0 0) ->
  (0 < m)%nat -> (lo + m <= length (ret_a _ _ s))%nat ->
  exists e vs rv X, spectrum (length (ret_a _ _ s)) (tmat (ret_a _ _ s) (skipn 1 (ret_b _ _ s))) e /\ @lanczos RField d mv phi0 (ret_a _ _ s) (ret_b _ _ s) vs rv /\
    sl_solve_options stebz stein stemr garbage mv (ret_a _ _ s) (ret_b _ _ s) (Some v0) 2 (Z.of_nat lo, Z.of_nat (lo + m) - 1)%Z false = Ok (Vectors (map e (seq lo m)) X) /\
    length X = m /\ (forall x, In x X -> length x = d) /\
    forall i, (i < m)%nat -> exists HX last, mv (nth i X []) = Ok HX /\ length HX = d /\
      (forall k, (k < d)%nat -> nth k HX 0 = e (lo + i)%nat * @ent RField X i k + last * nth k rv 0) /\
      forall j, (j < m)%nat -> @ip RField d (nth j X []) (nth i X []) = if (j =? i)%nat then 1 else 0.
Proof. exact ritz_range. Qed.
Print Assumptions C110_ritz.
Theorem C110_second_pass : forall stebz stein stemr garbage mv a b v0 select range w U, eigh_tridiagonal stebz stein stemr garbage a (skipn 1 b) select range false = Ok (Pairs w U) ->
  sl_solve_options stebz stein stemr garbage mv a b (Some v0) select range false = (do wX <- sl_solve RField sqrt (fun _ _ => Ok (w, U)) mv a b v0; Ok (Vectors (fst wX) (snd wX))) /\
  sl_solve_options stebz stein stemr garbage mv a b None select range false = Err AssertionError.
Proof. exact with_vectors. Qed.
Print Assumptions C110_second_pass.
(** Eigenvalues only: ValueError, except that two eigenvalues give the lower one. *)
Theorem C110_only_refuted : forall stebz stein stemr garbage, stemr_contract stemr -> forall mv a b v0 range, tshape a (skipn 1 b) (length a) ->
  exists e, spectrum (length a) (tmat a (skipn 1 b)) e /\
  sl_solve_options stebz stein stemr garbage mv a b v0 0 range true = if (length a =? 2)%nat then Ok (Number (e O)) else Err ValueError.
Proof. exact only_full. Qed.
Print Assumptions C110_only_refuted.
Theorem C110_only_range_refuted : forall stebz stein stemr garbage, stebz_contract stebz -> forall mv a b v0 lo m, tshape a (skipn 1 b) (length a) -> (0 < m)%nat -> (lo + m <= length a)%nat ->
  exists e, spectrum (length a) (tmat a (skipn 1 b)) e /\
  sl_solve_options stebz stein stemr garbage mv a b v0 2 (Z.of_nat lo, Z.of_nat (lo + m) - 1)%Z true = if (m =? 2)%nat then Ok (Number (e lo)) else Err ValueError.
Proof. exact only_partial. Qed.
Print Assumptions C110_only_range_refuted.

Example C110_ex : sl_solve_options real_stebz real_stein real_stemr 7 (fun v => Ok v) [1; 2; 3] [1; 1; 1] None 0 (0, 0)%Z true = Err ValueError.
Proof.
  destruct (C110_only_refuted real_stebz real_stein real_stemr 7 real_stemr_contract (fun v => Ok v) [1; 2; 3] [1; 1; 1] None (0, 0)%Z (conj eq_refl eq_refl)) as (e & _ & H). exact H.
Qed.
