(** The second Lanczos pass with a selected range. *)
From Coq Require Import Reals List Arith ZArith Bool Permutation Lia Lra.
From Verif Require Import Base RBase RLin LanczosModel LanczosSpec LanczosProofs CfModel GflSpec TriModel TriSpec TriProofs LanczosProps.
Import ListNotations.
Local Open Scope R_scope.

Lemma eigh_tridiagonal_sound stebz stein stemr garbage range : stemr_contract stemr ->
  eigh_sound (fun a b => match eigh_tridiagonal stebz stein stemr garbage a b 0 range false with Ok (Pairs w U) => Ok (w, U) | Ok (Vals _) => Err ValueError | Err e => Err e end).
Proof.
  intros SM a b L S. destruct (full stebz stein stemr garbage SM a b (length a) range (conj eq_refl S)) as (w & U & E & Lw & TE & _). exists w, U. rewrite E. auto.
Qed.

Lemma nth_tail (l : list R) i : nth i (skipn 1 l) 0 = nth (S i) l 0.
Proof. destruct l; [destruct i; reflexivity|reflexivity]. Qed.

Section Ritz.
Variables (stebz : list R -> list R -> Z -> Z -> bool -> nat * list R * list nat * list nat)
  (stein : list R -> list R -> list R -> list nat -> list nat -> list (list R)) (stemr : list R -> list R -> bool -> list R * list (list R)) (garbage : R).
Hypothesis SB : stebz_contract stebz.
Hypothesis SI : stein_contract stein.

Lemma ritz_range (E : Type) d mv tiny (egs : list R -> list R -> res E) close phi0 v0 ga gb maxn ND s lo m :
  @symmetric_op RField d mv -> tiny 0 = true -> length phi0 = d -> (0 < ND)%nat ->
  real_sl_tridiag tiny egs close mv phi0 ga gb maxn ND = Ok s ->
  v0 = phi0 \/ (length v0 = d /\ forall i, nth i phi0 0 = nth 0 (ret_b _ _ s) 0 * nth i v0 0) ->
  (0 < m)%nat -> (lo + m <= length (ret_a _ _ s))%nat ->
  exists e vs rv X, spectrum (length (ret_a _ _ s)) (tmat (ret_a _ _ s) (skipn 1 (ret_b _ _ s))) e /\ @lanczos RField d mv phi0 (ret_a _ _ s) (ret_b _ _ s) vs rv /\
    sl_solve_options stebz stein stemr garbage mv (ret_a _ _ s) (ret_b _ _ s) (Some v0) 2 (Z.of_nat lo, Z.of_nat (lo + m) - 1)%Z false = Ok (Vectors (map e (seq lo m)) X) /\
    length X = m /\ (forall x, In x X -> length x = d) /\
    forall i, (i < m)%nat -> exists HX last, mv (nth i X []) = Ok HX /\ length HX = d /\
      (forall k, (k < d)%nat -> nth k HX 0 = e (lo + i)%nat * @ent RField X i k + last * nth k rv 0) /\
      forall j, (j < m)%nat -> @ip RField d (nth j X []) (nth i X []) = if (j =? i)%nat then 1 else 0.
Proof.
  intros SY T0 LP HND RUN V0 Hm Hl.
  set (a := ret_a _ _ s : list R) in *. set (b := ret_b _ _ s : list R) in *.
  assert (LZ : exists vs rv, @lanczos RField d mv phi0 a b vs rv).
  { destruct (C59_ritz E d mv tiny egs close phi0 phi0 ga gb maxn ND s (fun _ _ => Ok ([], map (fun _ => []) a)) [] (map (fun _ => []) a) SY T0 LP HND RUN (or_introl eq_refl) eq_refl) as (vs & rv & X & L & _).
    - split; [apply map_length|]. split; [intros u Hu; apply in_map_iff in Hu; now destruct Hu as (? & <- & _)|]. split; intros i j Hi; cbn in Hi; lia.
    - now exists vs, rv. }
  destruct LZ as (vs0 & rv0 & L0).
  assert (La : length a = length vs0) by apply L0. assert (Lb : length b = length vs0) by apply L0.
  assert (TS : tshape a (skipn 1 b) (length a)) by (split; [reflexivity|rewrite skipn_length; lia]).
  assert (NZ : forall i, (S i < length a)%nat -> nth i (skipn 1 b) 0 <> 0).
  { intros i Hi Z. rewrite nth_tail in Z. rewrite La in Hi. exact (lo_nonzero _ _ _ _ _ _ _ _ L0 (S i) Hi Z). }
  destruct (unreduced stebz stein stemr garbage SB SI a (skipn 1 b) (length a) lo m TS Hm Hl NZ) as (e & U & SP & EQ & TE).
  destruct (C59_ritz E d mv tiny egs close phi0 v0 ga gb maxn ND s (fun _ _ => Ok (map e (seq lo m), U)) (map e (seq lo m)) U SY T0 LP HND RUN V0 eq_refl TE) as (vs & rv & X & L & SOL & LX & LR & H).
  exists e, vs, rv, X. split; [exact SP|]. split; [exact L|].
  destruct (with_vectors stebz stein stemr garbage mv a b v0 2 _ _ _ EQ) as [W _]. split; [rewrite W; exact (f_equal (fun r => bind r (fun wX => Ok (Vectors (fst wX) (snd wX)))) SOL)|].
  assert (Lm : length (map e (seq lo m)) = m) by (rewrite map_length; apply seq_length). split; [exact (eq_trans LX Lm)|]. split; [exact LR|].
  intros i Hi. destruct (H i) as (HX & E1 & E2 & E3 & E4); [|exists HX; eexists; split; [exact E1|]; split; [exact E2|]; split].
  - exact (eq_ind_r (fun x => (i < x)%nat) Hi Lm).
  - intros k Hk. rewrite (E3 k Hk). rewrite (nth_indep _ 0 (e O)) by (rewrite Lm; exact Hi). rewrite map_nth, seq_nth by exact Hi. reflexivity.
  - intros j Hj. apply E4. exact (eq_ind_r (fun x => (j < x)%nat) Hj Lm).
Qed.
End Ritz.
