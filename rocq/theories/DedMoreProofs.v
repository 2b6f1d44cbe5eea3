(** Proofs about dedlib.py: sampling, occupation, entropy. *)
From Coq Require Import Reals List Arith NArith ZArith Bool Lia Lra Psatz Permutation Sorted.
From Verif Require Import Base RBase RLin CBase OperatorsModel OperatorsSpec OperatorsProofs LookupSpec LookupProofs SectorModel SectorSpec SectorProofs FitProofs EspaceModel ObsMoreProofs DedModel DedSpec.
Import ListNotations.
Local Open Scope R_scope.

(** ** Sampling *)
Lemma total_sum l : total l = rsum (length l) (fun j => nth j l 0).
Proof. exact (fold_rsum l). Qed.
Lemma cumsum_go_nth l : forall prev i, (i < length l)%nat -> nth i (cumsum_go prev l) 0 = prev + rsum (S i) (fun j => nth j l 0).
Proof.
  induction l as [|x l IH]; intros prev i Hi; [cbn in Hi; lia|]. cbn [cumsum_go]. destruct i as [|i].
  - rewrite rsum_S. unfold rsum, nsum. cbn. match goal with |- ?x = ?y => change (@eq R x y) end. ring.
  - cbn [nth]. rewrite IH by (cbn in Hi; lia). rewrite (rsum_S_l (S i)). cbn [nth]. ring.
Qed.
Lemma cumsum_go_len l : forall prev, length (cumsum_go prev l) = length l.
Proof. induction l as [|x l IH]; intros prev; cbn; auto. Qed.
Lemma cumsum_len l : length (cumsum l) = length l.
Proof. destruct l; cbn; auto. now rewrite cumsum_go_len. Qed.
Lemma cumsum_nth l i : (i < length l)%nat -> nth i (cumsum l) 0 = rsum (S i) (fun j => nth j l 0).
Proof.
  destruct l as [|x l]; [cbn; lia|]. intros Hi. cbn [cumsum]. destruct i as [|i].
  - rewrite rsum_S. unfold rsum, nsum. cbn. match goal with |- ?x = ?y => change (@eq R x y) end. ring.
  - cbn [nth]. rewrite cumsum_go_nth by (cbn in Hi; lia). rewrite (rsum_S_l (S i)). reflexivity.
Qed.
Lemma searchsorted_spec l r : (searchsorted l r <= length l)%nat /\ (forall j, (j < searchsorted l r)%nat -> nth j l 0 < r) /\
  ((searchsorted l r < length l)%nat -> r <= nth (searchsorted l r) l 0).
Proof.
  induction l as [|x l (A & B & C)]; cbn [searchsorted length]; [repeat split; lia|]. destruct (Rltb x r) eqn:E.
  - apply Rltb_spec in E. split; [lia|]. split; [intros [|j] Hj; [exact E|apply B; lia]|intros H; apply C; lia].
  - split; [lia|]. split; [lia|]. intros _. cbn. destruct (Rle_dec r x); auto. assert (x < r) by lra. apply Rltb_spec in H. congruence.
Qed.

Section Draw.
Variables (wts : list R).
Hypothesis pos : forall x, In x wts -> 0 <= x. Hypothesis some : 0 < total wts.
Notation W := (total wts).
Notation part i := (rsum i (fun j => nth j wts 0)).
Definition cdf_of : list R := cumsum (map (fun x => x / W) wts).
Lemma cdf_nth i : (i < length wts)%nat -> nth i cdf_of 0 = part (S i) / W.
Proof.
  intros Hi. unfold cdf_of. rewrite cumsum_nth by (now rewrite map_length). unfold Rdiv. rewrite <- rsum_scal_r. apply rsum_ext. intros j Hj.
  rewrite (nth_indep _ 0 (0 * / W)) by (rewrite map_length; lia). exact (map_nth (fun x => x * / W) wts 0 j).
Qed.
Lemma part_mono i j : (i <= j)%nat -> (j <= length wts)%nat -> part i <= part j.
Proof.
  intros Hij. induction j as [|j IH]; intros Hj; [replace i with 0%nat by lia; apply Rle_refl|]. destruct (Nat.eq_dec i (S j)) as [->|]; [apply Rle_refl|].
  rewrite rsum_S. specialize (IH ltac:(lia) ltac:(lia)). assert (0 <= nth j wts 0) by (apply pos, nth_In; lia). lra.
Qed.
Lemma part_all : part (length wts) = W.
Proof. symmetry. apply total_sum. Qed.
(** Number [i] is drawn exactly for r in an interval of length wts_i / W. *)
Lemma draw_iff r i : 0 < r <= 1 -> (searchsorted cdf_of r = i <-> (i < length wts)%nat /\ part i / W < r <= part (S i) / W).
Proof.
  intros Hr. destruct (searchsorted_spec cdf_of r) as (A & B & C). set (s := searchsorted cdf_of r) in *.
  assert (LC : length cdf_of = length wts) by (unfold cdf_of; now rewrite cumsum_len, map_length). rewrite LC in *.
  assert (L0 : (0 < length wts)%nat). { destruct wts as [|x l]; [|cbn; lia]. exfalso. unfold total in some. cbn in some. lra. }
  assert (SL : (s < length wts)%nat).
  { destruct (Nat.eq_dec s (length wts)) as [E|]; [|lia]. exfalso. pose proof (B (length wts - 1)%nat ltac:(lia)) as Q. rewrite cdf_nth in Q by lia.
    replace (S (length wts - 1)) with (length wts) in Q by lia. rewrite part_all in Q. unfold Rdiv in Q. rewrite Rinv_r in Q by lra. lra. }
  assert (LO : part s / W < r).
  { destruct s as [|s']; [unfold rsum, nsum; cbn; unfold Rdiv; rewrite Rmult_0_l; lra|]. rewrite <- cdf_nth by lia. apply B. lia. }
  assert (HI : r <= part (S s) / W) by (rewrite <- cdf_nth by auto; auto).
  assert (MW : forall a b, a / W < r -> r <= b / W -> a < b).
  { intros a b H1 H2. apply (Rmult_lt_reg_r (/ W)); [now apply Rinv_0_lt_compat|]. unfold Rdiv in *. lra. }
  split; [intros <-; auto|]. intros (Hi & Lo & Hi').
  destruct (lt_eq_lt_dec s i) as [[L|E]|L]; auto; exfalso.
  - pose proof (part_mono (S s) i L ltac:(lia)). pose proof (MW _ _ Lo HI). lra.
  - pose proof (part_mono (S i) s L ltac:(lia)). pose proof (MW _ _ LO Hi'). lra.
Qed.
Lemma draw_0 : searchsorted cdf_of 0 = 0%nat.
Proof.
  destruct (searchsorted_spec cdf_of 0) as (A & B & C). set (s := searchsorted cdf_of 0) in *.
  assert (LC : length cdf_of = length wts) by (unfold cdf_of; now rewrite cumsum_len, map_length). rewrite LC in *.
  destruct s as [|s']; auto. exfalso. pose proof (B 0%nat ltac:(lia)) as Q. rewrite cdf_nth in Q by lia. rewrite rsum_S in Q. unfold rsum, nsum in Q. cbn in Q.
  assert (0 <= nth 0 wts 0) by (apply pos, nth_In; lia). assert (0 < / W) by (now apply Rinv_0_lt_compat). unfold Rdiv in Q.
  assert (0 <= nth 0 wts 0 * / W) by (apply Rmult_le_pos; lra). change (cadd RRing) with Rplus in Q. rewrite Rplus_0_r in Q || idtac. lra.
Qed.
End Draw.

(** sorting *)
Lemma insert_perm a l : Permutation (insert RRing Rleb a l) (a :: l).
Proof.
  induction l as [|b l IH]; cbn [insert]; auto. destruct (Rleb a b); auto. rewrite IH. apply perm_swap.
Qed.
Lemma sort_perm l : Permutation (sort RRing Rleb l) l.
Proof. induction l as [|a l IH]; [constructor|]. change (sort RRing Rleb (a :: l)) with (insert RRing Rleb a (sort RRing Rleb l)). rewrite insert_perm. now constructor. Qed.
Lemma insert_sorted a l : StronglySorted Rle l -> StronglySorted Rle (insert RRing Rleb a l).
Proof.
  induction 1 as [|b l S IH F]; cbn [insert]; [repeat constructor|]. destruct (Rleb a b) eqn:E.
  - apply Rleb_spec in E. constructor; [now constructor|]. constructor; auto. eapply Forall_impl; [|exact F]. intros c Hc. cbn in Hc. lra.
  - assert (B : b <= a). { destruct (Rle_dec a b) as [Q|Q]; [apply Rleb_spec in Q; congruence|lra]. }
    constructor; auto. apply (Permutation_Forall (Permutation_sym (insert_perm a l))). constructor; auto.
Qed.
Lemma sort_sorted l : StronglySorted Rle (sort RRing Rleb l).
Proof. induction l as [|a l IH]; [constructor|]. exact (insert_sorted a _ IH). Qed.

(** the grid *)
Lemma linspace_spec a b m l : a <= b -> linspace a b m = Ok l -> length l = Z.to_nat m /\ forall x, In x l -> a <= x <= b.
Proof.
  intros Hab E. unfold linspace in E. destruct (Z.ltb_spec m 0); [discriminate|]. injection E as <-. split; [now rewrite map_length, seq_length|].
  intros x Hx. apply in_map_iff in Hx. destruct Hx as (i & <- & Hi). apply in_seq in Hi. remember (Z.to_nat m) as k.
  destruct k as [|[|k]]; [lia|lra|]. assert (K : INR (S (S k)) - 1 = INR (S k)) by (rewrite (S_INR (S k)); ring). rewrite K.
  assert (P : 0 < INR (S k)) by (apply lt_0_INR; lia). assert (I : 0 <= INR i <= INR (S k)) by (split; [apply pos_INR|apply le_INR; lia]).
  assert (Q : 0 <= (b - a) / INR (S k)) by (apply Rmult_le_pos; [lra|left; now apply Rinv_0_lt_compat]).
  split; [assert (0 <= INR i * ((b - a) / INR (S k))) by (apply Rmult_le_pos; lra); lra|].
  assert (INR i * ((b - a) / INR (S k)) <= INR (S k) * ((b - a) / INR (S k))) by (apply Rmult_le_compat_r; lra).
  replace (INR (S k) * ((b - a) / INR (S k))) with (b - a) in H0 by (field; lra). lra.
Qed.

Theorem sampler_spec p lo hi n nsamples : lo <= hi -> 0 <= nsamples -> (forall l, length (p l) = length l) -> (forall l x, In x (p l) -> 0 <= x) -> (forall l, l <> [] -> 0 < total (p l)) ->
  exists rs grid, sampler_init p lo hi n nsamples = Ok rs /\ rs_eners rs = grid /\ (forall x, In x grid -> lo <= x <= hi) /\
  (forall r i, 0 < r <= 1 -> (searchsorted (rs_cdf rs) r = i <-> (i < length grid)%nat /\
     rsum i (fun j => nth j (p grid) 0) < r * rsum (length grid) (fun j => nth j (p grid) 0) <= rsum (S i) (fun j => nth j (p grid) 0))) /\
  forall rands, (n <= length rands)%nat -> (forall r, In r rands -> 0 <= r <= 1) ->
    exists poles, sampler_call rs rands = Ok poles /\ length poles = n /\ StronglySorted Rle poles /\ (forall x, In x poles -> lo <= x <= hi) /\
      Permutation poles (map (fun r => nth (searchsorted (rs_cdf rs) r) grid 0) (firstn n rands)).
Proof.
  intros Hlh Hns PL PP PS. unfold sampler_init. set (m := pyint ((hi - lo) * nsamples + 1)).
  assert (M : (1 <= m)%Z).
  { unfold m, pyint. assert (X : 1 <= (hi - lo) * nsamples + 1) by (assert (0 <= (hi - lo) * nsamples) by (apply Rmult_le_pos; lra); lra).
    assert (RB : Rleb 0 ((hi - lo) * nsamples + 1) = true) by (apply Rleb_spec; lra). rewrite RB.
    destruct (base_Int_part ((hi - lo) * nsamples + 1)) as [_ Q]. assert (L : (0 < Int_part ((hi - lo) * nsamples + 1))%Z) by (apply lt_IZR; lra). lia. }
  destruct (linspace lo hi m) as [grid|] eqn:EL; [|unfold linspace in EL; destruct (Z.ltb_spec m 0); [lia|discriminate]]. cbn [bind].
  destruct (linspace_spec lo hi m grid Hlh EL) as [LG BG]. assert (GN : grid <> []) by (intros ->; cbn in LG; lia).
  assert (TP : 0 < total (p grid)) by auto.
  eexists _, grid. split; [reflexivity|]. cbn [rs_eners rs_cdf]. split; [reflexivity|]. split; [exact BG|].
  fold (cdf_of (p grid)). assert (DI := draw_iff (p grid) (fun x => PP grid x) TP).
  assert (TS : rsum (length grid) (fun j => nth j (p grid) 0) = total (p grid)) by (now rewrite total_sum, PL).
  split.
  - intros r i Hr. rewrite (DI r i Hr), PL, TS. assert (IW : 0 < / total (p grid)) by (now apply Rinv_0_lt_compat).
    split; intros (A & B & C); (split; [exact A|]); split.
    + apply (Rmult_lt_reg_r (/ total (p grid))); auto. rewrite Rmult_assoc, Rinv_r by lra. unfold Rdiv in B. lra.
    + apply (Rmult_le_reg_r (/ total (p grid))); auto. rewrite Rmult_assoc, Rinv_r by lra. unfold Rdiv in C. lra.
    + apply (Rmult_lt_reg_r (total (p grid))); auto. unfold Rdiv. rewrite Rmult_assoc, Rinv_l by lra. lra.
    + apply (Rmult_le_reg_r (total (p grid))); auto. unfold Rdiv. rewrite Rmult_assoc, Rinv_l by lra. lra.
  - intros rands Hl Hr. unfold sampler_call. cbn [rs_eners rs_cdf rs_n].
    assert (IN : forall r, 0 <= r <= 1 -> (searchsorted (cdf_of (p grid)) r < length grid)%nat).
    { intros r H. destruct (Req_EM_T r 0) as [->|]; [rewrite draw_0; [destruct grid; [congruence|cbn; lia]| |auto]; exact (fun x => PP grid x)|].
      rewrite <- (PL grid). apply (DI r _ ltac:(lra)). reflexivity. }
    assert (MM : mapM (fun r => match nth_error grid (searchsorted (cdf_of (p grid)) r) with Some e => Ok e | None => Err IndexError end) (firstn n rands) =
      Ok (map (fun r => nth (searchsorted (cdf_of (p grid)) r) grid 0) (firstn n rands))).
    { assert (F : forall r, In r (firstn n rands) -> 0 <= r <= 1) by (intros r H; apply Hr; rewrite <- (firstn_skipn n rands); apply in_or_app; now left).
      induction (firstn n rands) as [|r l IH]; [reflexivity|]. cbn [mapM map]. rewrite (nth_error_nth' grid 0 (IN r (F r (or_introl eq_refl)))). cbn [bind].
      rewrite IH by (intros; apply F; now right). reflexivity. }
    rewrite MM. cbn [bind]. eexists. split; [reflexivity|].
    split; [rewrite (Permutation_length (sort_perm _)), map_length, firstn_length; lia|]. split; [apply sort_sorted|]. split; [|apply sort_perm].
    intros x Hx. apply (Permutation_in _ (sort_perm _)) in Hx. apply in_map_iff in Hx. destruct Hx as (r & <- & Hx). apply BG, nth_In, IN, Hr.
    rewrite <- (firstn_skipn n rands). apply in_or_app. now left.
Qed.

(** ** Occupation *)
Lemma fold_cond (c : nat -> bool) (f : nat -> R) d z : fold_left (fun acc i => if c i then acc + f i else acc) (seq 0 d) z = z + rsum d (fun i => if c i then f i else 0).
Proof.
  rewrite <- fold_rsum'. revert z. induction (seq 0 d) as [|a l IH]; intros z; cbn [fold_left]; auto. rewrite IH. f_equal. destruct (c a); ring.
Qed.
Lemma full_bit s pos : negb (N.eqb (check_full s pos) 0) = N.testbit s (N.of_nat pos).
Proof. unfold check_full. rewrite bitval_spec. unfold occ. now destruct (N.testbit s (N.of_nat pos)). Qed.
Theorem ded_occupation_spec v up dw pos : (length v = length dw * length up)%nat -> ded_occupation v up dw pos = Ok (site_occupation v up dw pos).
Proof.
  intros L. unfold ded_occupation. rewrite L, Nat.eqb_refl. cbn [negb]. f_equal.
  rewrite (fold_cond (fun idw => negb (N.eqb (check_full (nth idw dw 0%N) pos) 0))), (fold_cond (fun iup => negb (N.eqb (check_full (nth iup up 0%N) pos) 0))).
  rewrite Rplus_0_l. unfold site_occupation. rewrite (Nat.mul_comm (length up)). unfold rsum at 5. rewrite (nsum_mul RRing). change (@nsum RRing) with rsum.
  transitivity (rsum (length dw) (fun j => rsum (length up) (fun i => (nth (i + j * length up) v 0 * nth (i + j * length up) v 0) * (if N.testbit (nth i up 0%N) (N.of_nat pos) then 1 else 0))
     + rsum (length up) (fun i => (nth (i + j * length up) v 0 * nth (i + j * length up) v 0) * (if N.testbit (nth j dw 0%N) (N.of_nat pos) then 1 else 0)))).
  - rewrite rsum_add. f_equal.
    + rewrite rsum_swap. apply rsum_ext. intros i Hi. rewrite full_bit. destruct (N.testbit (nth i up 0%N) (N.of_nat pos)).
      * apply rsum_ext. intros j _. rewrite (Nat.add_comm i). ring.
      * symmetry. apply rsum_0. intros; ring.
    + apply rsum_ext. intros j Hj. rewrite full_bit. destruct (N.testbit (nth j dw 0%N) (N.of_nat pos)).
      * apply rsum_ext. intros i _. rewrite (Nat.add_comm i). ring.
      * symmetry. apply rsum_0. intros; ring.
  - apply rsum_ext. intros j Hj. rewrite <- rsum_add. apply rsum_ext. intros i Hi.
    rewrite Nat.mod_add by lia. rewrite Nat.mod_small by auto. rewrite Nat.div_add by lia. rewrite Nat.div_small by auto. cbn [Nat.add]. ring.
Qed.
Lemma ded_occupation_bad v up dw pos : (length v <> length dw * length up)%nat -> ded_occupation v up dw pos = Err ValueError.
Proof. intros L. unfold ded_occupation. apply Nat.eqb_neq in L. now rewrite L. Qed.
(** Bounds and the total over the sites. *)
Lemma bits_total n s : (s < 2 ^ N.of_nat n)%N -> rsum n (fun pos => if N.testbit s (N.of_nat pos) then 1 else 0) = INR (popcount s).
Proof.
  intros H. rewrite <- (nocc_popcount n s H). unfold nocc. rewrite Nat.sub_0_r. unfold rsum, nsum. generalize 0%nat.
  clear H. induction n as [|n IH]; intros a; [reflexivity|]. cbn [seq bsum filter]. rewrite IH. change (N.testbit s (N.of_nat a)) with (occ s a).
  change (cadd RRing) with Rplus. match goal with |- ?x = ?y => change (@eq R x y) end. destruct (occ s a); cbn [length]; rewrite ?S_INR; ring.
Qed.
Theorem occupation_total n p q up dw v : (p <= n)%nat -> (q <= n)%nat -> (n <= 32)%nat -> generate_states n p = Ok up -> generate_states n q = Ok dw ->
  rsum n (fun pos => site_occupation v up dw pos) = INR (p + q) * rsum (length up * length dw) (fun a => nth a v 0 * nth a v 0).
Proof.
  intros Hp Hq Hn GU GD. unfold site_occupation. rewrite rsum_swap, <- rsum_scal_l. apply rsum_ext. intros a Ha. rewrite rsum_scal_l, rsum_add.
  assert (LU : (0 < length up)%nat) by nia.
  assert (A1 : (a mod length up < length up)%nat) by (apply Nat.mod_upper_bound; lia). assert (A2 : (a / length up < length dw)%nat) by (apply Nat.div_lt_upper_bound; lia).
  destruct (generate_states_spec n p Hp Hn) as (l & E & _ & _ & HU). rewrite GU in E. injection E as <-.
  destruct (generate_states_spec n q Hq Hn) as (l & E & _ & _ & HD). rewrite GD in E. injection E as <-.
  destruct (proj1 (HU _) (nth_In up 0%N A1)) as [B1 C1]. destruct (proj1 (HD _) (nth_In dw 0%N A2)) as [B2 C2].
  rewrite !bits_total by auto. rewrite C1, C2, plus_INR. ring.
Qed.
Theorem occupation_range v up dw pos : 0 <= site_occupation v up dw pos <= 2 * rsum (length up * length dw) (fun a => nth a v 0 * nth a v 0).
Proof.
  unfold site_occupation. split.
  - apply rsum_nonneg. intros a _. apply Rmult_le_pos; [apply Rle_0_sqr|]. destruct (N.testbit _ _), (N.testbit _ _); lra.
  - rewrite <- rsum_scal_l. apply rsum_le. intros a _. rewrite (Rmult_comm 2). apply Rmult_le_compat_l; [apply Rle_0_sqr|]. destruct (N.testbit _ _), (N.testbit _ _); lra.
Qed.

(** ** Entropy *)
Section Entropy.
Variables (kB beta egs : R).
Hypothesis Hk : 0 < kB. Hypothesis Hb : 0 < beta.
Notation ex e := (exp (- beta * (e - egs))).
Lemma entropy_sums spectrum : entropy_params spectrum egs beta =
  (total (map (fun e => (e - egs) * ex e) (concat spectrum)) / total (map (fun e => ex e) (concat spectrum)), total (map (fun e => ex e) (concat spectrum))).
Proof.
  unfold entropy_params.
  assert (T : forall l m, total (l ++ m) = total l + total m).
  { intros l m. unfold total. rewrite fold_left_app. generalize (fold_left Rplus l 0). induction m as [|x m IH] using rev_ind; intros c; [cbn; ring|]. rewrite !fold_left_app. cbn. rewrite IH. ring. }
  assert (G : forall a b, fold_left (fun acc eigvals => let v := map (fun e => e - egs) eigvals in let exps := map (fun e => exp (- beta * e)) v in
      (fst acc + total (map (fun p => fst p * snd p) (List.combine v exps)), snd acc + total exps)) spectrum (a, b) =
    (a + total (map (fun e => (e - egs) * ex e) (concat spectrum)), b + total (map (fun e => ex e) (concat spectrum)))).
  { induction spectrum as [|l spectrum IH]; intros a b; cbn [fold_left concat]; [cbn; unfold total; cbn; f_equal; ring|]. cbv zeta in *. rewrite IH. cbn [fst snd]. rewrite !map_app, !T. rewrite map_map.
    assert (C : map (fun p : R * R => fst p * snd p) (List.combine (map (fun e => e - egs) l) (map (fun x => exp (- beta * (x - egs))) l)) = map (fun e => (e - egs) * ex e) l).
    { clear. induction l as [|x l IH]; cbn; auto. now rewrite IH. }
    rewrite C. f_equal; ring. }
  rewrite G, !Rplus_0_l. reflexivity.
Qed.
Variable spectrum : list (list R).
Notation E := (fun i => nth i (concat spectrum) 0).
Notation M := (length (concat spectrum)).
Hypothesis HM : (0 < M)%nat.
Notation Z' := (rsum M (fun j => exp (- beta * E j))).
Lemma Z'_pos : 0 < Z'.
Proof. destruct M as [|m]; [lia|]. rewrite rsum_S_l. pose proof (exp_pos (- beta * E 0%nat)). assert (0 <= rsum m (fun i => exp (- beta * E (S i)))) by (apply rsum_nonneg; intros; left; apply exp_pos). lra. Qed.
Lemma gibbs_pos i : 0 < gibbs beta M E i.
Proof. unfold gibbs. apply Rmult_lt_0_compat; [apply exp_pos|apply Rinv_0_lt_compat, Z'_pos]. Qed.
Lemma gibbs_sum : rsum M (gibbs beta M E) = 1.
Proof. unfold gibbs, Rdiv. rewrite rsum_scal_r. apply Rinv_r. pose proof Z'_pos. lra. Qed.
Theorem entropy_spec : let '(En, Z) := entropy_params spectrum egs beta in calc_entropy kB Z En (1 / (kB * beta)) = kB * shannon M (gibbs beta M E).
Proof.
  rewrite entropy_sums. unfold calc_entropy, shannon. rewrite !total_sum, !map_length. pose proof Z'_pos as ZP.
  set (c := exp (beta * egs)). assert (CP : 0 < c) by apply exp_pos.
  assert (X : forall e, ex e = c * exp (- beta * e)) by (intros e; unfold c; rewrite <- exp_plus; f_equal; ring).
  assert (S1 : rsum M (fun j => nth j (map (fun e => ex e) (concat spectrum)) 0) = c * Z').
  { rewrite <- rsum_scal_l. apply rsum_ext. intros j Hj. rewrite (nth_indep _ 0 (ex 0)) by (now rewrite map_length). rewrite (map_nth (fun e => ex e)). apply X. }
  assert (S2 : rsum M (fun j => nth j (map (fun e => (e - egs) * ex e) (concat spectrum)) 0) = c * Z' * rsum M (fun j => (E j - egs) * gibbs beta M E j)).
  { rewrite <- rsum_scal_l. apply rsum_ext. intros j Hj. rewrite (nth_indep _ 0 ((0 - egs) * ex 0)) by (now rewrite map_length). rewrite (map_nth (fun e => (e - egs) * ex e)). rewrite X. unfold gibbs. field. lra. }
  rewrite S1, S2.
  assert (LG : forall i, (i < M)%nat -> gibbs beta M E i * ln (gibbs beta M E i) = - (beta * ((E i - egs) * gibbs beta M E i)) + - (ln (c * Z') * gibbs beta M E i)).
  { intros i Hi. assert (LN : ln (gibbs beta M E i) = - beta * E i - ln Z') by (unfold gibbs; unfold Rdiv; rewrite ln_mult by (apply exp_pos || now apply Rinv_0_lt_compat); rewrite ln_exp, ln_Rinv by auto; ring).
    rewrite LN, ln_mult by auto. unfold c. rewrite ln_exp. ring. }
  rewrite (rsum_ext M (fun i => gibbs beta M E i * ln (gibbs beta M E i)) _ LG). rewrite rsum_add.
  rewrite (rsum_ext M (fun i => - (beta * ((E i - egs) * gibbs beta M E i))) (fun i => (- beta) * ((E i - egs) * gibbs beta M E i))) by (intros; ring).
  rewrite (rsum_ext M (fun i => - (ln (c * Z') * gibbs beta M E i)) (fun i => (- ln (c * Z')) * gibbs beta M E i)) by (intros; ring).
  rewrite !rsum_scal_l, gibbs_sum. field. repeat split; nra.
Qed.
Theorem shannon_bounds : 0 <= shannon M (gibbs beta M E) <= ln (INR M).
Proof.
  assert (LE1 : forall i, (i < M)%nat -> gibbs beta M E i <= 1).
  { intros i Hi. rewrite <- gibbs_sum.
    replace (gibbs beta M E i) with (rsum M (fun j => if (j =? i)%nat then gibbs beta M E j else 0)) at 1.
    - apply rsum_le. intros j _. destruct (j =? i)%nat; [lra|left; apply gibbs_pos].
    - rewrite (rsum_single M _ i Hi), Nat.eqb_refl; auto. intros j _ N. destruct (Nat.eqb_spec j i); congruence. }
  assert (LNLE : forall x, 0 < x -> ln x <= x - 1).
  { intros x Hx. rewrite <- (ln_exp (x - 1)). destruct (Req_dec x 1) as [->|N]; [rewrite Rminus_diag_eq, ln_exp, ln_1 by reflexivity; lra|].
    left. apply ln_increasing; auto. pose proof (exp_ineq1 (x - 1) ltac:(lra)). lra. }
  assert (MP : 0 < INR M) by (now apply lt_0_INR). unfold shannon. split.
  - assert (Q : rsum M (fun i => gibbs beta M E i * ln (gibbs beta M E i)) <= rsum M (fun _ => 0)); [|rewrite rsum_const in Q; lra].
    apply rsum_le. intros i Hi. pose proof (gibbs_pos i). pose proof (LE1 i Hi). pose proof (LNLE _ H). set (x := gibbs beta M E i) in *.
    assert (x * ln x <= x * 0) by (apply Rmult_le_compat_l; lra). lra.
  - assert (Q : rsum M (fun i => gibbs beta M E i * ln (/ (gibbs beta M E i * INR M))) <= 0).
    { apply Rle_trans with (rsum M (fun i => / INR M - gibbs beta M E i)).
      - apply rsum_le. intros i Hi. pose proof (gibbs_pos i) as G. assert (P : 0 < gibbs beta M E i * INR M) by (now apply Rmult_lt_0_compat).
        pose proof (LNLE _ (Rinv_0_lt_compat _ P)) as L. apply Rle_trans with (gibbs beta M E i * (/ (gibbs beta M E i * INR M) - 1)); [apply Rmult_le_compat_l; lra|].
        right. field. split; lra.
      - rewrite rsum_sub, rsum_const, gibbs_sum. right. field. lra. }
    rewrite (rsum_ext M _ (fun i => (- 1) * (gibbs beta M E i * ln (gibbs beta M E i)) + (- ln (INR M)) * gibbs beta M E i)) in Q.
    2: { intros i Hi. pose proof (gibbs_pos i). rewrite ln_Rinv, ln_mult by (auto; now apply Rmult_lt_0_compat). ring. }
    rewrite rsum_add, !rsum_scal_l, gibbs_sum in Q. lra.
Qed.
End Entropy.
