(** The entropy of the bath in closed form, and the impurity's share. *)
From Coq Require Import String Reals List Arith NArith ZArith Bool Lia Lra Psatz Permutation Sorted.
From Verif Require Import Base RBase RLin CBase OperatorsModel OperatorsSpec LookupSpec SectorModel SectorSpec SectorProofs LocalModel MatvecModel MbModel EspaceModel EspaceSpec EspaceMoreProofs GfProofs
  ExactSpec EighProofs ConserveProofs ExactProofs ExactMoreProofs ExactFinalProofs DedModel DedSpec DedMoreProofs ImpSpec ImpMirrorProofs EntSpec EntProofs.
Import ListNotations.
Local Open Scope R_scope.

(** ** Sums over all stored eigenvalues *)
Definition values (es : espace RRing) : list (list R) := map (fun e => s_vals RRing (snd e)) es.
Definition tot (F : R -> R) (l : list R) : R := @bsum RRing R F l.
Lemma tot_nth F l : tot F l = rsum (length l) (fun i => F (nth i l 0)).
Proof. apply (bsum_nth RRing). Qed.
Lemma values_sum F n es (G : nat -> nat -> R) : NoDup (map fst es) -> (forall key, In key (map fst es) <-> exists p q, (p <= n)%nat /\ (q <= n)%nat /\ key = [p; q]) ->
  (forall p q s, In ([p; q], s) es -> tot F (s_vals RRing s) = G p q) -> tot F (concat (values es)) = rsum (S n) (fun p => rsum (S n) (fun q => G p q)).
Proof.
  intros ND KEY H. unfold tot, values. rewrite <- flat_map_concat_map, (bsum_flat_map RRing).
  set (g := fun key : qnums => match key with [p; q] => G p q | _ => 0 end).
  rewrite (bsum_ext RRing _ (fun e => g (fst e))).
  - transitivity (@bsum RRing qnums g (map fst es)); [symmetry; apply (bsum_map RRing)|]. transitivity (@bsum RRing qnums g (grid n)).
    2: exact (grid_sum RRing n g).
    apply (bsum_perm RRing). apply NoDup_Permutation; auto using grid_NoDup. intros k. now rewrite in_grid, KEY.
  - intros [key s] I. cbn [fst snd]. destruct (proj1 (KEY key)) as (p & q & _ & _ & ->); [apply in_map_iff; exists (key, s); auto|]. exact (H p q s I).
Qed.
Lemma tot_one l : tot (fun _ => 1) l = INR (length l).
Proof. rewrite tot_nth, rsum_const. ring. Qed.

(** ** Independent levels *)
Lemma over_states_S n f : over_states (S n) f = over_states n f + over_states n (fun s => f (2 ^ N.of_nat n + s)%N).
Proof.
  unfold over_states. replace (2 ^ S n)%nat with (2 ^ n + 2 ^ n)%nat by (cbn; lia). rewrite rsum_split. f_equal. apply rsum_ext. intros i _. f_equal. rewrite Nat2N.inj_add. f_equal.
  clear. induction n; [reflexivity|]. rewrite Nat2N.inj_succ, N.pow_succ_r'. cbn [Nat.pow]. lia.
Qed.
Lemma over_states_ext n f g : (forall s, (s < 2 ^ N.of_nat n)%N -> f s = g s) -> over_states n f = over_states n g.
Proof.
  intros H. unfold over_states. apply rsum_ext. intros i Hi. apply H. apply N.lt_le_trans with (N.of_nat (2 ^ n)); [lia|].
  assert (X : N.of_nat (2 ^ n) = (2 ^ N.of_nat n)%N) by (clear; induction n; [reflexivity|]; rewrite Nat2N.inj_succ, N.pow_succ_r'; cbn [Nat.pow]; lia). rewrite X. lia.
Qed.
Section Free.
Variable e : nat -> R.
Definition occ (n : nat) (s : N) : R := rsum n (fun i => if N.testbit s (N.of_nat i) then e i else 0).
Lemma occ_low n s : (s < 2 ^ N.of_nat n)%N -> occ (S n) s = occ n s.
Proof. intros H. unfold occ. rewrite rsum_S, N.testbit_eqb, N.div_small by exact H. change (0 mod 2 =? 1)%N with false. cbv iota. ring. Qed.
Lemma occ_high n s : (s < 2 ^ N.of_nat n)%N -> occ (S n) (2 ^ N.of_nat n + s) = occ n s + e n.
Proof.
  intros H. unfold occ. rewrite rsum_S. assert (NZ : (2 ^ N.of_nat n <> 0)%N) by (apply N.pow_nonzero; discriminate). f_equal.
  - apply rsum_ext. intros i Hi. rewrite <- (N.mod_pow2_bits_low (2 ^ N.of_nat n + s) (N.of_nat n) (N.of_nat i)) by lia.
    replace ((2 ^ N.of_nat n + s) mod 2 ^ N.of_nat n)%N with s; [reflexivity|]. symmetry. replace (2 ^ N.of_nat n + s)%N with (s + 1 * 2 ^ N.of_nat n)%N by lia. rewrite N.mod_add by exact NZ. now apply N.mod_small.
  - rewrite N.testbit_eqb. replace (2 ^ N.of_nat n + s)%N with (s + 1 * 2 ^ N.of_nat n)%N by lia. rewrite N.div_add by exact NZ. rewrite (N.div_small s) by exact H. reflexivity.
Qed.
Variable beta : R.
Notation w x := (exp (- beta * x)).
Fixpoint parts n : R := match n with O => 1 | S n => parts n * (1 + w (e n)) end.
Lemma parts_pos n : 0 < parts n.
Proof. induction n as [|n IH]; cbn [parts]; [lra|]. pose proof (exp_pos (- beta * e n)). nra. Qed.
Lemma sum_w n : over_states n (fun s => w (occ n s)) = parts n.
Proof.
  induction n as [|n IH]; [unfold over_states, occ; cbn [Nat.pow]; rewrite rsum_S, !(rsum_0 0) by (intros; lia); rewrite Rmult_0_r, exp_0; cbn; ring|].
  rewrite over_states_S. cbn [parts]. rewrite <- IH, Rmult_plus_distr_l, Rmult_1_r. f_equal.
  - apply over_states_ext. intros s H. now rewrite occ_low.
  - unfold over_states at 2. rewrite <- rsum_scal_r. apply (over_states_ext n _ (fun s => w (occ n s) * w (e n))). intros s H. rewrite occ_high, <- exp_plus by auto. f_equal. ring.
Qed.
Lemma fermi_w x : fermi beta x = w x / (1 + w x).
Proof.
  unfold fermi. pose proof (exp_pos (beta * x)) as A. pose proof (exp_pos (- beta * x)) as B. assert (C : w x * exp (beta * x) = 1) by (rewrite <- exp_plus; replace (- beta * x + beta * x) with 0 by ring; apply exp_0).
  apply (Rmult_eq_reg_r ((1 + exp (beta * x)) * (1 + w x))); [|nra]. field_simplify; nra.
Qed.
Lemma sum_e n : over_states n (fun s => occ n s * w (occ n s)) = parts n * rsum n (fun k => e k * fermi beta (e k)).
Proof.
  induction n as [|n IH]; [unfold over_states, occ; cbn [Nat.pow parts]; rewrite rsum_S, !(rsum_0 0) by (intros; lia); ring|].
  rewrite over_states_S. cbn [parts].
  rewrite (over_states_ext n _ (fun s => occ n s * w (occ n s))) by (intros s H; now rewrite occ_low).
  rewrite (over_states_ext n (fun s => occ (S n) (2 ^ N.of_nat n + s) * _) (fun s => w (e n) * (occ n s * w (occ n s)) + e n * w (e n) * w (occ n s))).
  2:{ intros s H. rewrite occ_high by auto. replace (- beta * (occ n s + e n)) with (- beta * occ n s + - beta * e n) by ring. rewrite exp_plus. ring. }
  assert (A : over_states n (fun s => w (e n) * (occ n s * w (occ n s)) + e n * w (e n) * w (occ n s)) = w (e n) * over_states n (fun s => occ n s * w (occ n s)) + e n * w (e n) * over_states n (fun s => w (occ n s))).
  { unfold over_states. rewrite rsum_add, !rsum_scal_l. reflexivity. }
  rewrite A, sum_w, IH, rsum_S, fermi_w. pose proof (exp_pos (- beta * e n)). field. lra.
Qed.
Lemma ln_parts n : ln (parts n) = rsum n (fun k => ln (1 + w (e k))).
Proof. induction n as [|n IH]; cbn [parts]; [rewrite (rsum_0 0) by (intros; lia); apply ln_1|]. rewrite rsum_S, ln_mult, IH; [reflexivity|apply parts_pos|]. pose proof (exp_pos (- beta * e n)). lra. Qed.
Lemma mode x : mode_entropy (fermi beta x) = ln (1 + w x) + beta * (x * fermi beta x).
Proof.
  pose proof (exp_pos (- beta * x)) as P. unfold mode_entropy. assert (F : fermi beta x = w x * / (1 + w x)) by (rewrite fermi_w; reflexivity).
  assert (F1 : 1 - fermi beta x = / (1 + w x)) by (rewrite F; field; lra). assert (IP : 0 < / (1 + w x)) by (apply Rinv_0_lt_compat; lra).
  assert (L1 : ln (1 - fermi beta x) = - ln (1 + w x)) by (rewrite F1, ln_Rinv; lra).
  assert (L2 : ln (fermi beta x) = - beta * x - ln (1 + w x)) by (rewrite F, ln_mult, ln_exp, ln_Rinv by lra; ring).
  rewrite L1, L2. ring.
Qed.
End Free.

Lemma over2_prod n f g : over_states n (fun u => over_states n (fun d => f u * g d)) = over_states n f * over_states n g.
Proof. unfold over_states. rewrite <- rsum_scal_r. apply rsum_ext. intros i _. apply rsum_scal_l. Qed.
Lemma over2_add n f g : over_states n (fun u => over_states n (fun d => f u d + g u d)) = over_states n (fun u => over_states n (f u)) + over_states n (fun u => over_states n (g u)).
Proof. unfold over_states. rewrite <- rsum_add. apply rsum_ext. intros i _. apply rsum_add. Qed.
Lemma over2_ext n f g : (forall u d, f u d = g u d) -> over_states n (fun u => over_states n (f u)) = over_states n (fun u => over_states n (g u)).
Proof. intros H. unfold over_states. apply rsum_ext. intros i _. apply rsum_ext. intros j _. apply H. Qed.

Section Bath.
Variables (wild : N -> nat -> N) (ek : list R).
Notation m := (length ek).
Hypothesis Hm : (m <= 8)%nat.
Variables (b : espace RRing) (eb : option R).
Hypothesis HB : build_non_interacting_espace RRing Rleb wild ek = Ok (b, eb).
Notation lev k := (nth k ek 0).
Lemma occ_energy s : occupied_energy RRing ek s = occ (fun k => lev k) m s.
Proof. reflexivity. Qed.
Lemma bath_sum F : tot F (concat (values b)) = over_states m (fun u => over_states m (fun d => F (occ (fun k => lev k) m u + occ (fun k => lev k) m d))).
Proof.
  destruct (free_spectrum RRing Rleb Rleb_total Rleb_trans wild ek Hm) as (esp & egs & E & SO & KEY & SEC & _). rewrite HB in E. injection E as <- <-.
  rewrite (values_sum F m b (fun p q => over_sector m p q (fun u d => F (occ (fun k => lev k) m u + occ (fun k => lev k) m d)))).
  - symmetry. apply over2.
  - apply sorted_nodup, SO.
  - intros key. rewrite KEY. cbn [qvalid]. split; [intros (p & q & -> & Hp & Hq); eauto|intros (p & q & Hp & Hq & ->); eauto].
  - intros p q s I. destruct (SEC _ _ I) as (up & dw & QS & _ & _ & _ & PM).
    assert (V : qvalid SymSz m [p; q]) by (apply KEY; apply in_map_iff; exists ([p; q], s); auto). destruct V as (p' & q' & EQ & Hp & Hq). injection EQ as <- <-.
    cbn [qns_states] in QS. rewrite !(states_at m) in QS by lia. cbn [bind] in QS. injection QS as <- <-.
    unfold tot. rewrite (bsum_perm RRing _ _ _ PM), (bsum_flat_map RRing).
    unfold over_sector, lsum. rewrite (bsum_swap RRing). apply (bsum_ext RRing). intros d _. rewrite (bsum_map RRing). reflexivity.
Qed.
Lemma bath_count : length (concat (values b)) = (4 ^ m)%nat.
Proof.
  apply INR_eq. rewrite <- tot_one, bath_sum. rewrite (over2_ext m _ (fun _ _ => 1 * 1)) by (intros; ring). rewrite over2_prod. unfold over_states. rewrite rsum_const, !pow_INR.
  replace (INR 2) with 2 by reflexivity. replace (INR 4) with 4 by (cbn; ring). rewrite Rmult_1_r, <- Rpow_mult_distr. f_equal; try ring.
Qed.
Lemma bath_nonempty : (0 < length (concat (values b)))%nat.
Proof. rewrite bath_count. apply Nat.neq_0_lt_0, Nat.pow_nonzero. discriminate. Qed.
Theorem bath_entropy beta : level_entropy beta (concat (values b)) = 2 * rsum m (fun k => mode_entropy (fermi beta (lev k))).
Proof.
  set (l := concat (values b)). unfold level_entropy. fold (ent (length l) (fun i => nth i l 0) beta). rewrite ent_form by apply bath_nonempty.
  assert (Z1 : rsum (length l) (fun j => exp (- beta * nth j l 0)) = parts (fun k => lev k) beta m * parts (fun k => lev k) beta m).
  { rewrite <- (tot_nth (fun x => exp (- beta * x))). unfold l. rewrite bath_sum, <- !sum_w, <- over2_prod. apply over2_ext. intros u d. rewrite <- exp_plus. f_equal. ring. }
  set (P := parts (fun k => lev k) beta m) in *. assert (PP : 0 < P) by apply parts_pos. set (X := rsum m (fun k => lev k * fermi beta (lev k))).
  assert (M1 : mean (length l) (fun i => nth i l 0) beta = 2 * X).
  { unfold mean, gibbs. rewrite Z1. rewrite (rsum_ext _ _ (fun i => (nth i l 0 * exp (- beta * nth i l 0)) * / (P * P))) by (intros; unfold Rdiv; ring). rewrite rsum_scal_r.
    rewrite <- (tot_nth (fun x => x * exp (- beta * x))). unfold l. rewrite bath_sum.
    set (o := occ (fun k => lev k) m). rewrite (over2_ext m _ (fun u d => (o u * exp (- beta * o u)) * exp (- beta * o d) + exp (- beta * o u) * (o d * exp (- beta * o d)))).
    - rewrite over2_add, !over2_prod. unfold o. rewrite sum_w, sum_e. fold P X. field. lra.
    - intros u d. replace (- beta * (o u + o d)) with (- beta * o u + - beta * o d) by ring. rewrite exp_plus. ring. }
  rewrite Z1, M1, ln_mult by auto. unfold P. rewrite ln_parts. unfold X. rewrite <- rsum_scal_l.
  replace (rsum m (fun i => 2 * (lev i * fermi beta (lev i)))) with (2 * rsum m (fun i => lev i * fermi beta (lev i))) by (now rewrite rsum_scal_l).
  rewrite (rsum_ext m (fun k => mode_entropy _) (fun k => ln (1 + exp (- beta * lev k)) + beta * (lev k * fermi beta (lev k)))) by (intros; apply mode). rewrite rsum_add, rsum_scal_l. ring.
Qed.
End Bath.

(** ** The interacting dictionary *)
Section Full.
Variables (big : R -> bool) (half : R) (n : nat) (h : hmat RRing) (fl : hflags) (V : inter RRing) (hf : bool) (mu : R) (z : option (nat -> R)).
Variable U : nat -> nat -> R.
Variable eigh : dense RRing -> res (list R * list (list R)).
Variable eigsh : nat -> Z -> (list R -> res (list R)) -> res (list R * list (list R)).
Hypothesis MO : model_ok half n h fl V U.
Hypothesis HC : eigh_contract eigh.
Variables (es : espace RRing) (egs : option R).
Hypothesis HB : build_espace RRing Rleb big half eigh eigsh n h fl V hf mu z None "sz" = Ok (es, egs).
Lemma full_count : length (concat (values es)) = (4 ^ n)%nat.
Proof.
  destruct (sectors big half n h fl V hf mu z U eigh eigsh MO HC es egs HB) as (ND & KEY & SEC).
  assert (Hn : (n <= 32)%nat) by (destruct MO as ((_ & H & _) & _); exact H).
  apply INR_eq. rewrite <- tot_one. rewrite (values_sum _ n es (fun p q => INR (binom n p) * INR (binom n q)) ND KEY).
  - rewrite (rsum_ext (S n) _ (fun p => INR (binom n p) * 2 ^ n)) by (intros p _; now rewrite rsum_scal_l, rsum_binom). rewrite rsum_scal_r, rsum_binom, pow_INR. replace (INR 4) with (2 * 2) by (cbn; ring). now rewrite Rpow_mult_distr.
  - intros p q s I. rewrite tot_one. destruct (SEC p q s I) as (up & dw & cols & _ & _ & UP & DW & NU & NW & LV & _). transitivity (INR (length up * length dw)); [apply f_equal; exact LV|]. rewrite mult_INR.
    assert (L : forall k l, NoDup l -> (forall u, In u l <-> (u < 2 ^ N.of_nat n)%N /\ popcount u = k) -> length l = binom n k).
    { intros k l NL IL. rewrite <- cand_length. apply Permutation_length, NoDup_Permutation; [exact NL|apply LookupProofs.increasing_NoDup, cand_increasing|]. intros x. rewrite IL. symmetry. apply cand_In. }
    now rewrite (L p up NU UP), (L q dw NW DW).
Qed.
End Full.
