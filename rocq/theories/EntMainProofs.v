(** The entropy functions of dedlib.py on the spectra they are given. *)
From Coq Require Import String Reals List Arith NArith ZArith Bool Lia Lra Psatz.
From Verif Require Import Base RBase RLin CBase LocalModel MatvecModel MbModel EspaceModel EspaceSpec EspaceMoreProofs ExactSpec EighProofs ExactProofs DedModel DedSpec DedMoreProofs DevModel ImpSpec ImpProofs ImpMirrorProofs EntSpec EntProofs EntBathProofs.
Import ListNotations.
Local Open Scope R_scope.

Definition spectrum_entropy (kB : R) (spectrum : list (list R)) (egs beta : R) : R :=
  let '(E, Z) := entropy_params spectrum egs beta in calc_entropy kB Z E (1 / (kB * beta)).

Section One.
Variables (kB : R) (spectrum : list (list R)).
Notation l := (concat spectrum).
Hypothesis Hk : 0 < kB.
Hypothesis HM : (0 < length l)%nat.
Lemma entropy_level egs beta : 0 < beta -> spectrum_entropy kB spectrum egs beta = kB * level_entropy beta l.
Proof. intros Hb. pose proof (entropy_spec kB beta egs Hk Hb spectrum HM) as Q. unfold spectrum_entropy. destruct (entropy_params spectrum egs beta). exact Q. Qed.
Lemma energy_level egs beta : fst (entropy_params spectrum egs beta) = level_energy beta l - egs.
Proof.
  rewrite entropy_sums. cbn [fst]. rewrite !total_sum, !map_length. pose proof (Zpos (length l) (fun i => nth i l 0) HM beta) as ZP.
  set (c := exp (beta * egs)). assert (CP : 0 < c) by apply exp_pos.
  assert (X : forall e, exp (- beta * (e - egs)) = c * exp (- beta * e)) by (intros e; unfold c; rewrite <- exp_plus; f_equal; ring).
  set (Z := rsum (length l) (fun i => exp (- beta * nth i l 0))) in *.
  assert (S1 : rsum (length l) (fun j => nth j (map (fun e => exp (- beta * (e - egs))) l) 0) = c * Z).
  { unfold Z. rewrite <- rsum_scal_l. apply rsum_ext. intros j Hj. rewrite (nth_indep _ 0 (exp (- beta * (0 - egs)))) by (now rewrite map_length). rewrite (map_nth (fun e => exp (- beta * (e - egs)))). apply X. }
  assert (S2 : rsum (length l) (fun j => nth j (map (fun e => (e - egs) * exp (- beta * (e - egs))) l) 0) = c * Z * (level_energy beta l - egs)).
  { replace (level_energy beta l - egs) with (rsum (length l) (fun i => gibbs beta (length l) (fun i => nth i l 0) i * nth i l 0 - gibbs beta (length l) (fun i => nth i l 0) i * egs)).
    2:{ rewrite rsum_sub, rsum_scal_r, (gsum (length l) (fun i => nth i l 0) HM beta). unfold level_energy. ring. }
    rewrite <- rsum_scal_l. apply rsum_ext. intros j Hj.
    rewrite (nth_indep _ 0 ((0 - egs) * exp (- beta * (0 - egs)))) by (now rewrite map_length). rewrite (map_nth (fun e => (e - egs) * exp (- beta * (e - egs)))). rewrite X. unfold gibbs. fold Z. field. lra. }
  rewrite S1, S2. field. lra.
Qed.
Theorem monotone egs b c : 0 < b -> b <= c -> spectrum_entropy kB spectrum egs c <= spectrum_entropy kB spectrum egs b /\ fst (entropy_params spectrum egs c) <= fst (entropy_params spectrum egs b).
Proof.
  intros Hb H. rewrite !entropy_level, !energy_level by lra. split.
  - apply Rmult_le_compat_l; [lra|]. apply (ent_mono (length l) (fun i => nth i l 0) HM); lra.
  - pose proof (mean_mono (length l) (fun i => nth i l 0) HM b c H). unfold mean in H0. unfold level_energy. lra.
Qed.
Theorem hot egs beta lo hi : 0 < beta -> (forall x, In x l -> lo <= x <= hi) ->
  kB * (ln (INR (length l)) - beta * (hi - lo)) <= spectrum_entropy kB spectrum egs beta <= kB * ln (INR (length l)).
Proof.
  intros Hb H. rewrite entropy_level by auto. destruct (ent_hot (length l) (fun i => nth i l 0) HM beta lo hi ltac:(lra)) as [A B]; [intros i Hi; apply H, nth_In, Hi|].
  split; apply Rmult_le_compat_l; auto; lra.
Qed.
Theorem cold egs beta lo gap : 0 < beta -> 0 <= gap -> In lo l -> (forall x, In x l -> x <> lo -> lo + gap <= x) ->
  let g := INR (count_occ Req_EM_T l lo) in
  kB * ln g <= spectrum_entropy kB spectrum egs beta <= kB * (ln g + 2 * (INR (length l) - g) / g * exp (- beta * gap / 2)).
Proof.
  intros Hb Hg I H g. rewrite entropy_level by auto. destruct (ent_cold (length l) (fun i => nth i l 0) HM beta lo gap ltac:(lra) Hg) as [A B].
  - destruct (In_nth _ _ 0 I) as (i & Hi & E). exists i. auto.
  - intros i Hi N. apply H; auto. now apply nth_In.
  - rewrite count_at_min in A, B. fold g in A, B. split; apply Rmult_le_compat_l; auto; lra.
Qed.
End One.

Lemma ded_split kB sp sb e eb beta : ded_entropy kB sp sb e eb beta = spectrum_entropy kB sp e beta - spectrum_entropy kB sb eb beta.
Proof. unfold ded_entropy, spectrum_entropy. now destruct (entropy_params sp e beta), (entropy_params sb eb beta). Qed.
Lemma ln_pow4 n : ln (INR (4 ^ n)) = INR n * ln 4.
Proof. rewrite pow_INR. replace (INR 4) with 4 by (cbn; ring). rewrite ln_pow by lra. reflexivity. Qed.

(** ** Range of the bath's levels *)
Lemma occ_range e n s : rsum n (fun k => Rmin (e k) 0) <= occ e n s <= rsum n (fun k => Rmax (e k) 0).
Proof. unfold occ. split; apply rsum_le; intros i _; destruct (N.testbit s (N.of_nat i)); auto using Rmin_l, Rmin_r, Rmax_l, Rmax_r. Qed.
Lemma bath_range wild ek b eb : (length ek <= 8)%nat -> build_non_interacting_espace RRing Rleb wild ek = Ok (b, eb) ->
  forall x, In x (concat (values b)) -> 2 * rsum (length ek) (fun k => Rmin (nth k ek 0) 0) <= x <= 2 * rsum (length ek) (fun k => Rmax (nth k ek 0) 0).
Proof.
  intros Hm HB x I. destruct (free_spectrum RRing Rleb Rleb_total Rleb_trans wild ek Hm) as (esp & egs & E & _ & _ & SEC & _). rewrite HB in E. injection E as <- <-.
  apply in_concat in I. destruct I as (v & Iv & Ix). unfold values in Iv. apply in_map_iff in Iv. destruct Iv as ([q s] & <- & Ie). cbn [snd] in Ix.
  destruct (SEC q s Ie) as (up & dw & _ & _ & _ & _ & PM). apply (Permutation.Permutation_in _ PM) in Ix. apply in_flat_map in Ix. destruct Ix as (d & _ & Ix). apply in_map_iff in Ix. destruct Ix as (u & <- & _).
  assert (G : forall a b lo hi : R, lo <= a <= hi -> lo <= b <= hi -> 2 * lo <= a + b <= 2 * hi) by (intros; lra).
  exact (G _ _ _ _ (occ_range (fun k => nth k ek 0) (length ek) u) (occ_range (fun k => nth k ek 0) (length ek) d)).
Qed.

Section Impurity.
Variables (big : R -> bool) (half : R) (n : nat) (h : hmat RRing) (fl : hflags) (V : inter RRing) (hf : bool) (mu : R) (z : option (nat -> R)) (U : nat -> nat -> R).
Variables (eigh : dense RRing -> res (list R * list (list R))) (eigsh : nat -> Z -> (list R -> res (list R)) -> res (list R * list (list R))) (wild : N -> nat -> N) (ek : list R).
Hypothesis MO : model_ok half n h fl V U.
Hypothesis HC : eigh_contract eigh.
Variables (es b : espace RRing) (eg eb : option R) (kB beta e e' : R).
Hypothesis HB : build_espace RRing Rleb big half eigh eigsh n h fl V hf mu z None "sz" = Ok (es, eg).
Hypothesis HF : build_non_interacting_espace RRing Rleb wild ek = Ok (b, eb).
Hypothesis LE : length ek = (n - 1)%nat.
Hypothesis Hn9 : (n <= 9)%nat.
Hypothesis Hk : 0 < kB.
Hypothesis Hb : 0 < beta.
Notation S := (ded_entropy kB (values es) (values b) e e' beta).
Lemma n1 : (1 < n)%nat.
Proof. destruct MO as ((H & _) & _). exact H. Qed.
Lemma imp_closed : S = kB * level_entropy beta (concat (values es)) - kB * (2 * rsum (n - 1) (fun k => mode_entropy (fermi beta (nth k ek 0)))).
Proof.
  pose proof n1. rewrite ded_split, !entropy_level; auto.
  - rewrite (bath_entropy wild ek ltac:(lia) b eb HF). now rewrite LE.
  - apply (bath_nonempty wild ek ltac:(lia) b eb HF).
  - rewrite (full_count big half n h fl V hf mu z U eigh eigsh MO HC es eg HB). apply Nat.neq_0_lt_0, Nat.pow_nonzero. discriminate.
Qed.
Lemma imp_hot lo hi : (forall x, In x (concat (values es)) -> lo <= x <= hi) ->
  kB * (ln 4 - beta * (hi - lo)) <= S <= kB * (ln 4 + beta * (2 * rsum (n - 1) (fun k => Rabs (nth k ek 0)))).
Proof.
  intros HR. pose proof n1 as N1. assert (L8 : (length ek <= 8)%nat) by (rewrite LE; lia). assert (C : length (concat (values es)) = (4 ^ n)%nat) by exact (full_count big half n h fl V hf mu z U eigh eigsh MO HC es eg HB).
  assert (Cb : length (concat (values b)) = (4 ^ (n - 1))%nat) by (rewrite <- LE; apply (bath_count wild ek ltac:(lia) b eb HF)).
  assert (P : forall k, (0 < 4 ^ k)%nat) by (intros; apply Nat.neq_0_lt_0, Nat.pow_nonzero; discriminate).
  destruct (hot kB (values es) Hk ltac:(rewrite C; apply P) e beta lo hi Hb HR) as [A1 A2].
  destruct (hot kB (values b) Hk ltac:(rewrite Cb; apply P) e' beta _ _ Hb (bath_range wild ek b eb L8 HF)) as [B1 B2].
  rewrite C, ln_pow4 in A1, A2. rewrite Cb, ln_pow4 in B1, B2. change (@length (car RRing) ek) with (@length R ek) in B1. rewrite LE in B1. rewrite ded_split.
  assert (IN : INR n = INR (n - 1) + 1) by (rewrite <- S_INR; f_equal; lia). rewrite IN in A1, A2.
  assert (W : 2 * rsum (n - 1) (fun k => Rmax (nth k ek 0) 0) - 2 * rsum (n - 1) (fun k => Rmin (nth k ek 0) 0) = 2 * rsum (n - 1) (fun k => Rabs (nth k ek 0))).
  { rewrite <- Rmult_minus_distr_l, <- rsum_sub. f_equal. apply rsum_ext. intros k _. generalize (nth k ek 0). clear. intros x. unfold Rmax, Rmin, Rabs. change (0 : car RRing) with (0 : R). destruct (Rle_dec x 0), (Rcase_abs x); lra. }
  assert (B1' : kB * (INR (n - 1) * ln 4 - beta * (2 * rsum (n - 1) (fun k => Rabs (nth k ek 0)))) <= spectrum_entropy kB (values b) e' beta) by (rewrite <- W; exact B1).
  clear - A1 A2 B1' B2. split; lra.
Qed.
Lemma imp_range : - kB * (INR (n - 1) * ln 4) <= S <= kB * (INR n * ln 4).
Proof.
  pose proof n1 as N1. assert (C : length (concat (values es)) = (4 ^ n)%nat) by exact (full_count big half n h fl V hf mu z U eigh eigsh MO HC es eg HB).
  assert (Cb : length (concat (values b)) = (4 ^ (n - 1))%nat) by (rewrite <- LE; apply (bath_count wild ek ltac:(lia) b eb HF)).
  assert (P : forall k, (0 < 4 ^ k)%nat) by (intros; apply Nat.neq_0_lt_0, Nat.pow_nonzero; discriminate).
  rewrite ded_split, !entropy_level by (auto; rewrite ?C, ?Cb; apply P).
  pose proof (shannon_bounds beta (values es) ltac:(rewrite C; apply P)) as [A1 A2]. pose proof (shannon_bounds beta (values b) ltac:(rewrite Cb; apply P)) as [B1 B2].
  fold (level_entropy beta (concat (values es))) in *. fold (level_entropy beta (concat (values b))) in *. rewrite C, ln_pow4 in A2. rewrite Cb, ln_pow4 in B2. split; nra.
Qed.
End Impurity.

(** ** A sample of the distributional solver *)
Theorem sample_entropy big half eigh eigsh fsolve kB wild n U sigma0 beta zs poles i : eigh_contract eigh -> half + half = 1 -> (1 < n)%nat -> (n <= 9)%nat -> length poles = n -> 0 < kB -> 0 < beta ->
  siam_trial big half eigh eigsh fsolve kB wild n U sigma0 beta zs poles = Ok (Some i) ->
  let g := gfimp_fit fsolve poles in
  exists H1 V1 es1 e1, is_siam n (rsum n (fun i => nth i poles 0) / INR n - sigma0) (fun k => nth k (g_ek g) 0) (fun k => sqrt (nth k (g_vk2 g) 0)) U H1 V1 /\
  build_espace RRing Rleb big half eigh eigsh n (H2 RRing H1) (mkflags true true true) (VArray RRing V1) false 0 None None "sz" = Ok (es1, Some e1) /\
  let l := concat (map (fun e => s_vals RRing (snd e)) es1) in length l = (4 ^ n)%nat /\
  i_entropy i = kB * level_entropy beta l - kB * (2 * rsum (n - 1) (fun k => mode_entropy (fermi beta (nth k (g_ek g) 0)))) /\
  (forall lo hi, (forall x, In x l -> lo <= x <= hi) -> kB * (ln 4 - beta * (hi - lo)) <= i_entropy i <= kB * (ln 4 + beta * (2 * rsum (n - 1) (fun k => Rabs (nth k (g_ek g) 0))))) /\
  - kB * (INR (n - 1) * ln 4) <= i_entropy i <= kB * (INR n * ln 4).
Proof.
  intros HC Hh Hn Hn9 L Hk Hb E g.
  destruct (siam_content big half eigh eigsh fsolve kB wild n U sigma0 beta zs poles L ltac:(lia) _ E) as (H0 & V0 & H1 & V1 & es0 & e0 & es1 & e1 & q0 & s0 & q1 & s1 & occ0 & S0 & S1 & B0 & B1 & _ & _ & _ & REJ & ACC).
  fold g in S1. exists H1, V1, es1, e1. split; [exact S1|]. split; [exact B1|].
  assert (Q : q1 = q0) by (destruct (list_eq_dec Nat.eq_dec q1 q0) as [Y|N]; [exact Y|discriminate (REJ N)]).
  destruct (ACC Q) as (i' & gf & b & eb & X & _ & _ & _ & _ & _ & BB & EN). injection X as <-. fold g in BB.
  pose proof (siam_model half n _ _ _ U H1 V1 Hn ltac:(lia) Hh S1) as MO.
  assert (LE : length (g_ek g) = (n - 1)%nat) by (unfold g, gfimp_fit; cbn [g_ek]; now rewrite map_length, seq_length, L).
  split; [exact (full_count big half n _ _ _ false 0 None V1 eigh eigsh MO HC es1 (Some e1) B1)|]. rewrite EN.
  split; [exact (imp_closed big half n _ _ _ false 0 None V1 eigh eigsh wild (g_ek g) MO HC es1 b (Some e1) (Some eb) kB beta e1 eb B1 BB LE Hn9 Hk Hb)|].
  split; [intros lo hi; exact (imp_hot big half n _ _ _ false 0 None V1 eigh eigsh wild (g_ek g) MO HC es1 b (Some e1) (Some eb) kB beta e1 eb B1 BB LE Hn9 Hk Hb lo hi)|].
  exact (imp_range big half n _ _ _ false 0 None V1 eigh eigsh wild (g_ek g) MO HC es1 b (Some e1) (Some eb) kB beta e1 eb B1 BB LE Hn9 Hk Hb).
Qed.
