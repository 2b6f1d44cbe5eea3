(** From the parameters of the model to its Green's functions. *)
From Coq Require Import String Reals List Arith NArith ZArith Bool Lia Lra Psatz Ring.
From Verif Require LookupProofs.
From Verif Require Import Base RBase RLin CBase OperatorsModel OperatorsSpec LookupModel LookupSpec SectorModel SectorSpec SectorProofs FockSpec FockProofs LocalModel LocalSpec HoppingModel
  CsrSpec NonLocalModel NonLocalSpec MatvecModel MatvecSpec MbModel MbSpec EspaceModel EspaceSpec EspaceEigProofs ProjModel ProjSpec CfModel GfModel GfSpec GfMoreProofs GmModel GmSpec GmProofs GmFreeProofs GmEomProofs GmEspaceProofs
  SpectralProofs ExactSpec EighProofs ConserveProofs ExactProofs ExactMoreProofs FlipProofs FlipExactProofs DedModel DedSpec.
Import ListNotations.
Local Open Scope R_scope.

Lemma rsum_const n c : rsum n (fun _ => c) = INR n * c.
Proof. induction n as [|n IH]; [change (0 = INR 0 * c); cbn; ring|]. rewrite rsum_S, IH, S_INR. ring. Qed.
Lemma rsum_binom n : rsum (S n) (fun p => INR (binom n p)) = 2 ^ n.
Proof.
  transitivity (over_states n (fun _ => 1)).
  - rewrite over_sectors. apply rsum_ext. intros p _. rewrite lsum_nth, rsum_const, cand_length. ring.
  - unfold over_states. rewrite rsum_const, pow_INR. cbn [INR]. ring_simplify. reflexivity.
Qed.

Section Final.
Variables (big : R -> bool) (half : R) (n : nat) (h : hmat RRing) (fl : hflags) (V : inter RRing) (hf : bool) (mu : R) (z : option (nat -> R)).
Variable U : nat -> nat -> R.
Variable eigh : dense RRing -> res (list R * list (list R)).
Variable eigsh : nat -> Z -> (list R -> res (list R)) -> res (list R * list (list R)).
Hypothesis MO : model_ok half n h fl V U.
Hypothesis HC : eigh_contract eigh.
Notation B := (build_espace RRing Rleb big half eigh eigsh n h fl V hf mu z None "sz").

Lemma ground : exists es e, B = Ok (es, Some e) /\ (forall psi, e * norm2 n psi <= energy_of n (many_body big half n h V hf mu z U) psi) /\
  (exists psi, norm2 n psi = 1 /\ energy_of n (many_body big half n h V hf mu z U) psi = e).
Proof.
  destruct MO as ((Hn & Hn' & Hh) & HU & HJ & (HSx & HSp) & HS & Hset).
  destruct (exact_runs big half n h fl V hf mu z U eigh eigsh Hn Hn' Hh HU HJ HSx HSp HS Hset HC) as (es & egs & E).
  destruct (exact_egs big half n h fl V hf mu z U eigh eigsh Hn Hn' Hh HU HJ HSx HSp HS Hset HC es egs E) as (e & EG & _). exists es, e. rewrite EG in E. split; [exact E|]. split.
  - intros psi. exact (variational big half n h fl V hf mu z U eigh eigsh Hn Hn' Hh HU HJ HSx HSp HS Hset HC es (Some e) E e psi eq_refl).
  - exact (attained big half n h fl V hf mu z U eigh eigsh Hn Hn' Hh HU HJ HSx HSp HS Hset HC es (Some e) E e eq_refl).
Qed.
(** Each sector: all occupations, a complete orthonormal basis of eigenvectors, ascending energies. *)
Lemma sectors es egs : B = Ok (es, egs) -> NoDup (map fst es) /\ (forall key, In key (map fst es) <-> exists p q, (p <= n)%nat /\ (q <= n)%nat /\ key = [p; q]) /\
  forall p q s, In ([p; q], s) es -> exists up dw cols, s_states RRing s = StSz up dw /\ s_vecs RRing s = Cols RRing cols /\
    (forall u, In u up <-> (u < 2 ^ N.of_nat n)%N /\ popcount u = p) /\ (forall d, In d dw <-> (d < 2 ^ N.of_nat n)%N /\ popcount d = q) /\ NoDup up /\ NoDup dw /\
    let d := (length up * length dw)%nat in let psi k a := nth a (nth k cols []) 0 in
    length (s_vals RRing s) = d /\ length cols = d /\ orthonormal d d psi /\
    (forall k j l, (k < d)%nat -> (j < length up)%nat -> (l < length dw)%nat ->
      rsum (length up) (fun j' => rsum (length dw) (fun l' => many_body big half n h V hf mu z U (nth j' up 0%N) (nth l' dw 0%N) (nth j up 0%N) (nth l dw 0%N) * psi k (j' + l' * length up)%nat)) =
      nth k (s_vals RRing s) 0 * psi k (j + l * length up)%nat) /\
    forall j k, (j <= k)%nat -> (k < d)%nat -> nth j (s_vals RRing s) 0 <= nth k (s_vals RRing s) 0.
Proof.
  intros E. destruct MO as ((Hn & Hn' & Hh) & HU & HJ & (HSx & HSp) & HS & Hset).
  split; [exact (exact_nodup big half n h fl V hf mu z eigh eigsh es egs E)|].
  split; [exact (exact_keys big half n h fl V hf mu z U eigh eigsh Hn Hn' Hh HU HJ HSx HSp HS Hset HC es egs E)|].
  intros p q s I.
  destruct (exact_sector big half n h fl V hf mu z U eigh eigsh Hn Hn' Hh HU HJ HSx HSp HS Hset HC es egs E p q s I) as (SS & cols & SV & LV & LC & _ & ON & EV & AS).
  exists (cand n p), (cand n q), cols. split; [exact SS|]. split; [exact SV|]. split; [intros; apply cand_In|]. split; [intros; apply cand_In|]. split; [apply LookupProofs.increasing_NoDup, cand_increasing|]. split; [apply LookupProofs.increasing_NoDup, cand_increasing|].
  cbv zeta. split; [exact LV|]. split; [exact LC|]. split; [exact ON|]. split; [|exact AS].
  intros k j l Hk Hj Hl. set (lu := length (cand n p)) in *. set (lw := length (cand n q)) in *.
  assert (Ha : (j + l * lu < lu * lw)%nat) by nia. etransitivity; [|exact (EV k (j + l * lu)%nat Hk Ha)].
  rewrite (Nat.mul_comm lu lw), (rsum_pairs lu lw), rsum_swap. apply rsum_ext. intros l' Hl'. apply rsum_ext. intros j' Hj'. unfold smat.
  rewrite (Nat.add_comm (l' * lu) j'). rewrite !Nat.mod_add, !Nat.div_add, !(Nat.mod_small j), !(Nat.mod_small j'), !(Nat.div_small j), !(Nat.div_small j') by (subst lu; lia). reflexivity.
Qed.
Lemma thermal es e beta : B = Ok (es, Some e) -> 0 <= beta -> forall pos, (pos < n)%nat ->
  exists g, build_gf_exact n es beta e pos 0%Z = Ok g /\ 1 <= gf_Z g <= 4 ^ n /\ (forall x, In x (gf_q g) -> 0 <= x) /\
    rsum (length (gf_q g)) (fun k => nth k (gf_q g) 0) = gf_Z g /\
    forall en eta, 0 < im (zpoint en eta) -> exists G, gf_call g en eta = Ok G /\ im G < 0.
Proof.
  intros E Hb pos Hp. destruct MO as ((Hn & Hn' & Hh) & HU & HJ & (HSx & HSp) & HS & Hset).
  destruct (exact_family big half n h fl V hf mu z U Hn Hn' Hh HU HJ HSx HSp HS Hset eigh eigsh HC es (Some e) E) as (F & LF & EB & SD & LB & (p0 & q0 & Hp0 & Hq0 & NV & EG)).
  destruct (gf_exact_weight n es F beta e pos LF Hp EB) as (g & EGF & QP & ZP & EZ & SUM). exists g. split; [exact EGF|].
  assert (W : forall p q i, (p <= n)%nat -> (q <= n)%nat -> (i < nvals (F p q))%nat -> 0 < weight beta e (energy (F p q) i) <= 1).
  { intros p q i H1 H2 H3. split; [apply exp_pos|]. destruct (LB p q i H1 H2 H3) as (e' & X & LE). injection X as <-. unfold weight. rewrite <- exp_0.
    assert (Y : - beta * (energy (F p q) i - e) <= 0) by nra. destruct Y as [Y|Y]; [left; now apply exp_increasing|right; now rewrite Y]. }
  split; [|split; [exact QP|split; [exact SUM|]]].
  - rewrite EZ. split.
    + unfold Zsum. assert (NN : forall p q, (p < S n)%nat -> (q < S n)%nat -> 0 <= rsum (nvals (F p q)) (fun i => weight beta e (energy (F p q) i))).
      { intros p q H1 H2. apply rsum_nonneg. intros i Hi. left. apply W; auto; lia. }
      assert (G0 : forall m f k, (k < m)%nat -> (forall i, (i < m)%nat -> 0 <= f i) -> f k <= rsum m f).
      { intros m f k Hk Hf. rewrite (rsum_ext m f (fun i => (if (i =? k)%nat then f k else 0) + (if (i =? k)%nat then 0 else f i))).
        - rewrite rsum_add. rewrite (rsum_single m _ k Hk); [rewrite Nat.eqb_refl|intros i _ Ne; apply Nat.eqb_neq in Ne; now rewrite Ne].
          assert (0 <= rsum m (fun i => if (i =? k)%nat then 0 else f i)) by (apply rsum_nonneg; intros i Hi; destruct (i =? k)%nat; [lra|auto]). lra.
        - intros i _. destruct (Nat.eqb_spec i k) as [->|]; lra. }
      apply Rle_trans with (weight beta e (energy (F p0 q0) 0)).
      { injection EG as ->. unfold weight. replace (- beta * (energy (F p0 q0) 0 - energy (F p0 q0) 0)) with 0 by ring. rewrite exp_0. lra. }
      eapply Rle_trans; [|apply (G0 (S n) _ p0); [lia|intros p H1; apply rsum_nonneg; intros q H2; now apply NN]]. cbv beta.
      eapply Rle_trans; [|apply (G0 (S n) _ q0); [lia|intros q H2; apply NN; auto; lia]]. cbv beta.
      apply (G0 (nvals (F p0 q0)) (fun i => weight beta e (energy (F p0 q0) i)) 0%nat NV). intros i Hi. left. now apply W.
    + unfold Zsum. apply Rle_trans with (rsum (S n) (fun p => rsum (S n) (fun q => INR (binom n p) * INR (binom n q)))).
      * apply rsum_le. intros p H1. apply rsum_le. intros q H2. destruct (EB p q ltac:(lia) ltac:(lia)) as [NVE _]. rewrite (SD p q) in NVE by lia.
        rewrite <- mult_INR, <- NVE. apply Rle_trans with (rsum (nvals (F p q)) (fun _ => 1)); [apply rsum_le; intros i Hi; apply W; auto; lia|]. rewrite rsum_const. lra.
      * rewrite (rsum_ext (S n) _ (fun p => INR (binom n p) * 2 ^ n)) by (intros p _; rewrite rsum_scal_l; now rewrite rsum_binom).
        rewrite rsum_scal_r, rsum_binom, <- Rpow_mult_distr. right. f_equal.
  - destruct (gf_exact_causal n es F beta e pos LF Hp EB) as (g' & EG' & C & _). rewrite EGF in EG'. injection EG' as <-. exact C.
Qed.
Lemma free s beta : (forall i j, (i < n)%nat -> (j < n)%nat -> U i j = 0) -> inter_Jx RRing V = None -> (s <= 1)%nat ->
  exists es e g, B = Ok (es, Some e) /\ build_gf2_exact n es beta e (Z.of_nat s) = Ok g /\
  forall en eta, im (zpoint en eta) <> 0 -> exists G, gm_call g en eta = Ok G /\ length G = n /\ (forall r, In r G -> length r = n) /\
    inverse_mat n (entry G) (shifted_mat (zpoint en eta) (one_body big mu (hspin RRing h) s)).
Proof.
  intros U0 J0 Hs. destruct ground as (es & e & E & _). destruct MO as ((Hn & Hn' & Hh) & HU & HJ & (HSx & HSp) & HS & Hset).
  destruct (exact_family big half n h fl V hf mu z U Hn Hn' Hh HU HJ HSx HSp HS Hset eigh eigsh HC es (Some e) E) as (F & LF & EB & SD & _).
  assert (FP : free_pairs n (one_body big mu (hspin RRing h)) F).
  { intros p q Hp Hq k a Hk Ha. destruct LF as (_ & IN & _). assert (I : In ([p; q], F p q) es) by (apply IN; eauto 6).
    destruct (exact_sector big half n h fl V hf mu z U eigh eigsh Hn Hn' Hh HU HJ HSx HSp HS Hset HC es (Some e) E p q _ I) as (SS & cols & SV & LV & LC & _ & _ & EV & _).
    assert (UD : ups RRing (F p q) = cand n p /\ dws RRing (F p q) = cand n q) by (unfold ups, dws; now rewrite SS). destruct UD as [EU ED].
    assert (SDIM : sdim RRing (F p q) = (length (cand n p) * length (cand n q))%nat) by (unfold sdim; rewrite EU, ED; apply Nat.mul_comm).
    rewrite SDIM in Ha |- *. assert (Hk' : (k < length (cand n p) * length (cand n q))%nat) by exact (eq_ind _ (fun m => (k < m)%nat) Hk _ LV).
    unfold vec. rewrite SV. etransitivity; [|exact (EV k a Hk' Ha)]. apply rsum_ext. intros b Hb. apply f_equal2; [|reflexivity].
    assert (OS : forall s x y, (s < 2)%nat -> (x < n)%nat -> (y < n)%nat -> one_body big mu (hspin RRing h) s x y = one_body big mu (hspin RRing h) s y x).
    { intros s0 x y H0 Hx Hy. unfold one_body. rewrite (Nat.eqb_sym y x). destruct (Nat.eqb_spec x y) as [->|]; auto. now rewrite (HS s0 x y Hx Hy). }
    rewrite (ham_sym n _ OS). unfold smat, ham. symmetry. unfold basis. rewrite EU, ED.
    apply (free_energy big half n h V hf mu z U); auto. apply (cand_In n p), nth_In, Nat.mod_upper_bound. nia. }
  destruct (gm_free n es F beta e s (one_body big mu (hspin RRing h)) LF Hs EB) as (g & EG & H); [|exact FP|].
  { intros s0 x y H0 Hx Hy. unfold one_body. rewrite (Nat.eqb_sym y x). destruct (Nat.eqb_spec x y) as [->|]; auto. now rewrite (HS s0 x y Hx Hy). }
  exists es, e, g. auto.
Qed.
Lemma solvers eigh' eigsh' es egs es' egs' : eigh_contract eigh' -> B = Ok (es, egs) ->
  build_espace RRing Rleb big half eigh' eigsh' n h fl V hf mu z None "sz" = Ok (es', egs') ->
  egs = egs' /\ forall key s s', In (key, s) es -> In (key, s') es' -> s_states RRing s = s_states RRing s' /\ s_vals RRing s = s_vals RRing s'.
Proof.
  intros C' E E'. destruct MO as ((Hn & Hn' & Hh) & HU & HJ & (HSx & HSp) & HS & Hset).
  exact (solver_independent big half n h fl V hf mu z U Hn Hn' Hh HU HJ HSx HSp HS Hset eigh eigsh eigh' eigsh' es egs es' egs' HC C' E E').
Qed.
Lemma spins es egs p q s s' : (forall i j, (i < n)%nat -> (j < n)%nat -> hspin RRing h 1 i j = hspin RRing h 0 i j) -> B = Ok (es, egs) ->
  In ([p; q], s) es -> In ([q; p], s') es -> s_vals RRing s = s_vals RRing s'.
Proof.
  intros HF E. destruct MO as ((Hn & Hn' & Hh) & HU & HJ & (HSx & HSp) & HS & Hset).
  exact (flip_spectrum big half n h fl V hf mu z U Hn Hn' Hh HU HJ HSx HSp HS Hset HF eigh eigsh HC es egs E p q s s').
Qed.
Lemma lookup es egs tol : B = Ok (es, egs) -> 0 < tol ->
  exists key s e, egs = Some e /\ gs_sector tol es egs = Ok (key, s) /\ In (key, s) es /\ Rabs (nth 0 (s_vals RRing s) 0 - e) < tol /\
    exists v cols up dw, s_vecs RRing s = Cols RRing (v :: cols) /\ s_states RRing s = StSz up dw /\ length v = (length dw * length up)%nat.
Proof.
  intros E. destruct MO as ((Hn & Hn' & Hh) & HU & HJ & (HSx & HSp) & HS & Hset).
  exact (gs_total big half n h fl V hf mu z U Hn Hn' Hh HU HJ HSx HSp HS Hset eigh eigsh HC es egs E tol).
Qed.
End Final.
