(** Spin flip and exchange of the solver: when the one-particle matrix is the same for both spins, the sectors (p,q) and (q,p) have the same eigenvalues. *)
From Coq Require Import String Reals List Arith NArith ZArith Bool Lia Lra Psatz Ring.
From Verif Require Import Base RBase RLin CBase OperatorsModel OperatorsSpec LookupModel LookupSpec SectorModel SectorSpec SectorProofs FockSpec FockProofs LocalModel LocalSpec HoppingModel
  CsrSpec NonLocalModel NonLocalSpec MatvecModel MatvecSpec MbModel MbSpec EspaceModel EspaceSpec EspaceEigProofs GfSpec GmSpec SpectralProofs ExactSpec EighProofs ConserveProofs ExactProofs ExactMoreProofs FlipProofs.
Import ListNotations.
Local Open Scope R_scope.

Definition tr (lu lw a : nat) : nat := (a / lu + a mod lu * lw)%nat.
Lemma tr_lt lu lw a : (a < lu * lw)%nat -> (tr lu lw a < lw * lu)%nat.
Proof.
  intros H. unfold tr. assert (0 < lu)%nat by nia. assert (a mod lu < lu)%nat by (apply Nat.mod_upper_bound; lia). assert (a / lu < lw)%nat by (apply Nat.div_lt_upper_bound; lia). nia.
Qed.
Lemma tr_mod lu lw a : (a < lu * lw)%nat -> (tr lu lw a mod lw = a / lu)%nat.
Proof. intros H. assert (a / lu < lw)%nat by (apply Nat.div_lt_upper_bound; nia). unfold tr. rewrite Nat.mod_add by lia. now apply Nat.mod_small. Qed.
Lemma tr_div lu lw a : (a < lu * lw)%nat -> (tr lu lw a / lw = a mod lu)%nat.
Proof. intros H. assert (a / lu < lw)%nat by (apply Nat.div_lt_upper_bound; nia). unfold tr. rewrite Nat.div_add by lia. rewrite Nat.div_small by auto. reflexivity. Qed.
Lemma rsum_pairs lu lw f : rsum (lw * lu) f = rsum lw (fun k => rsum lu (fun j => f (k * lu + j)%nat)).
Proof. unfold rsum at 1. rewrite (nsum_mul RRing). apply rsum_ext. intros k _. apply rsum_ext. intros j _. f_equal. lia. Qed.
Lemma rsum_tr lu lw f : rsum (lu * lw) (fun a => f (tr lu lw a)) = rsum (lw * lu) f.
Proof.
  rewrite (Nat.mul_comm lu lw), (rsum_pairs lu lw). rewrite (Nat.mul_comm lw lu), (rsum_pairs lw lu f), rsum_swap. apply rsum_ext. intros j Hj. apply rsum_ext. intros k Hk.
  f_equal. unfold tr. rewrite (Nat.add_comm (k * lu)), Nat.mod_add, Nat.mod_small, Nat.div_add, Nat.div_small by lia. lia.
Qed.

Section F.
Variables (big : R -> bool) (half : R) (n : nat) (h : hmat RRing) (fl : hflags) (V : inter RRing) (hf : bool) (mu : R) (z : option (nat -> R)).
Variable U : nat -> nat -> R.
Hypothesis Hn : (1 < n)%nat. Hypothesis Hn' : (n <= 32)%nat. Hypothesis Hh2 : half + half = 1.
Hypothesis HU : inter_U RRing V = Some U. Hypothesis HJ : inter_Jx RRing V = None -> inter_Jp RRing V = None.
Hypothesis HSx : osymm RRing n (inter_Jx RRing V). Hypothesis HSp : osymm RRing n (inter_Jp RRing V).
Hypothesis HS : forall sp, symm RRing n (hspin RRing h sp). Hypothesis Hset : settable RRing h fl = true.
Hypothesis HF : forall i j, (i < n)%nat -> (j < n)%nat -> hspin RRing h 1 i j = hspin RRing h 0 i j.
Variable eigh : dense RRing -> res (list R * list (list R)).
Variable eigsh : nat -> Z -> (list R -> res (list R)) -> res (list R * list (list R)).
Hypothesis HC : eigh_contract eigh.
Variables (es : espace RRing) (egs : option R).
Hypothesis HB : build_espace RRing Rleb big half eigh eigsh n h fl V hf mu z None "sz" = Ok (es, egs).
Notation HM := (ham big half n h V hf mu z U).

Lemma ham_swap ub db ua da : (ub < 2 ^ N.of_nat n)%N -> (db < 2 ^ N.of_nat n)%N -> (ua < 2 ^ N.of_nat n)%N -> (da < 2 ^ N.of_nat n)%N -> HM db ub da ua = HM ub db ua da.
Proof.
  intros. unfold ham. apply (hamiltonian_swap RRing); auto.
  - intros i Hi. now rewrite HF.
  - intros i j Hi Hj. unfold offdiag. now rewrite HF.
Qed.
Lemma smat_swap p q a b : (a < length (cand n p) * length (cand n q))%nat -> (b < length (cand n p) * length (cand n q))%nat ->
  smat big half n h V hf mu z U (cand n q) (cand n p) (tr (length (cand n p)) (length (cand n q)) a) (tr (length (cand n p)) (length (cand n q)) b) =
  smat big half n h V hf mu z U (cand n p) (cand n q) a b.
Proof.
  intros Ha Hb. unfold smat. rewrite !tr_mod, !tr_div by auto.
  assert (B : forall r i, (i < length (cand n r))%nat -> (nth i (cand n r) 0 < 2 ^ N.of_nat n)%N) by (intros r i Hi; apply (cand_In n r), nth_In, Hi).
  assert (0 < length (cand n p))%nat by nia.
  apply ham_swap; apply B; try (apply Nat.mod_upper_bound; lia); apply Nat.div_lt_upper_bound; lia.
Qed.
Theorem flip_spectrum p q s s' : In ([p; q], s) es -> In ([q; p], s') es -> s_vals RRing s = s_vals RRing s'.
Proof.
  intros I I'.
  destruct (exact_sector big half n h fl V hf mu z U eigh eigsh Hn Hn' Hh2 HU HJ HSx HSp HS Hset HC es egs HB p q s I) as (_ & cols & _ & LV & _ & _ & ON & EV & AS).
  destruct (exact_sector big half n h fl V hf mu z U eigh eigsh Hn Hn' Hh2 HU HJ HSx HSp HS Hset HC es egs HB q p s' I') as (_ & cols' & _ & LV' & _ & _ & ON' & EV' & AS').
  set (lu := length (cand n p)) in *. set (lw := length (cand n q)) in *. pose proof (Nat.mul_comm lu lw) as CM.
  apply (nth_ext _ _ 0 0); [exact (eq_trans LV (eq_trans CM (eq_sym LV')))|]. intros k Hk0.
  assert (Hk : (k < lu * lw)%nat) by exact (eq_ind _ (fun m => (k < m)%nat) Hk0 _ LV).
  apply (spectrum_unique (lu * lw) (smat big half n h V hf mu z U (cand n p) (cand n q)) (fun k i => nth i (nth k cols []) 0) (fun k => nth k (s_vals RRing s) 0)
    (fun k i => nth (tr lu lw i) (nth k cols' []) 0) (fun k => nth k (s_vals RRing s') 0) k ON EV AS); [| | |exact Hk].
  - intros j l Hj Hl. transitivity (rsum (lw * lu) (fun i => nth i (nth j cols' []) 0 * nth i (nth l cols' []) 0)).
    + unfold dot. exact (rsum_tr lu lw (fun i => nth i (nth j cols' []) 0 * nth i (nth l cols' []) 0)).
    + apply ON'; lia.
  - intros j i Hj Hi. transitivity (rsum (lw * lu) (fun b => smat big half n h V hf mu z U (cand n q) (cand n p) (tr lu lw i) b * nth b (nth j cols' []) 0)).
    + rewrite <- rsum_tr. unfold mv. apply rsum_ext. intros b Hb. f_equal. symmetry. now apply smat_swap.
    + apply EV'; [lia|]. now apply tr_lt.
  - intros j l Hj Hl. apply AS'; lia.
Qed.
End F.
