(** The isolated site: functions and self-energy with the filling in closed form. *)
From Coq Require Import String Reals List Arith NArith ZArith Bool Lia Lra.
From Verif Require Import Base RBase RLin CBase SectorModel LocalModel HoppingModel MatvecModel MbModel MbSpec EspaceModel ProjModel ProjSpec CfModel GfModel GfSpec GmModel GmSpec ExactSpec
  ObsModel ObsSpec OccSpec GflModel GflSpec AgrModel AgrInstProofs AtomSpec AtomProofs AtomInstProofs AtomOccProofs.
Import ListNotations.
Local Open Scope R_scope.

Section Main.
Variables (big : R -> bool) (half : R) (n : nat) (h : hmat RRing) (fl : hflags) (V : inter RRing) (hf : bool) (mu : R) (zz : option (nat -> R)) (U : nat -> nat -> R).
Hypothesis MO : model_ok half n h fl V U.
Hypothesis HJx : inter_Jx RRing V = None.
Hypothesis HD : forall i j, (i < n)%nat -> (j < n)%nat -> i <> j -> U i j = 0.
Hypothesis HI : detached big n h.
Variable eigh : dense RRing -> res (list R * list (list R)).
Variable eigsh : nat -> Z -> (list R -> res (list R)) -> res (list R * list (list R)).
Hypothesis HC : eigh_contract eigh.
Variables (es : espace RRing) (e : R).
Hypothesis HB : build_espace RRing Rleb big half eigh eigsh n h fl V hf mu zz None "sz" = Ok (es, Some e).
Variable beta : R.
Notation lev := (site_level half h hf mu U).
Notation UU := (U 0%nat 0%nat).
Notation m r := (atom_filling beta (lev r) (lev (1 - r)%nat) UU).

Lemma filling_closed r : (r <= 1)%nat -> filling n es e beta r = m r.
Proof.
  intros Hr. pose proof (filling_atom big half n h fl V hf mu zz U MO HJx HD HI eigh eigsh HC es e beta HB) as [A B].
  destruct r as [|[|]]; [exact A|exact B|lia].
Qed.
Theorem main_occupation scts : Forall2 (fun e o => stored (snd e) o) es scts -> exists u d, fst (get_occupation scts e beta n) = Ok (u, d) /\ nth 0 u 0 = m 0%nat /\ nth 0 d 0 = m 1%nat.
Proof.
  intros ST. destruct (stored_filling big half n fl V hf mu zz U HD eigh eigsh HC beta h es e scts MO HB ST) as (u & d & E & E0 & E1).
  exists u, d. split; [exact E|]. rewrite E0, E1. split; apply filling_closed; lia.
Qed.
Theorem main_exact s : (s <= 1)%nat -> exists g, build_gf2_exact n es beta e (Z.of_nat s) = Ok g /\
  forall a eta, im (zpoint a eta) <> 0 -> exists G, gm_call g a eta = Ok G /\ GmSpec.entry G 0 0 = two_poles (lev s) UU (1 - m (1 - s)%nat) (m (1 - s)%nat) (zpoint a eta).
Proof.
  intros Hs. pose proof (atom_exact big half n h fl V hf mu zz U MO HJx HD HI eigh eigsh HC es e HB s Hs beta) as Q.
  rewrite (filling_closed (1 - s)) in Q by lia. exact Q.
Qed.
Theorem main_lanczos s tridiag eight repr : (s <= 1)%nat -> repr = "cf"%string \/ repr = "sp"%string /\ GflSpec.eigh_sound eight ->
  krylov n (product_of big half n h fl V hf mu zz) tridiag (Z.of_nat s) es (fun op p' q' t i a => exc n op (Z.of_nat s) 0 p' q' t i a) 11 ->
  exists ge gh, gf_lanczos_of big half eigh eigsh n h fl V hf mu zz tridiag eight es beta e 0 repr (Z.of_nat s) false = Ok (es, ge, gh) /\
  forall a eta, im (zpoint a eta) <> 0 -> gl_call ge a eta = Ok (two_poles (lev s) UU (1 - m (1 - s)%nat) (m (1 - s)%nat) (zpoint a eta)).
Proof.
  intros Hs HR HK. pose proof (atom_lanczos big half n h fl V hf mu zz U MO HJx HD HI eigh eigsh HC es e HB s Hs beta tridiag eight repr HR HK) as Q.
  rewrite (filling_closed (1 - s)) in Q by lia. exact Q.
Qed.
End Main.
Lemma filling_bounds beta e e' u : 0 < atom_filling beta e e' u < 1.
Proof.
  unfold atom_filling. pose proof (exp_pos (- beta * e)). pose proof (exp_pos (- beta * e')). pose proof (exp_pos (- beta * (e + e' + u))).
  split; [apply Rdiv_lt_0_compat; lra|]. apply (Rmult_lt_reg_r (1 + exp (- beta * e) + exp (- beta * e') + exp (- beta * (e + e' + u)))); [lra|]. unfold Rdiv. rewrite Rmult_assoc, Rinv_l; lra.
Qed.
Lemma filling_half beta u : atom_filling beta (- (u / 2)) (- (u / 2)) u = 1 / 2.
Proof.
  unfold atom_filling. replace (- beta * (- (u / 2) + - (u / 2) + u)) with 0 by field. rewrite exp_0. pose proof (exp_pos (- beta * - (u / 2))). field. lra.
Qed.
