(** The occupations as response to the levels. *)
From Coq Require Import String Reals List Arith NArith ZArith Bool Lia Lra Psatz Ring.
From Verif Require Import EntProofs EntBathProofs.
From Verif Require Import Base RBase RLin CBase OperatorsModel OperatorsSpec LookupSpec LookupProofs SectorModel SectorSpec SectorProofs FockSpec FockProofs LocalModel LocalSpec HoppingModel
  CsrSpec NonLocalModel NonLocalSpec MatvecModel MatvecSpec MbModel MbSpec EspaceModel EspaceSpec ProjModel ProjSpec ProjProofs CfModel GfModel GfSpec GfProofs GfMoreProofs ObsModel ObsSpec ObsProofs ObsMoreProofs
  ExactSpec EighProofs ConserveProofs ExactProofs ExactMoreProofs DedModel DedSpec DedMoreProofs OccSpec OccProofs RespSpec RespProofs.
Import ListNotations.
Local Open Scope R_scope.

(** ** One dictionary: what its sectors are *)
Definition pos_u (n p q a : nat) : N := nth (a mod length (cand n p)) (cand n p) 0%N.
Definition pos_d (n p q a : nat) : N := nth (a / length (cand n p)) (cand n q) 0%N.
Definition dimn n p q : nat := (length (cand n p) * length (cand n q))%nat.

Lemma pos_in n p q a : (a < dimn n p q)%nat -> In (pos_u n p q a) (cand n p) /\ In (pos_d n p q a) (cand n q).
Proof.
  unfold dimn, pos_u, pos_d. intros H. assert (0 < length (cand n p))%nat by nia. split; apply nth_In; [apply Nat.mod_upper_bound; lia|apply Nat.div_lt_upper_bound; lia].
Qed.
Lemma pos_inj n p q a b : (a < dimn n p q)%nat -> (b < dimn n p q)%nat -> pos_u n p q a = pos_u n p q b -> pos_d n p q a = pos_d n p q b -> a = b.
Proof.
  unfold dimn, pos_u, pos_d. intros Ha Hb EU ED. assert (L : (0 < length (cand n p))%nat) by nia.
  apply NoDup_nth in EU; [|apply increasing_NoDup, cand_increasing|apply Nat.mod_upper_bound; lia|apply Nat.mod_upper_bound; lia].
  apply NoDup_nth in ED; [|apply increasing_NoDup, cand_increasing|apply Nat.div_lt_upper_bound; lia|apply Nat.div_lt_upper_bound; lia].
  rewrite (Nat.div_mod a (length (cand n p))), (Nat.div_mod b (length (cand n p))) by lia. congruence.
Qed.

(** [F] solves the sectors of [M], a matrix in the occupation basis. *)
Definition solves (n : nat) (M : N -> N -> N -> N -> R) (F : family) : Prop := forall p q, (p <= n)%nat -> (q <= n)%nat ->
  nvals (F p q) = dimn n p q /\ orthonormal (dimn n p q) (dimn n p q) (fun k i => nth i (vec RRing (F p q) k) 0) /\
  forall k a, (k < dimn n p q)%nat -> (a < dimn n p q)%nat ->
    rsum (dimn n p q) (fun b => M (pos_u n p q b) (pos_d n p q b) (pos_u n p q a) (pos_d n p q a) * nth b (vec RRing (F p q) k) 0) = energy (F p q) k * nth a (vec RRing (F p q) k) 0.

Section Two.
Variables (n : nat) (M M' : N -> N -> N -> N -> R) (D : N -> N -> R) (F F' : family).
Hypothesis SF : solves n M F.
Hypothesis SF' : solves n M' F'.
Hypothesis HD : forall p q a b, (p <= n)%nat -> (q <= n)%nat -> (a < dimn n p q)%nat -> (b < dimn n p q)%nat ->
  M' (pos_u n p q b) (pos_d n p q b) (pos_u n p q a) (pos_d n p q a) = M (pos_u n p q b) (pos_d n p q b) (pos_u n p q a) (pos_d n p q a) + if (a =? b)%nat then D (pos_u n p q a) (pos_d n p q a) else 0.
Definition dval p q k : R := rsum (dimn n p q) (fun a => D (pos_u n p q a) (pos_d n p q a) * (nth a (vec RRing (F p q) k) 0 * nth a (vec RRing (F p q) k) 0)).
Variables (beta eg eg' : R).
Notation Z := (Zsum n beta eg F). Notation Z' := (Zsum n beta eg' F').
Hypothesis ZP : 0 < Z. Hypothesis ZP' : 0 < Z'.
Notation L := (ln Z - beta * eg). Notation L' := (ln Z' - beta * eg').

Lemma weight_exp eg0 Z0 E : 0 < Z0 -> exp (- beta * E - (ln Z0 - beta * eg0)) = weight beta eg0 E * / Z0.
Proof. intros H. unfold weight. rewrite <- (exp_ln (/ Z0)) by (now apply Rinv_0_lt_compat). rewrite <- exp_plus, ln_Rinv by auto. f_equal. ring. Qed.
Lemma norm_one F0 eg0 : 0 < Zsum n beta eg0 F0 -> (forall p q, (p <= n)%nat -> (q <= n)%nat -> nvals (F0 p q) = dimn n p q) ->
  rsum (S n) (fun p => rsum (S n) (fun q => rsum (dimn n p q) (fun i => exp (- beta * energy (F0 p q) i - (ln (Zsum n beta eg0 F0) - beta * eg0))))) = 1.
Proof.
  intros HP HN. transitivity (Zsum n beta eg0 F0 * / Zsum n beta eg0 F0); [|apply Rinv_r; lra]. symmetry. set (Z0 := Zsum n beta eg0 F0) in *. unfold Z0 at 1, Zsum. rewrite <- rsum_scal_r. apply rsum_ext. intros p Hp. rewrite <- rsum_scal_r. apply rsum_ext. intros q Hq.
  rewrite HN, <- rsum_scal_r by lia. apply rsum_ext. intros i _. symmetry. now apply weight_exp.
Qed.
Lemma quad_shift p q k : (p <= n)%nat -> (q <= n)%nat -> (k < dimn n p q)%nat ->
  quad (dimn n p q) (fun a b => M' (pos_u n p q b) (pos_d n p q b) (pos_u n p q a) (pos_d n p q a)) (fun k i => nth i (vec RRing (F p q) k) 0) k - energy (F p q) k = dval p q k.
Proof.
  intros Hp Hq Hk. destruct (SF p q Hp Hq) as (_ & ON & EV). set (d := dimn n p q) in *. set (x a := nth a (vec RRing (F p q) k) 0).
  unfold quad. rewrite (rsum_ext d _ (fun a => energy (F p q) k * (x a * x a) + D (pos_u n p q a) (pos_d n p q a) * (x a * x a))).
  - rewrite rsum_add, rsum_scal_l. pose proof (ON k k Hk Hk) as O. rewrite Nat.eqb_refl in O. unfold dval. fold d. unfold x. rewrite O. ring.
  - intros a Ha. fold (x a). rewrite (rsum_ext d _ (fun b => M (pos_u n p q b) (pos_d n p q b) (pos_u n p q a) (pos_d n p q a) * x b + (if (a =? b)%nat then D (pos_u n p q a) (pos_d n p q a) else 0) * x b)).
    + rewrite rsum_add. unfold x at 2. rewrite (EV k a Hk Ha). rewrite (rsum_single d _ a Ha), Nat.eqb_refl; [fold (x a); ring|]. intros b Hb N. destruct (Nat.eqb_spec a b); [congruence|ring].
    + intros b Hb. unfold d in *. rewrite (HD p q a b Hp Hq Ha Hb). fold (x b). ring.
Qed.
Lemma bogoliubov : 0 <= beta * (rsum (S n) (fun p => rsum (S n) (fun q => rsum (dimn n p q) (fun i => weight beta eg (energy (F p q) i) * dval p q i))) / Z) + (L' - L).
Proof.
  pose proof (norm_one F eg ZP (fun p q Hp Hq => proj1 (SF p q Hp Hq))) as N1. pose proof (norm_one F' eg' ZP' (fun p q Hp Hq => proj1 (SF' p q Hp Hq))) as N2.
  set (T := rsum (S n) (fun p => rsum (S n) (fun q => rsum (dimn n p q) (fun i => exp (- beta * energy (F p q) i - L) * (beta * dval p q i + (L' - L)))))).
  assert (T0 : 0 <= T).
  { replace 0 with (1 - 1) by ring. rewrite <- N1 at 1. rewrite <- N2. unfold T. rewrite <- rsum_sub. apply rsum_le. intros p Hp. rewrite <- rsum_sub. apply rsum_le. intros q Hq.
    destruct (SF p q ltac:(lia) ltac:(lia)) as (_ & ON & _). destruct (SF' p q ltac:(lia) ltac:(lia)) as (_ & ON' & EV').
    eapply Rle_trans; [exact (sector_bogoliubov (dimn n p q) _ _ _ (energy (F' p q)) ON ON' EV' beta L L' (energy (F p q)))|]. right. apply rsum_ext. intros i Hi. now rewrite quad_shift by (auto; lia). }
  enough (E : T = beta * (rsum (S n) (fun p => rsum (S n) (fun q => rsum (dimn n p q) (fun i => weight beta eg (energy (F p q) i) * dval p q i))) / Z) + (L' - L)) by (rewrite <- E; exact T0).
  match type of N1 with ?S2 = 1 => transitivity (beta * (rsum (S n) (fun p => rsum (S n) (fun q => rsum (dimn n p q) (fun i => weight beta eg (energy (F p q) i) * dval p q i))) / Z) + (L' - L) * S2); [|rewrite N1; ring] end.
  unfold T, Rdiv. rewrite <- rsum_scal_r, <- !rsum_scal_l, <- rsum_add. apply rsum_ext. intros p Hp. rewrite <- rsum_scal_r, <- !rsum_scal_l, <- rsum_add. apply rsum_ext. intros q Hq.
  rewrite <- rsum_scal_r, <- !rsum_scal_l, <- rsum_add. apply rsum_ext. intros i Hi. rewrite weight_exp by auto. ring.
Qed.
End Two.

(** ** Change of the levels *)
Lemma hop_same n (T T' : nat -> nat -> R) s t st : (forall i j, (i < n)%nat -> (j < n)%nat -> T i j = T' i j) -> hop_op RRing n T s t st = hop_op RRing n T' s t st.
Proof. intros H. unfold hop_op, coupling. apply nsum_ext. intros i Hi. apply nsum_ext. intros j Hj. now rewrite (H i j Hi Hj). Qed.
Lemma offdiag_same big n h h' s i j : same_hopping n h h' -> (i < n)%nat -> (j < n)%nat -> offdiag RRing big (hspin RRing h s) i j = offdiag RRing big (hspin RRing h' s) i j.
Proof. intros H Hi Hj. unfold offdiag. destruct (Nat.eqb_spec i j) as [|N]; [reflexivity|]. now rewrite (H s i j Hi Hj N). Qed.
Definition shift_of n (a b : nat -> R) (u d : N) : R := rsum n (fun i => a i * num RRing u i + b i * num RRing d i).
Lemma fock_shift half n (a b a' b' : nat -> R) V z hf u d :
  fock_energy RRing half n a' b' V z hf u d = fock_energy RRing half n a b V z hf u d + shift_of n (fun i => a' i - a i) (fun i => b' i - b i) u d.
Proof.
  unfold fock_energy. cbv zeta. match goal with |- cadd RRing (cadd RRing ?x ?y) ?z = cadd RRing (cadd RRing ?x' ?y) ?z + ?s => assert (E : x = x' + s) end.
  { unfold shift_of. transitivity (rsum n (fun i => (a i * num RRing u i + b i * num RRing d i) + ((a' i - a i) * num RRing u i + (b' i - b i) * num RRing d i))).
    - apply rsum_ext. intros i _. match goal with |- ?x = ?y => change (@eq R x y) end. cbn [cadd cmul RRing]. ring.
    - apply rsum_add. }
  rewrite E. cbn [cadd RRing]. match goal with |- ?x = ?y => change (@eq R x y) end. ring.
Qed.
Lemma many_body_shift big half n h h' V hf mu mu' z U p q a b : same_hopping n h h' -> (p <= n)%nat -> (q <= n)%nat -> (a < dimn n p q)%nat -> (b < dimn n p q)%nat ->
  many_body big half n h' V hf mu' z U (pos_u n p q b) (pos_d n p q b) (pos_u n p q a) (pos_d n p q a) =
  many_body big half n h V hf mu z U (pos_u n p q b) (pos_d n p q b) (pos_u n p q a) (pos_d n p q a) +
  if (a =? b)%nat then shift_of n (fun i => level h' mu' 0 i - level h mu 0 i) (fun i => level h' mu' 1 i - level h mu 1 i) (pos_u n p q a) (pos_d n p q a) else 0.
Proof.
  intros HT Hp Hq Ha Hb. destruct (pos_in n p q a Ha) as [Ua Da]. destruct (pos_in n p q b Hb) as [Ub Db]. unfold many_body, hamiltonian. cbv zeta.
  rewrite !(hop_same n (offdiag RRing big (hspin RRing h' _)) _ _ _ _ (fun i j Hi Hj => eq_sym (offdiag_same big n h h' _ i j HT Hi Hj))).
  rewrite combine_eqb by (first [exact (proj1 (in_cand_lt n p _ Ua))|exact (proj1 (in_cand_lt n p _ Ub))]).
  assert (E : ((pos_u n p q b =? pos_u n p q a)%N && (pos_d n p q b =? pos_d n p q a)%N)%bool = (a =? b)%nat).
  { destruct (Nat.eqb_spec a b) as [->|N]; [now rewrite !N.eqb_refl|]. apply andb_false_iff. destruct (N.eqb_spec (pos_u n p q b) (pos_u n p q a)) as [E1|]; [|now left]. right. apply N.eqb_neq. intros E2. apply N. symmetry. exact (pos_inj n p q b a Hb Ha E1 E2). }
  rewrite E. destruct (a =? b)%nat.
  - rewrite (fock_shift half n (fun i => cadd RRing (hspin RRing h 0 i i) mu) (fun i => cadd RRing (hspin RRing h 1 i i) mu)). cbn [cadd cmul RRing]. unfold level.
    match goal with |- ?x = ?y => change (@eq R x y) end. ring.
  - match goal with |- ?x = ?y => change (@eq R x y) end. symmetry. apply Rplus_0_r.
Qed.

(** ** What the code stores *)
Section Built.
Variables (big : R -> bool) (half : R) (n : nat) (h : hmat RRing) (fl : hflags) (V : inter RRing) (hf : bool) (mu : R) (z : option (nat -> R)).
Variable U : nat -> nat -> R.
Variable eigh : dense RRing -> res (list R * list (list R)).
Variable eigsh : nat -> Z -> (list R -> res (list R)) -> res (list R * list (list R)).
Hypothesis MO : model_ok half n h fl V U. Hypothesis HC : eigh_contract eigh.
Variables (es : espace RRing) (e : R) (scts : list osct).
Hypothesis HB : build_espace RRing Rleb big half eigh eigsh n h fl V hf mu z None "sz" = Ok (es, Some e).
Hypothesis HS : Forall2 (fun e o => stored (snd e) o) es scts.
Variable beta : R.

Lemma built : exists F, lists_family n es F /\ (forall p q, (p <= n)%nat -> (q <= n)%nat -> eigenbasis (F p q)) /\ solves n (many_body big half n h V hf mu z U) F /\ 0 < Zsum n beta e F.
Proof.
  destruct MO as ((Hn & Hn' & Hh) & HU & HJ & (HSx & HSp) & HSy & Hset).
  destruct (exact_family big half n h fl V hf mu z U Hn Hn' Hh HU HJ HSx HSp HSy Hset eigh eigsh HC es (Some e) HB) as (F & LF & EB & _).
  exists F. split; [exact LF|]. split; [exact EB|]. split; [|exact (Zsum_pos n es F beta e 0 LF ltac:(lia) EB)].
  intros p q Hp Hq. assert (I : In ([p; q], F p q) es) by (apply (proj1 (proj2 LF)); exists p, q; auto).
  destruct (exact_sector big half n h fl V hf mu z U eigh eigsh Hn Hn' Hh HU HJ HSx HSp HSy Hset HC es (Some e) HB p q (F p q) I) as (S1 & cols & SV & LV & LC & _ & ON & EV & _).
  split; [exact LV|]. unfold vec. rewrite SV. split; [exact ON|]. exact EV.
Qed.
Lemma free_Z F : lists_family n es F -> free_energy beta es e = e - ln (Zsum n beta e F) / beta.
Proof.
  intros (ND & HF & _). unfold free_energy. rewrite entropy_sums. cbn [snd]. do 3 f_equal. rewrite total_sum, map_length.
  transitivity (tot (fun x => weight beta e x) (concat (values es))).
  - rewrite tot_nth. apply rsum_ext. intros i Hi. rewrite (nth_indep _ 0 (exp (- beta * (0 - e)))) by (now rewrite map_length). exact (map_nth (fun x => exp (- beta * (x - e))) _ 0 i).
  - apply (values_sum _ n); auto.
    + intros key. split.
      * intros I. apply in_map_iff in I. destruct I as ([k s] & <- & I). apply HF in I. destruct I as (p & q & Hp & Hq & E & _). exists p, q. auto.
      * intros (p & q & Hp & Hq & ->). apply in_map_iff. exists ([p; q], F p q). split; [reflexivity|]. apply HF. exists p, q. auto.
    + intros p q s I. apply HF in I. destruct I as (p' & q' & _ & _ & E & ->). injection E as <- <-. apply tot_nth.
Qed.
Lemma thermal_any F orb : lists_family n es F -> thermal scts e beta n orb =
  rsum (S n) (fun p => rsum (S n) (fun q => rsum (nvals (F p q)) (fun j => weight beta e (energy (F p q) j) * expect RRing n (ups RRing (F p q)) (dws RRing (F p q)) (fun i => nth i (vec RRing (F p q) j) 0) orb))) / Zsum n beta e F.
Proof.
  intros HF. unfold thermal. rewrite (scts_Z n es F beta e HF scts HS). f_equal.
  apply (scts_bsum n es F HF scts HS _ (fun p q => rsum (nvals (F p q)) (fun j => weight beta e (energy (F p q) j) * expect RRing n (ups RRing (F p q)) (dws RRing (F p q)) (fun i => nth i (vec RRing (F p q) j) 0) orb))).
  intros p q o Hp Hq (SS & SV & MA & EN). unfold boltzmann. rewrite SV. apply rsum_ext. intros j Hj. f_equal. destruct (proj2 (proj2 HF) p q Hp Hq) as (_ & _ & _ & P4 & _).
  unfold sector_expect. rewrite SS, P4, SV. change (length (s_vals RRing (F p q))) with (nvals (F p q)). rewrite (Nat.mul_comm (length (ups RRing (F p q)))). fold (sdim RRing (F p q)). unfold expect. fold (sdim RRing (F p q)).
  apply rsum_ext. intros a Ha. destruct (occ _ orb); [|reflexivity]. now rewrite EN.
Qed.
Lemma occupations_work F (a b : nat -> R) : lists_family n es F -> (forall p q, (p <= n)%nat -> (q <= n)%nat -> eigenbasis (F p q)) -> solves n (many_body big half n h V hf mu z U) F -> exists u d,
  fst (get_occupation scts e beta n) = Ok (u, d) /\
  work n a b u d = rsum (S n) (fun p => rsum (S n) (fun q => rsum (dimn n p q) (fun i => weight beta e (energy (F p q) i) * dval n (shift_of n a b) F p q i))) / Zsum n beta e F.
Proof.
  intros HF EB SF. destruct MO as ((Hn & Hn' & _) & _).
  destruct (thermal_ok scts e beta n (scts_ok n es F HF EB scts HS) (scts_nonempty n es F beta e 0 HF ltac:(lia) EB scts HS)) as (u & d & EO & _ & _ & HK).
  exists u, d. split; [exact EO|]. unfold work.
  rewrite (rsum_ext n _ (fun i => (a i * thermal scts e beta n i + b i * thermal scts e beta n (n + i)))) by (intros i Hi; destruct (HK i Hi) as (-> & -> & _); reflexivity).
  set (Z := Zsum n beta e F).
  set (X orb p q j := expect RRing n (ups RRing (F p q)) (dws RRing (F p q)) (fun i => nth i (vec RRing (F p q) j) 0) orb).
  rewrite (rsum_ext n _ (fun i => rsum (S n) (fun p => rsum (S n) (fun q => rsum (nvals (F p q)) (fun j => weight beta e (energy (F p q) j) * (a i * X i p q j + b i * X (n + i)%nat p q j) * / Z))))).
  2:{ intros i Hi. rewrite !(thermal_any F _ HF). fold Z. unfold Rdiv.
      rewrite <- !rsum_scal_r, <- !rsum_scal_l, <- rsum_add. apply rsum_ext. intros p Hp.
      rewrite <- !rsum_scal_r, <- !rsum_scal_l, <- rsum_add. apply rsum_ext. intros q Hq. rewrite <- !rsum_scal_r, <- !rsum_scal_l, <- rsum_add. apply rsum_ext. intros j Hj. fold (X i p q j) (X (n + i)%nat p q j). ring. }
  rewrite rsum_swap. unfold Rdiv. rewrite <- rsum_scal_r. apply rsum_ext. intros p Hp. rewrite rsum_swap, <- rsum_scal_r. apply rsum_ext. intros q Hq. rewrite rsum_swap, <- rsum_scal_r.
  destruct (SF p q ltac:(lia) ltac:(lia)) as (NV & _). rewrite NV. apply rsum_ext. intros j Hj. rewrite rsum_scal_r, rsum_scal_l. f_equal. f_equal.
  destruct (proj2 (proj2 HF) p q ltac:(lia) ltac:(lia)) as (_ & _ & _ & _ & P5 & P6 & _). rewrite states_at in P5, P6 by lia. injection P5 as P5. injection P6 as P6.
  assert (BU : forall s, In s (cand n p) -> (s < 2 ^ N.of_nat n)%N) by (intros s I; exact (proj1 (in_cand_lt n p s I))).
  unfold X, dval, expect, shift_of. rewrite <- P5, <- P6. rewrite (Nat.mul_comm (length (cand n q))). fold (dimn n p q).
  rewrite (rsum_ext (dimn n p q) _ (fun t => rsum n (fun i => (a i * num RRing (pos_u n p q t) i + b i * num RRing (pos_d n p q t) i) * (nth t (vec RRing (F p q) j) 0 * nth t (vec RRing (F p q) j) 0)))) by (intros; now rewrite <- rsum_scal_r).
  rewrite rsum_swap. apply rsum_ext. intros i Hi. fold (rsum (dimn n p q)). match goal with |- a i * ?x + b i * ?y = _ => change x with (rsum (dimn n p q) (fun t => if occ (fock_at n (cand n p) (cand n q) t) i then nth t (vec RRing (F p q) j) 0 * nth t (vec RRing (F p q) j) 0 else 0));
    change y with (rsum (dimn n p q) (fun t => if occ (fock_at n (cand n p) (cand n q) t) (n + i) then nth t (vec RRing (F p q) j) 0 * nth t (vec RRing (F p q) j) 0 else 0)) end.
  rewrite <- !rsum_scal_l, <- rsum_add. apply rsum_ext. intros t Ht. assert (Ht' : (t < length (cand n q) * length (cand n p))%nat) by (unfold dimn in Ht; lia).
  rewrite (occ_fock_up n) by auto. rewrite (occ_fock_dw n) by auto. unfold num. fold (pos_u n p q t) (pos_d n p q t). change (nth (t mod length (cand n p)) (cand n p) 0%N) with (pos_u n p q t). change (nth (t / length (cand n p)) (cand n q) 0%N) with (pos_d n p q t).
  destruct (occ (pos_u n p q t) i), (occ (pos_d n p q t) i); cbn [c0 c1 RRing]; ring.
Qed.
End Built.

(** ** Two models that differ in the levels *)
Section Response.
Variables (big : R -> bool) (half : R) (n : nat) (h h' : hmat RRing) (fl fl' : hflags) (V : inter RRing) (hf : bool) (mu mu' : R) (z : option (nat -> R)).
Variable U : nat -> nat -> R.
Variables eigh eigh' : dense RRing -> res (list R * list (list R)).
Variables eigsh eigsh' : nat -> Z -> (list R -> res (list R)) -> res (list R * list (list R)).
Hypothesis MO : model_ok half n h fl V U. Hypothesis HC : eigh_contract eigh.
Hypothesis MO' : model_ok half n h' fl' V U. Hypothesis HC' : eigh_contract eigh'.
Hypothesis HT : same_hopping n h h'.
Variables (es es' : espace RRing) (e e' : R) (scts scts' : list osct).
Hypothesis HB : build_espace RRing Rleb big half eigh eigsh n h fl V hf mu z None "sz" = Ok (es, Some e).
Hypothesis HB' : build_espace RRing Rleb big half eigh' eigsh' n h' fl' V hf mu' z None "sz" = Ok (es', Some e').
Hypothesis HS : Forall2 (fun e o => stored (snd e) o) es scts.
Variable beta : R. Hypothesis Hb : 0 < beta.
Notation du := (fun i => level h' mu' 0 i - level h mu 0 i). Notation dd := (fun i => level h' mu' 1 i - level h mu 1 i).

Lemma response_upper : exists u d, fst (get_occupation scts e beta n) = Ok (u, d) /\ free_energy beta es' e' - free_energy beta es e <= work n du dd u d.
Proof.
  destruct (built big half n h fl V hf mu z U eigh eigsh MO HC es e HB beta) as (F & LF & EB & SF & ZP). destruct (built big half n h' fl' V hf mu' z U eigh' eigsh' MO' HC' es' e' HB' beta) as (F' & LF' & EB' & SF' & ZP').
  destruct (occupations_work big half n h fl V hf mu z U MO es e scts HS beta F du dd LF EB SF) as (u & d & EO & W). exists u, d. split; [exact EO|].
  rewrite (free_Z n es e beta F LF), (free_Z n es' e' beta F' LF'), W.
  pose proof (bogoliubov n _ _ (shift_of n du dd) F F' SF SF' (fun p q a b Hp Hq Ha Hb0 => many_body_shift big half n h h' V hf mu mu' z U p q a b HT Hp Hq Ha Hb0) beta e e' ZP ZP') as B.
  apply (Rmult_le_reg_l beta); [exact Hb|]. match goal with |- beta * (e' - ?x / beta - (e - ?y / beta)) <= _ => replace (beta * (e' - x / beta - (e - y / beta))) with (y - beta * e - (x - beta * e')) by (field; lra) end. lra.
Qed.
End Response.

Lemma same_hopping_sym n h h' : same_hopping n h h' -> same_hopping n h' h.
Proof. intros H s i j Hi Hj N. symmetry. now apply H. Qed.
Lemma work_opp n a b u d : work n (fun i => - a i) (fun i => - b i) u d = - work n a b u d.
Proof. unfold work. rewrite (rsum_ext n _ (fun i => (-1) * (a i * nth i u 0 + b i * nth i d 0))) by (intros; ring). rewrite rsum_scal_l. ring. Qed.
Lemma work_ext n a b a' b' u d : (forall i, (i < n)%nat -> a i = a' i /\ b i = b' i) -> work n a b u d = work n a' b' u d.
Proof. intros H. unfold work. apply rsum_ext. intros i Hi. destruct (H i Hi) as [-> ->]. reflexivity. Qed.

Section Both.
Variables (big : R -> bool) (half : R) (n : nat) (h h' : hmat RRing) (fl fl' : hflags) (V : inter RRing) (hf : bool) (mu mu' : R) (z : option (nat -> R)).
Variable U : nat -> nat -> R.
Variables eigh eigh' : dense RRing -> res (list R * list (list R)).
Variables eigsh eigsh' : nat -> Z -> (list R -> res (list R)) -> res (list R * list (list R)).
Hypothesis MO : model_ok half n h fl V U. Hypothesis HC : eigh_contract eigh.
Hypothesis MO' : model_ok half n h' fl' V U. Hypothesis HC' : eigh_contract eigh'.
Hypothesis HT : same_hopping n h h'.
Variables (es es' : espace RRing) (e e' : R) (scts scts' : list osct).
Hypothesis HB : build_espace RRing Rleb big half eigh eigsh n h fl V hf mu z None "sz" = Ok (es, Some e).
Hypothesis HB' : build_espace RRing Rleb big half eigh' eigsh' n h' fl' V hf mu' z None "sz" = Ok (es', Some e').
Hypothesis HS : Forall2 (fun e o => stored (snd e) o) es scts.
Hypothesis HS' : Forall2 (fun e o => stored (snd e) o) es' scts'.
Variable beta : R. Hypothesis Hb : 0 < beta.
Notation du := (fun i => level h' mu' 0 i - level h mu 0 i). Notation dd := (fun i => level h' mu' 1 i - level h mu 1 i).

Theorem response : exists u d u' d', fst (get_occupation scts e beta n) = Ok (u, d) /\ fst (get_occupation scts' e' beta n) = Ok (u', d') /\
  work n du dd u' d' <= free_energy beta es' e' - free_energy beta es e <= work n du dd u d.
Proof.
  destruct (response_upper big half n h h' fl fl' V hf mu mu' z U eigh eigh' eigsh eigsh' MO HC MO' HC' HT es es' e e' scts HB HB' HS beta Hb) as (u & d & O & A).
  destruct (response_upper big half n h' h fl' fl V hf mu' mu z U eigh' eigh eigsh' eigsh MO' HC' MO HC (same_hopping_sym _ _ _ HT) es' es e' e scts' HB' HB HS' beta Hb) as (u' & d' & O' & A').
  exists u, d, u', d'. split; [exact O|]. split; [exact O'|]. split; [|exact A].
  rewrite (work_ext n _ _ (fun i => - du i) (fun i => - dd i)) in A' by (intros; split; ring). rewrite work_opp in A'. lra.
Qed.
Lemma occupations_range : exists u d, fst (get_occupation scts e beta n) = Ok (u, d) /\ forall i, (i < n)%nat -> 0 <= nth i u 0 <= 1 /\ 0 <= nth i d 0 <= 1.
Proof.
  destruct (built big half n h fl V hf mu z U eigh eigsh MO HC es e HB beta) as (F & LF & EB & _ & _). destruct MO as ((Hn & _) & _).
  destruct (thermal_ok scts e beta n (scts_ok n es F LF EB scts HS) (scts_nonempty n es F beta e 0 LF ltac:(lia) EB scts HS)) as (u & d & EO & _ & _ & HK).
  exists u, d. split; [exact EO|]. intros i Hi. now destruct (HK i Hi) as (_ & _ & HR).
Qed.
End Both.

(** ** Consequences *)
Section Solved.
Variables (big : R -> bool) (half : R) (n : nat) (V : inter RRing) (U : nat -> nat -> R) (hf : bool) (z : option (nat -> R)).
Notation slv := (solved big half n V U hf z).
Lemma solved_response beta h mu es e scts h' mu' es' e' scts' : 0 < beta -> slv h mu es e scts -> slv h' mu' es' e' scts' -> same_hopping n h h' ->
  exists u d u' d', fst (get_occupation scts e beta n) = Ok (u, d) /\ fst (get_occupation scts' e' beta n) = Ok (u', d') /\
    work n (fun i => level h' mu' 0 i - level h mu 0 i) (fun i => level h' mu' 1 i - level h mu 1 i) u' d' <= free_energy beta es' e' - free_energy beta es e /\
    free_energy beta es' e' - free_energy beta es e <= work n (fun i => level h' mu' 0 i - level h mu 0 i) (fun i => level h' mu' 1 i - level h mu 1 i) u d.
Proof.
  intros Hb (fl & eigh & eigsh & MO & HC & HB & HS) (fl' & eigh' & eigsh' & MO' & HC' & HB' & HS') HT.
  exact (response big half n h h' fl fl' V hf mu mu' z U eigh eigh' eigsh eigsh' MO HC MO' HC' HT es es' e e' scts scts' HB HB' HS HS' beta Hb).
Qed.
Lemma solved_range beta h mu es e scts : slv h mu es e scts -> exists u d, fst (get_occupation scts e beta n) = Ok (u, d) /\ forall i, (i < n)%nat -> 0 <= nth i u 0 <= 1 /\ 0 <= nth i d 0 <= 1.
Proof. intros (fl & eigh & eigsh & MO & HC & HB & HS). exact (occupations_range big half n h fl V hf mu z U eigh eigsh MO HC es e scts HB HS beta). Qed.
Lemma work_single n0 a b u d i : (i < n0)%nat -> (forall j, (j < n0)%nat -> j <> i -> a j = 0) -> (forall j, (j < n0)%nat -> b j = 0) -> work n0 a b u d = a i * nth i u 0.
Proof. intros Hi A B. unfold work. rewrite (rsum_single n0 _ i Hi); [rewrite (B i Hi); ring|]. intros j Hj N. rewrite (A j Hj N), (B j Hj). ring. Qed.
Lemma work_single' n0 a b u d i : (i < n0)%nat -> (forall j, (j < n0)%nat -> j <> i -> b j = 0) -> (forall j, (j < n0)%nat -> a j = 0) -> work n0 a b u d = b i * nth i d 0.
Proof. intros Hi A B. unfold work. rewrite (rsum_single n0 _ i Hi); [rewrite (B i Hi); ring|]. intros j Hj N. rewrite (A j Hj N), (B j Hj). ring. Qed.

Lemma solved_site beta h mu es e scts h' mu' es' e' scts' s0 i0 : 0 < beta -> slv h mu es e scts -> slv h' mu' es' e' scts' -> same_hopping n h h' -> (s0 < 2)%nat -> (i0 < n)%nat ->
  (forall s i, (s < 2)%nat -> (i < n)%nat -> (s, i) <> (s0, i0) -> level h' mu' s i = level h mu s i) -> level h mu s0 i0 < level h' mu' s0 i0 ->
  exists u d u' d', fst (get_occupation scts e beta n) = Ok (u, d) /\ fst (get_occupation scts' e' beta n) = Ok (u', d') /\
    nth i0 (if (s0 =? 0)%nat then u' else d') 0 <= (free_energy beta es' e' - free_energy beta es e) / (level h' mu' s0 i0 - level h mu s0 i0) <= nth i0 (if (s0 =? 0)%nat then u else d) 0.
Proof.
  intros Hb S S' HT Hs Hi HL LT. destruct (solved_response beta h mu es e scts h' mu' es' e' scts' Hb S S' HT) as (u & d & u' & d' & O & O' & A & B).
  exists u, d, u', d'. split; [exact O|]. split; [exact O'|]. set (dl := level h' mu' s0 i0 - level h mu s0 i0) in *. assert (DP : 0 < dl) by (unfold dl; lra).
  assert (W : forall a b, work n (fun i => level h' mu' 0 i - level h mu 0 i) (fun i => level h' mu' 1 i - level h mu 1 i) a b = dl * nth i0 (if (s0 =? 0)%nat then a else b) 0).
  { intros a b. assert (Z : s0 = 0%nat \/ s0 = 1%nat) by lia. destruct Z; subst s0; cbn [Nat.eqb].
    - refine (work_single n (fun i => level h' mu' 0 i - level h mu 0 i) (fun i => level h' mu' 1 i - level h mu 1 i) a b i0 Hi _ _); intros j Hj; [intros N|]; cbv beta; rewrite HL; try ring; try lia; congruence.
    - refine (work_single' n (fun i => level h' mu' 0 i - level h mu 0 i) (fun i => level h' mu' 1 i - level h mu 1 i) a b i0 Hi _ _); intros j Hj; [intros N|]; cbv beta; rewrite HL; try ring; try lia; congruence. }
  rewrite W in A, B. unfold Rdiv. split.
  - apply (Rmult_le_reg_r dl); [exact DP|]. rewrite Rmult_assoc, Rinv_l by lra. lra.
  - apply (Rmult_le_reg_r dl); [exact DP|]. rewrite Rmult_assoc, Rinv_l by lra. lra.
Qed.
Lemma solved_mu beta h mu es e scts mu' es' e' scts' : 0 < beta -> slv h mu es e scts -> slv h mu' es' e' scts' -> mu < mu' ->
  exists u d u' d', fst (get_occupation scts e beta n) = Ok (u, d) /\ fst (get_occupation scts' e' beta n) = Ok (u', d') /\
    rsum n (fun i => nth i u' 0 + nth i d' 0) <= (free_energy beta es' e' - free_energy beta es e) / (mu' - mu) <= rsum n (fun i => nth i u 0 + nth i d 0).
Proof.
  intros Hb S S' LT. destruct (solved_response beta h mu es e scts h mu' es' e' scts' Hb S S' ltac:(intros s i j _ _ _; reflexivity)) as (u & d & u' & d' & O & O' & A & B).
  exists u, d, u', d'. split; [exact O|]. split; [exact O'|]. set (dl := mu' - mu) in *. assert (DP : 0 < dl) by (unfold dl; lra).
  assert (W : forall a b, work n (fun i => level h mu' 0 i - level h mu 0 i) (fun i => level h mu' 1 i - level h mu 1 i) a b = dl * rsum n (fun i => nth i a 0 + nth i b 0)).
  { intros a b. unfold work. rewrite <- rsum_scal_l. apply rsum_ext. intros i _. unfold level, dl. ring. }
  rewrite W in A, B. unfold Rdiv. split.
  - apply (Rmult_le_reg_r dl); [exact DP|]. rewrite Rmult_assoc, Rinv_l by lra. lra.
  - apply (Rmult_le_reg_r dl); [exact DP|]. rewrite Rmult_assoc, Rinv_l by lra. lra.
Qed.
Lemma solved_bounds beta h mu es e scts h' mu' es' e' scts' : 0 < beta -> slv h mu es e scts -> slv h' mu' es' e' scts' -> same_hopping n h h' ->
  (forall s i, (s < 2)%nat -> (i < n)%nat -> level h mu s i <= level h' mu' s i) ->
  0 <= free_energy beta es' e' - free_energy beta es e <= rsum n (fun i => (level h' mu' 0 i - level h mu 0 i) + (level h' mu' 1 i - level h mu 1 i)).
Proof.
  intros Hb S S' HT HL. destruct (solved_response beta h mu es e scts h' mu' es' e' scts' Hb S S' HT) as (u & d & u' & d' & O & O' & A & B).
  destruct (solved_range beta h mu es e scts S) as (u0 & d0 & O0 & RG). rewrite O in O0. injection O0 as <- <-. destruct (solved_range beta h' mu' es' e' scts' S') as (u0 & d0 & O0 & RG'). rewrite O' in O0. injection O0 as <- <-.
  split.
  - eapply Rle_trans; [|exact A]. unfold work. apply rsum_nonneg. intros i Hi. pose proof (HL 0%nat i ltac:(lia) Hi). pose proof (HL 1%nat i ltac:(lia) Hi). destruct (RG' i Hi) as [[? ?] [? ?]]. nra.
  - eapply Rle_trans; [exact B|]. unfold work. apply rsum_le. intros i Hi. pose proof (HL 0%nat i ltac:(lia) Hi). pose proof (HL 1%nat i ltac:(lia) Hi). destruct (RG i Hi) as [[? ?] [? ?]]. nra.
Qed.
End Solved.
Lemma free_entropy kB beta es e : 0 < kB -> 0 < beta ->
  let '(E, Z) := entropy_params (map (fun x => s_vals RRing (snd x)) es) e beta in free_energy beta es e = e + E - 1 / (kB * beta) * calc_entropy kB Z E (1 / (kB * beta)).
Proof. intros Hk Hb. unfold free_energy, calc_entropy. destruct (entropy_params _ e beta) as [E Z]. cbn [snd]. field. lra. Qed.
