(** Response of the free energy to the repulsion. *)
From Coq Require Import String Reals List Arith NArith ZArith Bool Lia Lra Psatz Ring.
From Verif Require Import Base RBase RLin CBase OperatorsModel OperatorsSpec LookupSpec LookupProofs SectorModel SectorSpec SectorProofs FockSpec FockProofs LocalModel LocalSpec HoppingModel
  CsrSpec NonLocalModel NonLocalSpec MatvecModel MatvecSpec MbModel MbSpec EspaceModel EspaceSpec ProjModel ProjSpec ProjProofs CfModel GfModel GfSpec GfProofs GfMoreProofs ObsModel ObsSpec ObsProofs ObsMoreProofs
  ExactSpec EighProofs ConserveProofs ExactProofs ExactMoreProofs DedModel DedSpec DedMoreProofs OccSpec OccProofs RespSpec RespProofs RespMainProofs RespUSpec.
Import ListNotations.
Local Open Scope R_scope.

Definition ushift (half : R) (n : nat) (hf : bool) (w : nat -> R) (u d : N) : R :=
  rsum n (fun i => w i * ((num RRing u i - if hf then half else 0) * (num RRing d i - if hf then half else 0))).

Lemma fock_repulsion half n a b (U U' : nat -> nat -> R) z hf u d : (forall i j, (i < n)%nat -> (j < n)%nat -> i <> j -> U' i j = U i j) ->
  fock_energy RRing half n a b U' z hf u d = fock_energy RRing half n a b U z hf u d + ushift half n hf (fun i => U' i i - U i i) u d.
Proof.
  intros HU. unfold fock_energy. cbv zeta.
  match goal with |- cadd RRing (cadd RRing ?x ?y) (cmul RRing ?k ?w) = cadd RRing (cadd RRing ?x ?y') (cmul RRing ?k ?w') + ?s => assert (E : y = y' + s); [|assert (E' : w = w')] end.
  - unfold ushift. etransitivity; [|apply rsum_add]. apply rsum_ext. intros i _. match goal with |- ?x = ?y => change (@eq R x y) end. destruct hf; cbn [cadd cmul csub c0 RRing]; ring.
  - apply nsum_ext. intros i Hi. apply nsum_ext. intros j Hj. destruct (Nat.eqb_spec i j) as [|N]; [reflexivity|]. now rewrite (HU i j Hi Hj N).
  - rewrite E, E'. match goal with |- ?x = ?y => change (@eq R x y) end. cbn [cadd cmul RRing]. ring.
Qed.
Lemma many_body_repulsion big half n h V V' hf mu z U U' p q a b : inter_Jx RRing V' = inter_Jx RRing V -> inter_Jp RRing V' = inter_Jp RRing V ->
  (forall i j, (i < n)%nat -> (j < n)%nat -> i <> j -> U' i j = U i j) -> (p <= n)%nat -> (q <= n)%nat -> (a < dimn n p q)%nat -> (b < dimn n p q)%nat ->
  many_body big half n h V' hf mu z U' (pos_u n p q b) (pos_d n p q b) (pos_u n p q a) (pos_d n p q a) =
  many_body big half n h V hf mu z U (pos_u n p q b) (pos_d n p q b) (pos_u n p q a) (pos_d n p q a) +
  if (a =? b)%nat then ushift half n hf (fun i => U' i i - U i i) (pos_u n p q a) (pos_d n p q a) else 0.
Proof.
  intros HX HP HU Hp Hq Ha Hb. destruct (pos_in n p q a Ha) as [Ua Da]. destruct (pos_in n p q b Hb) as [Ub Db]. unfold many_body, hamiltonian. cbv zeta. rewrite HX, HP.
  rewrite combine_eqb by (first [exact (proj1 (in_cand_lt n p _ Ua))|exact (proj1 (in_cand_lt n p _ Ub))]).
  assert (E : ((pos_u n p q b =? pos_u n p q a)%N && (pos_d n p q b =? pos_d n p q a)%N)%bool = (a =? b)%nat).
  { destruct (Nat.eqb_spec a b) as [->|N]; [now rewrite !N.eqb_refl|]. apply andb_false_iff. destruct (N.eqb_spec (pos_u n p q b) (pos_u n p q a)) as [E1|]; [|now left]. right. apply N.eqb_neq. intros E2. apply N. symmetry. exact (pos_inj n p q b a Hb Ha E1 E2). }
  rewrite E. destruct (a =? b)%nat.
  - rewrite (fock_repulsion half n _ _ U U' _ hf _ _ HU). cbn [cadd cmul RRing].
    match goal with |- ?x = ?y => change (@eq R x y) end. ring.
  - match goal with |- ?x = ?y => change (@eq R x y) end. symmetry. apply Rplus_0_r.
Qed.

(** The average of what lies below an affine function of the occupations. *)
Lemma average_below n F beta e (D : N -> N -> R) a b c : (forall p q, (p <= n)%nat -> (q <= n)%nat -> nvals (F p q) = dimn n p q /\ orthonormal (dimn n p q) (dimn n p q) (fun k i => nth i (vec RRing (F p q) k) 0)) ->
  0 < Zsum n beta e F -> (forall u d, D u d <= shift_of n a b u d + c) ->
  rsum (S n) (fun p => rsum (S n) (fun q => rsum (dimn n p q) (fun i => weight beta e (energy (F p q) i) * dval n D F p q i))) / Zsum n beta e F <=
  rsum (S n) (fun p => rsum (S n) (fun q => rsum (dimn n p q) (fun i => weight beta e (energy (F p q) i) * dval n (shift_of n a b) F p q i))) / Zsum n beta e F + c.
Proof.
  intros SF ZP HD. set (Z := Zsum n beta e F) in *. apply (Rmult_le_reg_r Z); [exact ZP|]. unfold Rdiv. rewrite Rmult_plus_distr_r, !Rmult_assoc, Rinv_l, !Rmult_1_r by lra.
  unfold Z, Zsum. rewrite <- rsum_scal_l, <- rsum_add. apply rsum_le. intros p Hp. rewrite <- rsum_scal_l, <- rsum_add. apply rsum_le. intros q Hq.
  destruct (SF p q ltac:(lia) ltac:(lia)) as (NV & ON). rewrite NV, <- rsum_scal_l, <- rsum_add. apply rsum_le. intros i Hi.
  assert (W : 0 < weight beta e (energy (F p q) i)) by (unfold weight; apply exp_pos).
  enough (B : dval n D F p q i <= dval n (shift_of n a b) F p q i + c) by nra.
  pose proof (ON i i Hi Hi) as O. rewrite Nat.eqb_refl in O. replace c with (c * 1) by ring. rewrite <- O, <- rsum_scal_l. unfold dval. rewrite <- rsum_add. apply rsum_le. intros t Ht.
  pose proof (HD (pos_u n p q t) (pos_d n p q t)). pose proof (Rle_0_sqr (nth t (vec RRing (F p q) i) 0)). unfold Rsqr in *. nra.
Qed.

Section Upper.
Variables (big : R -> bool) (half : R) (n : nat) (V V' : inter RRing) (U U' : nat -> nat -> R) (hf : bool) (z : option (nat -> R)) (h : hmat RRing) (mu beta : R).
Hypothesis Hb : 0 < beta.
Hypothesis HX : inter_Jx RRing V' = inter_Jx RRing V. Hypothesis HP : inter_Jp RRing V' = inter_Jp RRing V.
Hypothesis HU : forall i j, (i < n)%nat -> (j < n)%nat -> i <> j -> U' i j = U i j.
Variables (es es' : espace RRing) (e e' : R) (scts scts' : list osct).
Hypothesis HS : solved big half n V U hf z h mu es e scts.
Hypothesis HS' : solved big half n V' U' hf z h mu es' e' scts'.

Lemma repulsion_upper u d a b c : fst (get_occupation scts e beta n) = Ok (u, d) ->
  (forall x y, ushift half n hf (fun i => U' i i - U i i) x y <= shift_of n a b x y + c) -> free_energy beta es' e' - free_energy beta es e <= work n a b u d + c.
Proof.
  intros O HD. destruct HS as (fl & eigh & eigsh & MO & HC & HB & HF). destruct HS' as (fl' & eigh' & eigsh' & MO' & HC' & HB' & HF').
  destruct (built big half n h fl V hf mu z U eigh eigsh MO HC es e HB beta) as (F & LF & EB & SF & ZP). destruct (built big half n h fl' V' hf mu z U' eigh' eigsh' MO' HC' es' e' HB' beta) as (F' & LF' & EB' & SF' & ZP').
  destruct (occupations_work big half n h fl V hf mu z U MO es e scts HF beta F a b LF EB SF) as (u0 & d0 & EO & W). rewrite O in EO. injection EO as <- <-.
  rewrite (free_Z n es e beta F LF), (free_Z n es' e' beta F' LF'), W.
  pose proof (bogoliubov n _ _ (ushift half n hf (fun i => U' i i - U i i)) F F' SF SF' (fun p q a b Hp Hq Ha Hb0 => many_body_repulsion big half n h V V' hf mu z U U' p q a b HX HP HU Hp Hq Ha Hb0) beta e e' ZP ZP') as B.
  pose proof (average_below n F beta e _ a b c (fun p q Hp Hq => conj (proj1 (SF p q Hp Hq)) (proj1 (proj2 (SF p q Hp Hq)))) ZP HD) as A.
  apply (Rmult_le_compat_l beta) in A; [|lra].
  apply (Rmult_le_reg_l beta); [exact Hb|]. match goal with |- beta * (e' - ?x / beta - (e - ?y / beta)) <= _ => replace (beta * (e' - x / beta - (e - y / beta))) with (y - beta * e - (x - beta * e')) by (field; lra) end. lra.
Qed.
End Upper.

Lemma num_01 s i : num RRing s i = 0 \/ num RRing s i = 1.
Proof. unfold num. destruct (occ s i); [right|left]; reflexivity. Qed.

Section Solved.
Variables (big : R -> bool) (half : R) (n : nat) (z : option (nat -> R)) (h : hmat RRing) (mu beta : R).
Variables (V V' : inter RRing) (U U' : nat -> nat -> R) (hf : bool).
Hypothesis Hb : 0 < beta.
Hypothesis RR : repulsion_raised n V V' U U'.
Variables (es es' : espace RRing) (e e' : R) (scts scts' : list osct).
Hypothesis HS : solved big half n V U hf z h mu es e scts.
Hypothesis HS' : solved big half n V' U' hf z h mu es' e' scts'.
Notation dU := (fun i => U' i i - U i i).

(** Site-wise bounds [a n_up + b n_dw + c] of the repulsion term give bounds of the free energy. *)
Lemma above u d (f : nat -> R) : fst (get_occupation scts e beta n) = Ok (u, d) ->
  (forall i, (i < n)%nat -> exists a b c, f i = a * nth i u 0 + b * nth i d 0 + c /\ forall x y, (x = 0 \/ x = 1) -> (y = 0 \/ y = 1) -> (x - if hf then half else 0) * (y - if hf then half else 0) <= a * x + b * y + c) ->
  free_energy beta es' e' - free_energy beta es e <= rsum n (fun i => dU i * f i).
Proof.
  intros O HF. destruct RR as (HX & HP & HU & HM).
  assert (CH : exists a b c : nat -> R, forall i, (i < n)%nat -> f i = a i * nth i u 0 + b i * nth i d 0 + c i /\ forall x y, (x = 0 \/ x = 1) -> (y = 0 \/ y = 1) -> (x - if hf then half else 0) * (y - if hf then half else 0) <= a i * x + b i * y + c i).
  { clear - HF. revert HF. generalize n. intros m HF. induction m as [|m IH].
    - exists (fun _ => 0), (fun _ => 0), (fun _ => 0). intros i Hi. lia.
    - destruct IH as (a & b & c & H); [intros i Hi; apply HF; lia|]. destruct (HF m ltac:(lia)) as (a0 & b0 & c0 & H0).
      exists (fun i => if (i =? m)%nat then a0 else a i), (fun i => if (i =? m)%nat then b0 else b i), (fun i => if (i =? m)%nat then c0 else c i). intros i Hi. destruct (Nat.eqb_spec i m) as [->|N]; [exact H0|]. apply H. lia. }
  destruct CH as (a & b & c & H).
  eapply Rle_trans; [apply (repulsion_upper big half n V V' U U' hf z h mu beta Hb HX HP HU es es' e e' scts scts' HS HS' u d (fun i => dU i * a i) (fun i => dU i * b i) (rsum n (fun i => dU i * c i)) O)|].
  - intros x y. unfold ushift, shift_of. rewrite <- rsum_add. apply rsum_le. intros i Hi. destruct (H i Hi) as (_ & HB). specialize (HB _ _ (num_01 x i) (num_01 y i)). specialize (HM i Hi).
    apply (Rmult_le_compat_l (U' i i - U i i)) in HB; [|lra]. eapply Rle_trans; [exact HB|]. right. ring.
  - right. unfold work. rewrite <- rsum_add. apply rsum_ext. intros i Hi. destruct (H i Hi) as (-> & _). ring.
Qed.
Lemma below u d (f : nat -> R) : fst (get_occupation scts' e' beta n) = Ok (u, d) ->
  (forall i, (i < n)%nat -> exists a b c, f i = a * nth i u 0 + b * nth i d 0 + c /\ forall x y, (x = 0 \/ x = 1) -> (y = 0 \/ y = 1) -> a * x + b * y + c <= (x - if hf then half else 0) * (y - if hf then half else 0)) ->
  rsum n (fun i => dU i * f i) <= free_energy beta es' e' - free_energy beta es e.
Proof.
  intros O HF. destruct RR as (HX & HP & HU & HM).
  assert (CH : exists a b c : nat -> R, forall i, (i < n)%nat -> f i = a i * nth i u 0 + b i * nth i d 0 + c i /\ forall x y, (x = 0 \/ x = 1) -> (y = 0 \/ y = 1) -> a i * x + b i * y + c i <= (x - if hf then half else 0) * (y - if hf then half else 0)).
  { clear - HF. revert HF. generalize n. intros m HF. induction m as [|m IH].
    - exists (fun _ => 0), (fun _ => 0), (fun _ => 0). intros i Hi. lia.
    - destruct IH as (a & b & c & H); [intros i Hi; apply HF; lia|]. destruct (HF m ltac:(lia)) as (a0 & b0 & c0 & H0).
      exists (fun i => if (i =? m)%nat then a0 else a i), (fun i => if (i =? m)%nat then b0 else b i), (fun i => if (i =? m)%nat then c0 else c i). intros i Hi. destruct (Nat.eqb_spec i m) as [->|N]; [exact H0|]. apply H. lia. }
  destruct CH as (a & b & c & H).
  assert (HU' : forall i j, (i < n)%nat -> (j < n)%nat -> i <> j -> U i j = U' i j) by (intros; symmetry; auto).
  enough (free_energy beta es e - free_energy beta es' e' <= - rsum n (fun i => dU i * f i)) by lra.
  eapply Rle_trans; [apply (repulsion_upper big half n V' V U' U hf z h mu beta Hb (eq_sym HX) (eq_sym HP) HU' es' es e' e scts' scts HS' HS u d (fun i => - dU i * a i) (fun i => - dU i * b i) (rsum n (fun i => - dU i * c i)) O)|].
  - intros x y. unfold ushift, shift_of. rewrite <- rsum_add. apply rsum_le. intros i Hi. destruct (H i Hi) as (_ & HB). specialize (HB _ _ (num_01 x i) (num_01 y i)). specialize (HM i Hi).
    apply (Rmult_le_compat_l (U' i i - U i i)) in HB; [|lra]. match goal with |- (U i i - U' i i) * ?t <= _ => replace ((U i i - U' i i) * t) with (- ((U' i i - U i i) * t)) by ring end.
    eapply Rle_trans; [apply Ropp_le_contravar, HB|]. right. ring.
  - right. replace (- rsum n (fun i => dU i * f i)) with ((-1) * rsum n (fun i => dU i * f i)) by ring. rewrite <- rsum_scal_l. unfold work. rewrite <- rsum_add. apply rsum_ext. intros i Hi. destruct (H i Hi) as (-> & _). ring.
Qed.
Lemma both_occ : exists u d u' d', fst (get_occupation scts e beta n) = Ok (u, d) /\ fst (get_occupation scts' e' beta n) = Ok (u', d').
Proof.
  destruct (solved_range big half n V U hf z beta h mu es e scts HS) as (u & d & O & _). destruct (solved_range big half n V' U' hf z beta h mu es' e' scts' HS') as (u' & d' & O' & _). eauto 6.
Qed.
Lemma half_value : half = / 2.
Proof. destruct HS as (fl & eigh & eigsh & ((_ & _ & E) & _) & _). lra. Qed.
End Solved.

Ltac corners := intros x y [-> | ->] [-> | ->]; lra.
Lemma repulsion_plain big half n z h mu beta V V' U U' es es' e e' scts scts' : 0 < beta -> repulsion_raised n V V' U U' ->
  solved big half n V U false z h mu es e scts -> solved big half n V' U' false z h mu es' e' scts' ->
  exists u d u' d', fst (get_occupation scts e beta n) = Ok (u, d) /\ fst (get_occupation scts' e' beta n) = Ok (u', d') /\
    rsum n (fun i => (U' i i - U i i) * Rmax 0 (nth i u' 0 + nth i d' 0 - 1)) <= free_energy beta es' e' - free_energy beta es e <= rsum n (fun i => (U' i i - U i i) * Rmin (nth i u 0) (nth i d 0)).
Proof.
  intros Hb RR S S'. destruct (both_occ big half n z h mu beta V V' U U' false es es' e e' scts scts' S S') as (u & d & u' & d' & O & O'). exists u, d, u', d'. split; [exact O|]. split; [exact O'|]. split.
  - refine (below big half n z h mu beta V V' U U' false Hb RR es es' e e' scts scts' S S' u' d' (fun i => Rmax 0 (nth i u' 0 + nth i d' 0 - 1)) O' _). intros i Hi. unfold Rmax. destruct (Rle_dec _ _).
    + exists 1, 1, (-1). split; [ring|corners].
    + exists 0, 0, 0. split; [ring|corners].
  - refine (above big half n z h mu beta V V' U U' false Hb RR es es' e e' scts scts' S S' u d (fun i => Rmin (nth i u 0) (nth i d 0)) O _). intros i Hi. unfold Rmin. destruct (Rle_dec _ _).
    + exists 1, 0, 0. split; [ring|corners].
    + exists 0, 1, 0. split; [ring|corners].
Qed.
Lemma repulsion_half big half n z h mu beta V V' U U' es es' e e' scts scts' : 0 < beta -> repulsion_raised n V V' U U' ->
  solved big half n V U true z h mu es e scts -> solved big half n V' U' true z h mu es' e' scts' ->
  exists u d u' d', fst (get_occupation scts e beta n) = Ok (u, d) /\ fst (get_occupation scts' e' beta n) = Ok (u', d') /\
    rsum n (fun i => (U' i i - U i i) * (Rabs (nth i u' 0 + nth i d' 0 - 1) / 2 - / 4)) <= free_energy beta es' e' - free_energy beta es e <=
    rsum n (fun i => (U' i i - U i i) * (/ 4 - Rabs (nth i u 0 - nth i d 0) / 2)).
Proof.
  intros Hb RR S S'. pose proof (half_value big half n z h mu V U true es e scts S) as HH. subst half.
  destruct (both_occ big (/ 2) n z h mu beta V V' U U' true es es' e e' scts scts' S S') as (u & d & u' & d' & O & O'). exists u, d, u', d'. split; [exact O|]. split; [exact O'|]. split.
  - refine (below big (/ 2) n z h mu beta V V' U U' true Hb RR es es' e e' scts scts' S S' u' d' (fun i => Rabs (nth i u' 0 + nth i d' 0 - 1) / 2 - / 4) O' _). intros i Hi. unfold Rabs. destruct (Rcase_abs _).
    + exists (- / 2), (- / 2), (/ 4). split; [field|corners].
    + exists (/ 2), (/ 2), (- 3 / 4). split; [field|corners].
  - refine (above big (/ 2) n z h mu beta V V' U U' true Hb RR es es' e e' scts scts' S S' u d (fun i => / 4 - Rabs (nth i u 0 - nth i d 0) / 2) O _). intros i Hi. unfold Rabs. destruct (Rcase_abs _).
    + exists (/ 2), (- / 2), (/ 4). split; [field|corners].
    + exists (- / 2), (/ 2), (/ 4). split; [field|corners].
Qed.
Lemma repulsion_bounds big half n z h mu beta V V' U U' hf es es' e e' scts scts' : 0 < beta -> repulsion_raised n V V' U U' ->
  solved big half n V U hf z h mu es e scts -> solved big half n V' U' hf z h mu es' e' scts' ->
  (if hf then - (/ 4 * rsum n (fun i => U' i i - U i i)) else 0) <= free_energy beta es' e' - free_energy beta es e <= (if hf then / 4 else 1) * rsum n (fun i => U' i i - U i i).
Proof.
  intros Hb RR S S'. destruct hf.
  - destruct (repulsion_half big half n z h mu beta V V' U U' es es' e e' scts scts' Hb RR S S') as (u & d & u' & d' & _ & _ & A & B). destruct RR as (_ & _ & _ & HM). split.
    + eapply Rle_trans; [|exact A]. replace (- (/ 4 * rsum n (fun i => U' i i - U i i))) with ((- / 4) * rsum n (fun i => U' i i - U i i)) by ring. rewrite <- rsum_scal_l. apply rsum_le. intros i Hi. specialize (HM i Hi). pose proof (Rabs_pos (nth i u' 0 + nth i d' 0 - 1)). nra.
    + eapply Rle_trans; [exact B|]. rewrite <- rsum_scal_l. apply rsum_le. intros i Hi. specialize (HM i Hi). pose proof (Rabs_pos (nth i u 0 - nth i d 0)). nra.
  - destruct (repulsion_plain big half n z h mu beta V V' U U' es es' e e' scts scts' Hb RR S S') as (u & d & u' & d' & O & _ & A & B). destruct (solved_range big half n V U false z beta h mu es e scts S) as (u0 & d0 & O0 & RG). rewrite O in O0. injection O0 as <- <-. destruct RR as (_ & _ & _ & HM). split.
    + eapply Rle_trans; [|exact A]. apply rsum_nonneg. intros i Hi. specialize (HM i Hi). pose proof (Rmax_l 0 (nth i u' 0 + nth i d' 0 - 1)). nra.
    + eapply Rle_trans; [exact B|]. rewrite <- rsum_scal_l. apply rsum_le. intros i Hi. specialize (HM i Hi). pose proof (Rmin_l (nth i u 0) (nth i d 0)). destruct (RG i Hi) as [[? ?] _]. nra.
Qed.
