(** The occupation of an isolated site. *)
From Coq Require Import String Reals List Arith NArith ZArith Bool Lia Lra Psatz Ring Field.
From Verif Require Import Base RBase RLin CBase OperatorsModel OperatorsSpec LookupModel SectorModel FockSpec LocalModel LocalSpec HoppingModel CsrSpec NonLocalSpec
  MatvecModel MbModel MbSpec EspaceModel ProjModel ProjSpec CfModel CfMoreProofs GfModel GfSpec GfMoreProofs GmModel GmSpec GmFockProofs GmProofs GmEspaceProofs ExactSpec EighProofs ExactProofs ExactMoreProofs ConserveProofs
  ObsModel ObsSpec ObsMoreProofs FermiSpec OccSpec OccProofs NanoMatProofs SymSpec AgrInstProofs GflSpec SiamSpec AtomSpec AtomInstProofs RelSpec RelHamProofs RelProofs RelGfProofs RelFinalProofs RelCorProofs.
Import ListNotations.
Local Open Scope R_scope.

(** ** Sums of poles that agree as functions *)
Definition at_level (m : nat) (w e : nat -> R) (a : R) : R := rsum m (fun i => if Req_EM_T (e i) a then w i else 0).
Lemma no_weight m w e : (forall z, CBase.im z <> 0 -> csum m (fun i => cxdiv (rcx (w i)) (cxsub z (rcx (e i)))) = rcx 0) -> forall a, at_level m w e a = 0.
Proof.
  intros H a. set (W := at_level m w e a).
  set (S := rsum m (fun i => if Req_EM_T (e i) a then 0 else Rabs (w i) / ((a - e i) * (a - e i)))).
  assert (SP : 0 <= S).
  { unfold S. apply (Rle_trans _ (rsum m (fun _ => 0))); [rewrite rsum_0 by auto; lra|]. apply rsum_le. intros i _. destruct (Req_EM_T (e i) a) as [|NE]; [lra|]. apply Rmult_le_pos; [apply Rabs_pos|].
    left. apply Rinv_0_lt_compat. assert (a - e i <> 0) by lra. nra. }
  assert (B : forall eta, 0 < eta -> Rabs W <= eta * eta * S).
  { intros eta He. specialize (H (a, eta) ltac:(cbn; lra)). apply (f_equal CBase.im) in H. rewrite csum_im in H. cbn [CBase.im rcx snd] in H.
    assert (E : W + rsum m (fun i => if Req_EM_T (e i) a then 0 else w i * (eta * eta) / ((a - e i) * (a - e i) + eta * eta)) = 0).
    { unfold W, at_level. rewrite <- rsum_add. apply (Rmult_eq_reg_l (- / eta)); [|apply Ropp_neq_0_compat, Rinv_neq_0_compat; lra]. rewrite Rmult_0_r, <- rsum_scal_l. etransitivity; [|exact H]. apply rsum_ext. intros i _.
      unfold cxdiv, cxinv, cxmul, cxsub, cxadd, cxopp, rcx, cxn2. cbn [fst snd re CBase.im]. destruct (Req_EM_T (e i) a) as [->|NE].
      - field. repeat split; nra.
      - assert (0 < (a - e i) * (a - e i)) by (assert (a - e i <> 0) by lra; nra). field. repeat split; nra. }
    replace W with (- rsum m (fun i => if Req_EM_T (e i) a then 0 else w i * (eta * eta) / ((a - e i) * (a - e i) + eta * eta))) by lra. rewrite Rabs_Ropp.
    eapply Rle_trans; [apply rsum_abs|]. unfold S. rewrite <- rsum_scal_l. apply rsum_le. intros i _. destruct (Req_EM_T (e i) a) as [|NE]; [rewrite Rabs_R0; lra|].
    assert (P : 0 < (a - e i) * (a - e i)) by (assert (a - e i <> 0) by lra; nra). unfold Rdiv. rewrite !Rabs_mult.
    rewrite (Rabs_pos_eq (/ _)) by (left; apply Rinv_0_lt_compat; nra). rewrite (Rabs_pos_eq eta) by lra.
    apply (Rle_trans _ (Rabs (w i) * (eta * eta) * / ((a - e i) * (a - e i)))); [|apply Req_le; ring]. apply Rmult_le_compat_l; [apply Rmult_le_pos; [apply Rabs_pos|nra]|]. apply Rinv_le_contravar; nra. }
  destruct (Req_dec W 0) as [|NE]; [assumption|exfalso]. pose proof (Rabs_pos_lt W NE) as P.
  set (d := Rabs W / (2 * (S + 1))). assert (DP : 0 < d) by (apply Rdiv_lt_0_compat; lra). pose proof (B (sqrt d) (sqrt_lt_R0 d DP)) as C. rewrite sqrt_sqrt in C by lra.
  assert (Q : d * (2 * (S + 1)) = Rabs W) by (unfold d; field; lra). nra.
Qed.
Lemma no_poles m w e f : (forall z, CBase.im z <> 0 -> csum m (fun i => cxdiv (rcx (w i)) (cxsub z (rcx (e i)))) = rcx 0) -> rsum m (fun i => w i * f (e i)) = 0.
Proof.
  intros H. pose proof (no_weight m w e H) as NW. set (cnt := fun a => rsum m (fun i => if Req_EM_T (e i) a then 1 else 0)).
  assert (CP : forall j, (j < m)%nat -> 1 <= cnt (e j)).
  { intros j Hj. unfold cnt. eapply Rle_trans; [|apply (rsum_le m (fun i => if (i =? j)%nat then 1 else 0))].
    - rewrite (rsum_single m _ j Hj); [rewrite Nat.eqb_refl; lra|]. intros i _ NE. destruct (Nat.eqb_spec i j); [congruence|reflexivity].
    - intros i _. destruct (Nat.eqb_spec i j) as [->|]; destruct (Req_EM_T (e _) (e j)); try lra; congruence. }
  transitivity (rsum m (fun i => rsum m (fun j => if Req_EM_T (e j) (e i) then w j * (f (e i) / cnt (e i)) else 0))).
  - symmetry. rewrite rsum_swap. apply rsum_ext. intros j Hj.
    transitivity (rsum m (fun i => (if Req_EM_T (e i) (e j) then 1 else 0) * (w j * (f (e j) / cnt (e j))))).
    + apply rsum_ext. intros i _. destruct (Req_EM_T (e j) (e i)) as [E|NE], (Req_EM_T (e i) (e j)) as [E'|NE']; try congruence; [rewrite E; ring|ring].
    + rewrite rsum_scal_r. fold (cnt (e j)). pose proof (CP j Hj). field. lra.
  - apply rsum_0. intros i Hi. rewrite (rsum_ext m _ (fun j => (if Req_EM_T (e j) (e i) then w j else 0) * (f (e i) / cnt (e i)))) by (intros j _; destruct (Req_EM_T (e j) (e i)); ring).
    rewrite rsum_scal_r. fold (at_level m w e (e i)). rewrite NW. ring.
Qed.
Lemma csum_split a b f : csum (a + b) f = cxadd (csum a f) (csum b (fun i => f (a + i)%nat)).
Proof. apply cx_eq; [rewrite csum_re|rewrite csum_im]; rewrite rsum_split; cbn [cxadd re CBase.im fst snd]; [rewrite <- !csum_re|rewrite <- !csum_im]; destruct (csum a f), (csum b _); reflexivity. Qed.
Lemma two_pole_sum m w e a b p q f : (forall z, CBase.im z <> 0 -> csum m (fun i => cxdiv (rcx (w i)) (cxsub z (rcx (e i)))) = cxadd (cxdiv (rcx p) (cxsub z (rcx a))) (cxdiv (rcx q) (cxsub z (rcx b)))) ->
  rsum m (fun i => w i * f (e i)) = p * f a + q * f b.
Proof.
  intros H. set (w' := fun i => if (i <? m)%nat then w i else if (i =? m)%nat then - p else - q). set (e' := fun i => if (i <? m)%nat then e i else if (i =? m)%nat then a else b).
  assert (LO : forall i, (i < m)%nat -> w' i = w i /\ e' i = e i) by (intros i Hi; unfold w', e'; destruct (Nat.ltb_spec i m); [auto|lia]).
  assert (H0 : w' (m + 0)%nat = - p /\ e' (m + 0)%nat = a) by (unfold w', e'; destruct (Nat.ltb_spec (m + 0) m); [lia|]; destruct (Nat.eqb_spec (m + 0) m); [auto|lia]).
  assert (H1 : w' (m + 1)%nat = - q /\ e' (m + 1)%nat = b) by (unfold w', e'; destruct (Nat.ltb_spec (m + 1) m); [lia|]; destruct (Nat.eqb_spec (m + 1) m); [lia|auto]).
  destruct H0 as [W0 E0], H1 as [W1 E1].
  assert (Z : rsum (m + 2) (fun i => w' i * f (e' i)) = 0).
  { apply no_poles. intros z Hz. rewrite csum_split. rewrite (csum_ext m _ (fun i => cxdiv (rcx (w i)) (cxsub z (rcx (e i))))) by (intros i Hi; destruct (LO i Hi) as [-> ->]; reflexivity).
    rewrite (H z Hz). assert (C2 : forall g, csum 2 g = cxadd (cxadd (rcx 0) (g 0%nat)) (g 1%nat)) by (intros g; unfold csum; rewrite !(nsum_S CxRing); reflexivity). rewrite C2, W0, E0, W1, E1.
    set (x := cxsub z (rcx a)). set (y := cxsub z (rcx b)). unfold cxdiv. set (x' := cxinv x). set (y' := cxinv y). clearbody x' y'. destruct x', y'. apply cx_eq; cbn; ring. }
  rewrite rsum_split in Z. rewrite (rsum_ext m _ (fun i => w i * f (e i))) in Z by (intros i Hi; destruct (LO i Hi) as [-> ->]; reflexivity).
  rewrite !rsum_S, (rsum_0 0) in Z by (intros; lia). rewrite W0, E0, W1, E1 in Z. lra.
Qed.

(** ** The occupation of one spin, given the other *)
Section Occ.
Variables (big : R -> bool) (half : R) (n : nat) (fl : hflags) (V : inter RRing) (hf : bool) (mu : R) (zz : option (nat -> R)) (U : nat -> nat -> R).
Hypothesis HJx : inter_Jx RRing V = None.
Hypothesis HD : forall i j, (i < n)%nat -> (j < n)%nat -> i <> j -> U i j = 0.
Variable eigh : dense RRing -> res (list R * list (list R)).
Variable eigsh : nat -> Z -> (list R -> res (list R)) -> res (list R * list (list R)).
Hypothesis HC : eigh_contract eigh.
Variable beta : R.
Definition cut_off (h : hmat RRing) : Prop := forall r l, (r < 2)%nat -> (0 < l < n)%nat -> hspin RRing h r l 0%nat = 0 \/ big (hspin RRing h r l 0%nat) = false.
Notation lev h := (level half h hf mu U).
Notation UU := (U 0%nat 0%nat).

Lemma stored_filling h es e scts : model_ok half n h fl V U -> build_espace RRing Rleb big half eigh eigsh n h fl V hf mu zz None "sz" = Ok (es, Some e) -> Forall2 (fun e o => stored (snd e) o) es scts ->
  exists u d, fst (get_occupation scts e beta n) = Ok (u, d) /\ nth 0 u 0 = filling n es e beta 0 /\ nth 0 d 0 = filling n es e beta 1.
Proof.
  intros MO HB ST. assert (P0 : (0 < n)%nat) by (destruct MO as ((Hn1 & _) & _); lia). pose proof (inst_sectors big half n h fl V hf mu zz U MO eigh eigsh HC es _ HB) as HS.
  destruct (inst_family big half n h fl V hf mu zz U MO eigh eigsh HC es _ HB) as (F & LF & EB & _).
  destruct (thermal_ok scts e beta n (scts_ok n es F LF EB scts ST) (scts_nonempty n es F beta e 0 LF P0 EB scts ST)) as (u & d & EO & _ & _ & HK).
  exists u, d. split; [exact EO|]. destruct (HK 0%nat P0) as (-> & -> & _). unfold filling. split; rewrite (proj2 (thermal_dict n es scts beta e _ HS ST)); do 3 f_equal; lia.
Qed.
Lemma filling_up h es e : model_ok half n h fl V U -> cut_off h -> build_espace RRing Rleb big half eigh eigsh n h fl V hf mu zz None "sz" = Ok (es, Some e) ->
  filling n es e beta 0 = (1 - filling n es e beta 1) * fermi (beta * lev h 0) + filling n es e beta 1 * fermi (beta * (lev h 0 + UU)).
Proof.
  intros MO HI HB. assert (P0 : (0 < n)%nat) by (destruct MO as ((Hn1 & _) & _); lia). destruct (inst_family big half n h fl V hf mu zz U MO eigh eigsh HC es _ HB) as (F & LF & EB & _).
  pose proof (as_array_family n es F LF) as ST. set (scts := map (fun e => as_array (snd e)) es) in *.
  destruct (stored_filling h es e scts MO HB ST) as (u & d & EO & E0 & E1).
  destruct (occupation_family n es F beta e 0 LF P0 EB scts ST) as (g1 & u' & d' & EG & EO' & SUM). rewrite EO in EO'. injection EO' as <- <-. rewrite E0 in SUM.
  destruct (gm_consistent n es F beta e LF) as [_ (g & EG2 & CON)]. destruct (CON 0%nat P0) as (g1' & EG1 & CALL). rewrite EG in EG1. injection EG1 as <-.
  destruct (build_values n es F beta e 0 LF P0) as (g1' & EG1 & LE & _). rewrite EG in EG1. injection EG1 as <-.
  destruct (gf_exact_weight n es F beta e 0 LF P0 EB) as (g1' & EG1 & _ & ZP & _). rewrite EG in EG1. injection EG1 as <-.
  pose proof (gf_pole_function g1 LE (Rgt_not_eq _ _ ZP)) as PF.
  destruct (atom_exact big half n h fl V hf mu zz U MO HJx HD HI eigh eigsh HC es e HB 0 ltac:(lia) beta) as (g' & EG2' & AT). change (Z.of_nat 0) with 0%Z in EG2'. rewrite EG2 in EG2'. injection EG2' as <-.
  rewrite <- SUM. apply (two_pole_sum _ _ _ (lev h 0) (lev h 0 + UU) _ _ (fun x => fermi (beta * x))).
  intros z Hz. rewrite <- (PF z Hz). unfold gf_fun. assert (ZE : zpoint z 0 = z) by (rewrite zpoint_value; destruct z; cbn; f_equal; ring).
  destruct (CALL z 0) as (G & C1 & ->). destruct (AT z 0) as (G' & C2 & Q); [now rewrite ZE|]. rewrite C1 in C2. injection C2 as <-. rewrite Q, ZE. reflexivity.
Qed.

End Occ.

(** Exchange of the spins gives the other equation. *)
Definition exchanged (h : hmat RRing) : hmat RRing := H3 RRing (fun s => hspin RRing h (1 - s)).
Lemma exchanged_related big n h V hf mu zz U : related n false true (fun x => x) (fun _ => false) (params_of big h V hf mu zz U) (params_of big (exchanged h) V hf mu zz U).
Proof.
  split; [apply renumber_id| | | | |]; intros; try (split; [reflexivity|discriminate]); try reflexivity.
  - cbn [params_of P_T exchanged hspin]. unfold spin'. replace (1 - (1 - s))%nat with s by lia. unfold pm. now rewrite !Rmult_1_l.
  - unfold centred. cbn [params_of P_e P_U P_hf P_z exchanged hspin]. unfold spin', p_shift. replace (1 - (1 - s))%nat with s by lia. unfold pm. cbn [P_hf params_of]. ring.
Qed.
Lemma atom_unique a b f0 f1 n0 n1 m0 m1 : -1 < a < 1 -> -1 < b < 1 -> n0 = f0 + a * n1 -> n1 = f1 + b * n0 -> m0 = f0 + a * m1 -> m1 = f1 + b * m0 -> n0 = m0 /\ n1 = m1.
Proof.
  intros Ha Hb E0 E1 F0 F1. assert (Q : (1 - a * b) * (n0 - m0) = 0) by nra. assert (N : 1 - a * b <> 0) by nra.
  apply Rmult_integral in Q. destruct Q as [Q|Q]; [contradiction|]. split; [lra|]. nra.
Qed.
Lemma fermi_diff x y : -1 < fermi x - fermi y < 1.
Proof.
  assert (F : forall x, 0 < fermi x < 1).
  { intros t. unfold fermi. pose proof (exp_pos t). split; [apply Rdiv_lt_0_compat; lra|]. apply (Rmult_lt_reg_r (exp t + 1)); [lra|]. unfold Rdiv. rewrite Rmult_assoc, Rinv_l by lra. lra. }
  pose proof (F x). pose proof (F y). lra.
Qed.
Lemma atom_equation beta e e' u : atom_filling beta e e' u = fermi (beta * e) + (fermi (beta * (e + u)) - fermi (beta * e)) * atom_filling beta e' e u.
Proof.
  unfold atom_filling, fermi. set (x := exp (- beta * e)). set (x' := exp (- beta * e')). set (w := exp (- beta * u)).
  assert (PX : 0 < x) by apply exp_pos. assert (PX' : 0 < x') by apply exp_pos. assert (PW : 0 < w) by apply exp_pos.
  assert (E1 : exp (- beta * (e + e' + u)) = x * x' * w) by (unfold x, x', w; rewrite <- !exp_plus; f_equal; ring).
  assert (E2 : exp (- beta * (e' + e + u)) = x * x' * w) by (unfold x, x', w; rewrite <- !exp_plus; f_equal; ring).
  assert (E3 : exp (beta * e) = / x) by (unfold x; rewrite <- exp_Ropp; f_equal; ring).
  assert (E4 : exp (beta * (e + u)) = / (x * w)) by (unfold x, w; rewrite <- exp_plus, <- exp_Ropp; f_equal; ring).
  rewrite E1, E2, E3, E4. assert (0 < x * x') by nra. assert (0 < x * x' * w) by (apply Rmult_lt_0_compat; assumption). assert (0 < x * w) by nra.
  field. repeat split; nra.
Qed.

Section Filling.
Variables (big : R -> bool) (half : R) (n : nat) (h : hmat RRing) (fl : hflags) (V : inter RRing) (hf : bool) (mu : R) (zz : option (nat -> R)) (U : nat -> nat -> R).
Hypothesis MO : model_ok half n h fl V U.
Hypothesis HJx : inter_Jx RRing V = None.
Hypothesis HD : forall i j, (i < n)%nat -> (j < n)%nat -> i <> j -> U i j = 0.
Hypothesis HI : cut_off big n h.
Variable eigh : dense RRing -> res (list R * list (list R)).
Variable eigsh : nat -> Z -> (list R -> res (list R)) -> res (list R * list (list R)).
Hypothesis HC : eigh_contract eigh.
Variables (es : espace RRing) (e beta : R).
Hypothesis HB : build_espace RRing Rleb big half eigh eigsh n h fl V hf mu zz None "sz" = Ok (es, Some e).
Notation lev := (level half h hf mu U).
Notation UU := (U 0%nat 0%nat).
Notation m := (filling n es e beta).

Lemma filling_down : m 1 = (1 - m 0) * fermi (beta * lev 1) + m 0 * fermi (beta * (lev 1 + UU)).
Proof.
  set (h' := exchanged h). set (fl' := mkflags true true true).
  assert (MO' : model_ok half n h' fl' V U).
  { destruct MO as (A & B & C & D & E & _). split; [exact A|]. split; [exact B|]. split; [exact C|]. split; [exact D|]. split; [|reflexivity]. intros sp i j Hi Hj. exact (E (1 - sp)%nat i j Hi Hj). }
  assert (HI' : cut_off big n h') by (intros r l Hr Hl; exact (HI (1 - r)%nat l ltac:(lia) Hl)).
  pose proof MO' as ((Hn1 & Hn2 & H2) & HU & HJ & (HSx & HSp) & HSm & Hset).
  destruct (exact_runs big half n h' fl' V hf mu zz U eigh eigsh Hn1 Hn2 H2 HU HJ HSx HSp HSm Hset HC) as (es' & o & HB').
  destruct (exact_egs big half n h' fl' V hf mu zz U eigh eigsh Hn1 Hn2 H2 HU HJ HSx HSp HSm Hset HC es' o HB') as (e' & -> & _).
  destruct (inst_family big half n h fl V hf mu zz U MO eigh eigsh HC es _ HB) as (F & LF & _). destruct (inst_family big half n h' fl' V hf mu zz U MO' eigh eigsh HC es' _ HB') as (F' & LF' & _).
  pose proof (as_array_family n es F LF) as ST. pose proof (as_array_family n es' F' LF') as ST'.
  destruct (stored_filling big half n fl V hf mu zz U HD eigh eigsh HC beta h es e _ MO HB ST) as (u & d & EO & E0 & E1).
  destruct (stored_filling big half n fl' V hf mu zz U HD eigh eigsh HC beta h' es' e' _ MO' HB' ST') as (u' & d' & EO' & E0' & E1').
  destruct (related_occupation n false true (fun x => x) (fun _ => false) big half h fl V hf mu zz U big half h' fl' V hf mu zz U MO MO' (exchanged_related big n h V hf mu zz U) eigh eigh eigsh eigsh HC HC
    es es' _ _ HB HB' beta e e' _ _ eq_refl eq_refl ST ST') as (ud & ud' & O1 & O2 & Q).
  rewrite EO in O1. injection O1 as <-. rewrite EO' in O2. injection O2 as <-.
  pose proof (Q 0%nat 0%nat ltac:(lia) ltac:(lia)) as Q0. pose proof (Q 1%nat 0%nat ltac:(lia) ltac:(lia)) as Q1. cbn [spin' pick fst snd Nat.sub image_occ] in Q0, Q1. rewrite E0, E1' in Q0. rewrite E0', E1 in Q1.
  pose proof (filling_up big half n fl' V hf mu zz U HJx HD eigh eigsh HC beta h' es' e' MO' HI' HB') as FU. rewrite Q0, Q1 in FU. exact FU.
Qed.
Theorem filling_atom : m 0 = atom_filling beta (lev 0) (lev 1) UU /\ m 1 = atom_filling beta (lev 1) (lev 0) UU.
Proof.
  pose proof (filling_up big half n fl V hf mu zz U HJx HD eigh eigsh HC beta h es e MO HI HB) as A. pose proof filling_down as B.
  apply (atom_unique (fermi (beta * (lev 0 + UU)) - fermi (beta * lev 0)) (fermi (beta * (lev 1 + UU)) - fermi (beta * lev 1)) (fermi (beta * lev 0)) (fermi (beta * lev 1))); try apply fermi_diff; try apply atom_equation; lra.
Qed.
End Filling.
