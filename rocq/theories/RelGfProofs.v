(** Thermal Green's functions and occupations of related models, from the code's results. *)
From Coq Require Import String Reals List Arith NArith ZArith Bool Lia Lra Ring Permutation.
From Verif Require Import Base RBase RLin CBase OperatorsModel OperatorsSpec OperatorsProofs LookupModel LookupSpec LookupProofs SectorModel SectorSpec SectorProofs FockSpec FockProofs LocalModel LocalSpec HoppingModel CsrSpec NonLocalSpec
  MatvecModel MbModel MbSpec EspaceModel ProjModel ProjSpec ProjProofs ProjFinalProofs CfModel CfMoreProofs GfModel GfSpec GfProofs GfSumProofs GfMoreProofs GmModel GmSpec GmFockProofs GmProofs SpectralProofs ExactSpec ExactProofs ExactMoreProofs
  ObsModel ObsSpec ObsProofs ObsMoreProofs OccSpec OccProofs FlipProofs SymSpec SymProofs RelSpec RelLinProofs RelFockProofs RelHamProofs RelProofs.
Import ListNotations.
Local Open Scope R_scope.

Definition gz (beta egs : R) (z : cx) (a b : R) : cx := cxdiv (rcx (weight beta egs a + weight beta egs b)) (cxsub z (rcx (a - b))).
Definition sp (s m o : nat) : nat := match s with O => m | _ => o end.
Lemma of_spin_at F s m o : of_spin F s m o = F (sp s m o) (sp s o m).
Proof. destruct s; reflexivity. Qed.
Definition lehm (n : nat) (F : family) (s : nat) (ox oy : ladder_op) (g : R -> R -> R) : R :=
  rsum n (fun m => rsum (S n) (fun o => pair_sum n F ox oy (sp s (S m) o) (sp s o (S m)) (sp s m o) (sp s o m) g)).
Lemma lehmann_parts n Hm F s x y beta egs z : solved n Hm F ->
  lehmann n s x y beta egs F z = (lehm n F s (Cr (x + s * n)) (Cr (y + s * n)) (fun a b => re (gz beta egs z a b)), lehm n F s (Cr (x + s * n)) (Cr (y + s * n)) (fun a b => CBase.im (gz beta egs z a b))).
Proof.
  intros HF. assert (B : forall m o, (m < n)%nat -> (o < S n)%nat -> (sp s (S m) o <= n)%nat /\ (sp s o (S m) <= n)%nat /\ (sp s m o <= n)%nat /\ (sp s o m <= n)%nat) by (intros; destruct s; cbn [sp]; lia).
  assert (T : forall a b w D, re (cxdiv (rcx (a * b * w)) D) = a * b * re (cxdiv (rcx w) D) /\ CBase.im (cxdiv (rcx (a * b * w)) D) = a * b * CBase.im (cxdiv (rcx w) D)).
  { intros a b w D. cbv [cxdiv cxmul rcx re CBase.im fst snd]. split; ring. }
  apply cx_eq; [change (re (_, _)) with (lehm n F s (Cr (x + s * n)) (Cr (y + s * n)) (fun a b => re (gz beta egs z a b)))|change (CBase.im (_, _)) with (lehm n F s (Cr (x + s * n)) (Cr (y + s * n)) (fun a b => CBase.im (gz beta egs z a b)))];
    unfold lehmann, lehm; rewrite ?csum_re, ?csum_im; apply rsum_ext; intros m Hm'; rewrite ?csum_re, ?csum_im; apply rsum_ext; intros o Ho; destruct (B m o Hm' Ho) as (B1 & B2 & B3 & B4); cbv zeta; rewrite !of_spin_at;
    destruct (HF _ _ B1 B2) as (_ & -> & _); destruct (HF _ _ B3 B4) as (_ & -> & _); unfold pair_sum, double; rewrite ?csum_re, ?csum_im; apply rsum_ext; intros j _; rewrite ?csum_re, ?csum_im; apply rsum_ext; intros i _.
  - exact (proj1 (T _ _ _ _)).
  - exact (proj2 (T _ _ _ _)).
Qed.
Lemma pair_adj n F x y p q p' q' g : pair_sum n F (An x) (An y) p q p' q' g = pair_sum n F (Cr x) (Cr y) p' q' p q (fun b a => g a b).
Proof.
  unfold pair_sum. rewrite double_T. apply double_ext; auto; intros a b _ _; unfold cmat; now rewrite elem_adj.
Qed.
Lemma pair_neg n F ox oy p q p' q' g : pair_sum n F ox oy p q p' q' (fun a b => - g a b) = - pair_sum n F ox oy p q p' q' g.
Proof.
  unfold pair_sum. transitivity (double (sdim RRing (F p q)) (sdim RRing (F p' q')) (cmat n F ox p q p' q') (cmat n F oy p q p' q') (fun a b => -1 * g a b) (fun k a => nth a (vec RRing (F p q) k) 0) (energy (F p q)) (fun k a => nth a (vec RRing (F p' q') k) 0) (energy (F p' q'))).
  - apply double_ext; auto. intros. ring.
  - rewrite double_scale. ring.
Qed.
Lemma cxinv_opp z : cxinv (cxopp z) = cxopp (cxinv z).
Proof. destruct z as [a b]. apply cx_eq; cbv [cxinv cxopp cxn2 re CBase.im fst snd]; replace (- a * - a + - b * - b) with (a * a + b * b) by ring; unfold Rdiv; ring. Qed.

Lemma rsum_back n f : rsum n f = rsum n (fun k => f (n - 1 - k)%nat).
Proof. symmetry. apply (rsum_renumber n (fun k => n - 1 - k)%nat f). split; intros; lia. Qed.
Section Two.
Variables (n : nat) (hole sw : bool) (rho : nat -> nat) (sg : nat -> bool) (tau : N -> N) (th : N -> Z) (Hm Hm' : N -> N -> R) (k0 : R).
Hypothesis HRr : renumbering n rho.
Hypothesis HT : trafo (2 * n) hole (rho2 n sw rho) (fun k => zpm (sg (site n k))) tau th.
Hypothesis HH : forall p q t s, sec n p q t -> sec n p q s -> Hm' (tau t) (tau s) = rth th t * rth th s * Hm t s + (if N.eqb t s then k0 else 0).
Variables F F' : family.
Hypothesis HF : solved n Hm F. Hypothesis HF' : solved n Hm' F'.
Notation iu := (image_up n hole sw). Notation idw := (image_dw n hole sw).
Notation img := (pair_image n hole sw rho sg tau th Hm Hm' k0 HRr HT HH F F' HF HF').

Lemma gz_shift beta egs z a b : gz beta (egs + k0) z (a + k0) (b + k0) = gz beta egs z a b.
Proof. unfold gz. replace (a + k0 - (b + k0)) with (a - b) by ring. unfold weight. do 3 f_equal; f_equal; ring. Qed.
Lemma gz_hole beta egs z a b : gz beta (egs + k0) (cxopp z) (a + k0) (b + k0) = cxopp (gz beta egs z b a).
Proof.
  rewrite gz_shift. unfold gz. replace (cxsub (cxopp z) (rcx (a - b))) with (cxopp (cxsub z (rcx (b - a)))) by (apply cx_eq; destruct z; cbv [cxsub cxopp cxadd rcx re CBase.im fst snd]; ring).
  unfold cxdiv. rewrite cxinv_opp. rewrite (Rplus_comm (weight beta egs a)). generalize (cxinv (cxsub z (rcx (b - a)))). intros [u v]. apply cx_eq; cbv [cxmul cxopp rcx re CBase.im fst snd]; ring.
Qed.
Lemma lehm_image s x y g g' : (s < 2)%nat -> (x < n)%nat -> (y < n)%nat -> (forall a b, g' (a + k0) (b + k0) = if hole then - g b a else g a b) ->
  lehm n F' (spin' sw s) (Cr (rho x + spin' sw s * n)) (Cr (rho y + spin' sw s * n)) g' = pm hole * (pm (sg x) * pm (sg y)) * lehm n F s (Cr (x + s * n)) (Cr (y + s * n)) g.
Proof.
  intros Hs Hx Hy HG. rewrite <- (rho2_orb n sw rho sg s x Hs Hx), <- (rho2_orb n sw rho sg s y Hs Hy). unfold lehm. rewrite <- rsum_scal_l.
  assert (Ox : (x + s * n < 2 * n)%nat) by nia. assert (Oy : (y + s * n < 2 * n)%nat) by nia.
  destruct (Bool.bool_dec hole true) as [EH|EH].
  - rewrite (rsum_back n). apply rsum_ext. intros m Hm1. rewrite <- rsum_scal_l, (rsum_back (S n)). apply rsum_ext. intros o Ho. replace (S n - 1 - o)%nat with (n - o)%nat by lia.
    pose proof (img (An (x + s * n)) (An (y + s * n)) (sp s m o) (sp s o m) (sp s (S m) o) (sp s o (S m)) (fun a b => - g b a) g') as I.
    rewrite EH in I. cbn [flip_op tr_op negb orb_of] in I. rewrite !(site_orb n sg) in I by auto.
    assert (E1 : image_up n true sw (sp s m o) (sp s o m) = sp (spin' sw s) (S (n - 1 - m)) (n - o)) by (unfold image_up, spin'; destruct s as [|[|]], sw; cbn [sp Nat.sub]; lia).
    assert (E2 : image_dw n true sw (sp s m o) (sp s o m) = sp (spin' sw s) (n - o) (S (n - 1 - m))) by (unfold image_dw, spin'; destruct s as [|[|]], sw; cbn [sp Nat.sub]; lia).
    assert (E3 : image_up n true sw (sp s (S m) o) (sp s o (S m)) = sp (spin' sw s) (n - 1 - m) (n - o)) by (unfold image_up, spin'; destruct s as [|[|]], sw; cbn [sp Nat.sub]; lia).
    assert (E4 : image_dw n true sw (sp s (S m) o) (sp s o (S m)) = sp (spin' sw s) (n - o) (n - 1 - m)) by (unfold image_dw, spin'; destruct s as [|[|]], sw; cbn [sp Nat.sub]; lia).
    rewrite E1, E2, E3, E4 in I. rewrite I; try (destruct s; cbn [sp]; lia).
    + rewrite pair_adj. change (fun b a => - g b a) with (fun a b => - g a b). rewrite pair_neg. rewrite EH. change (pm true) with (-1). ring.
    + intros a b. rewrite HG, EH. reflexivity.
  - apply not_true_is_false in EH. apply rsum_ext. intros m Hm1. rewrite <- rsum_scal_l. apply rsum_ext. intros o Ho.
    pose proof (img (Cr (x + s * n)) (Cr (y + s * n)) (sp s (S m) o) (sp s o (S m)) (sp s m o) (sp s o m) g g') as I.
    rewrite EH in I. cbn [flip_op tr_op negb orb_of] in I. rewrite !(site_orb n sg) in I by auto.
    assert (E1 : forall a b, image_up n false sw (sp s a b) (sp s b a) = sp (spin' sw s) a b) by (intros a b; unfold image_up, spin'; destruct s as [|[|]], sw; cbn [sp Nat.sub]; lia).
    assert (E2 : forall a b, image_dw n false sw (sp s a b) (sp s b a) = sp (spin' sw s) b a) by (intros a b; unfold image_dw, spin'; destruct s as [|[|]], sw; cbn [sp Nat.sub]; lia).
    rewrite !E1, !E2 in I. rewrite I; try (destruct s; cbn [sp]; lia).
    + rewrite EH. change (pm false) with 1. ring.
    + intros a b. rewrite HG, EH. reflexivity.
Qed.
Theorem lehmann_image s x y beta egs z : (s < 2)%nat -> (x < n)%nat -> (y < n)%nat ->
  lehmann n (spin' sw s) (rho x) (rho y) beta (egs + k0) F' (image_z hole z) = cxmul (rcx (pm hole * (pm (sg x) * pm (sg y)))) (lehmann n s x y beta egs F z).
Proof.
  intros Hs Hx Hy. rewrite (lehmann_parts n Hm' F' _ _ _ _ _ _ HF'), (lehmann_parts n Hm F _ _ _ _ _ _ HF).
  assert (G : forall a b, gz beta (egs + k0) (image_z hole z) (a + k0) (b + k0) = if hole then cxopp (gz beta egs z b a) else gz beta egs z a b) by (intros a b; unfold image_z; destruct hole; [apply gz_hole|apply gz_shift]).
  rewrite (lehm_image s x y (fun a b => re (gz beta egs z a b)) (fun a b => re (gz beta (egs + k0) (image_z hole z) a b)) Hs Hx Hy (fun a b => ltac:(cbv beta; rewrite G; destruct hole; reflexivity))).
  rewrite (lehm_image s x y (fun a b => CBase.im (gz beta egs z a b)) (fun a b => CBase.im (gz beta (egs + k0) (image_z hole z) a b)) Hs Hx Hy (fun a b => ltac:(cbv beta; rewrite G; destruct hole; reflexivity))).
  apply cx_eq; cbv [cxmul rcx re CBase.im fst snd]; ring.
Qed.
End Two.

(** ** From the results of build_espace *)
Section Exact.
Variables (big : R -> bool) (half : R) (n : nat) (h : hmat RRing) (fl : hflags) (V : inter RRing) (hf : bool) (mu : R) (z : option (nat -> R)) (U : nat -> nat -> R).
Hypothesis MO : model_ok half n h fl V U.
Variable eigh : dense RRing -> res (list R * list (list R)).
Variable eigsh : nat -> Z -> (list R -> res (list R)) -> res (list R * list (list R)).
Hypothesis HC : eigh_contract eigh.
Variables (es : espace RRing) (egs : option R).
Hypothesis HB : build_espace RRing Rleb big half eigh eigsh n h fl V hf mu z None "sz" = Ok (es, egs).
Definition Hmat (P : params) (t s : N) : R := ham_of n P (t mod 2 ^ N.of_nat n)%N (t / 2 ^ N.of_nat n)%N (s mod 2 ^ N.of_nat n)%N (s / 2 ^ N.of_nat n)%N.
Theorem exact_solved : exists F, lists_family n es F /\ solved n (Hmat (params_of big h V hf mu z U)) F /\
  (forall p q k, (p <= n)%nat -> (q <= n)%nat -> (k < nvals (F p q))%nat -> exists e, egs = Some e /\ e <= energy (F p q) k) /\
  exists p q, (p <= n)%nat /\ (q <= n)%nat /\ (0 < nvals (F p q))%nat /\ egs = Some (energy (F p q) 0).
Proof.
  destruct MO as ((Hn & Hn' & Hh2) & HU & HJ & (HSx & HSp) & HS & Hset).
  destruct (exact_family big half n h fl V hf mu z U Hn Hn' Hh2 HU HJ HSx HSp HS Hset eigh eigsh HC es egs HB) as (F & LF & EB & SD & LB & AT).
  exists F. split; [exact LF|]. split; [|split; [exact LB|exact AT]]. intros p q Hp Hq. pose proof (proj2 (proj2 LF) p q Hp Hq) as IS. destruct (EB p q Hp Hq) as [NV ON]. split; [exact IS|]. split; [exact NV|]. split; [now apply SD|].
  assert (I : In ([p; q], F p q) es) by (apply (proj1 (proj2 LF)); exists p, q; auto).
  destruct (exact_sector big half n h fl V hf mu z U eigh eigsh Hn Hn' Hh2 HU HJ HSx HSp HS Hset HC es egs HB p q _ I) as (S & cols & SV & LV & LC & LN & ON' & EV & AS).
  assert (UD : ups RRing (F p q) = cand n p /\ dws RRing (F p q) = cand n q) by (unfold ups, dws; now rewrite S). destruct UD as [EU ED].
  assert (SDIM : sdim RRing (F p q) = (length (cand n p) * length (cand n q))%nat) by (unfold sdim; rewrite EU, ED; apply Nat.mul_comm).
  assert (HALF : half = / 2) by lra. split.
  - split; [exact ON|]. intros k a Hk Ha. rewrite SDIM in *. unfold vec. rewrite SV. etransitivity; [|exact (EV k a Hk Ha)]. apply rsum_ext. intros b Hb. f_equal. unfold smat, Hmat, basis. rewrite EU, ED.
    assert (0 < length (cand n p))%nat by nia.
    assert (B : forall c, (c < length (cand n p) * length (cand n q))%nat -> (nth (c mod length (cand n p)) (cand n p) 0 < 2 ^ N.of_nat n)%N) by (intros c Hc; apply (cand_In n p), nth_In, Nat.mod_upper_bound; lia).
    destruct (combine_parts n (nth (a mod length (cand n p)) (cand n p) 0%N) (nth (a / length (cand n p)) (cand n q) 0%N) (B a Ha)) as [-> ->].
    destruct (combine_parts n (nth (b mod length (cand n p)) (cand n p) 0%N) (nth (b / length (cand n p)) (cand n q) 0%N) (B b Hb)) as [-> ->].
    unfold ham, ham_of. rewrite HALF. reflexivity.
  - rewrite SDIM. exact AS.
Qed.
End Exact.
