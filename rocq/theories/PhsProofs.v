(** The impurity model with pairs of levels. *)
From Coq Require Import String Reals List Arith NArith ZArith Bool Lia Lra Psatz Ring Field.
From Verif Require Import Base RBase RLin CBase FockSpec OperatorsSpec SectorModel LocalModel HoppingModel CsrSpec NonLocalModel MatvecModel MbModel MbSpec EspaceModel EspaceSpec EspaceRealModel EspaceMoreProofs ProjModel ProjSpec
  CfModel CfSpec GfModel GfSpec GmSpec ExactSpec ExactProofs GflModel GflSpec AgrModel AgrSpec AgrInstProofs VisSpec FitModel FitSpec FitProofs DmftModel DmftSpec DmftProofs
  SymSpec SymProofs RelSpec RelLinProofs RelHamProofs RelCorProofs SiamSpec SiamModel SiamCutProofs SiamInstProofs SiamImpProofs ScrSpec ScrProofs ScrRelProofs ScrMainProofs PhsSpec.
Import ListNotations.
Local Open Scope R_scope.
Add Field cxf_phs : cx_field.

Lemma flip_renumbering n : (0 < n)%nat -> renumbering n (flip n).
Proof. intros Hn. split; [intros [|k] Hk; cbn; lia|]. intros [|j] [|k] Hj Hk; cbn; lia. Qed.

Section Star.
Variables (big : R -> bool) (half : R) (fl : hflags) (hf : bool) (n : nat) (H : list R) (U : R).
Hypothesis Hn : (2 <= n <= 32)%nat.
Hypothesis HS : half_star n H (centre hf U).
Notation h := (array_of n H).
Notation P := (params_of big h (VArray RRing (on_site U)) hf 0 None (on_site U)).
Lemma star_entry x y : (x < n)%nat -> (y < n)%nat -> x <> y -> ent n H (flip n x) (flip n y) = (- (1) * (pm (bath_site x) * pm (bath_site y))) * ent n H x y.
Proof.
  clear big half fl. destruct HS as (SY & AR & _ & PR). intros Hx Hy NE. destruct x as [|x], y as [|y]; [lia| | |]; cbn [flip bath_site negb Nat.eqb pm].
  - destruct (PR (S y) ltac:(lia)) as [_ ->]. ring.
  - rewrite (SY (n - S x)%nat 0%nat), (SY (S x) 0%nat) by lia. destruct (PR (S x) ltac:(lia)) as [_ ->]. ring.
  - rewrite !AR by lia. ring.
Qed.
Lemma star_level s x : (x < n)%nat -> centred n P s (flip n x) = - centred n P s x.
Proof.
  destruct HS as (SY & AR & E0 & PR). intros Hx.
  assert (Z : forall i, rsum n (fun j => if (i =? j)%nat then 0 else on_site U i j + on_site U j i) = 0).
  { intros i. apply rsum_0. intros j _. destruct (Nat.eqb_spec i j) as [|NE]; [reflexivity|]. unfold on_site. destruct i, j; cbn; try lia; ring. }
  assert (Q : forall i, centred n P s i = ent n H i i + (if hf then 0 else / 2 * on_site U i i)).
  { intros i. destruct hf; [rewrite centred_hf|rewrite centred_plain, Z]; cbn [hspin array_of]; unfold ent; ring. }
  rewrite !Q. destruct x as [|x]; cbn [flip].
  - rewrite E0. unfold centre, on_site. cbn [Nat.eqb andb]. destruct hf; field.
  - destruct (PR (S x) ltac:(lia)) as [-> _]. unfold on_site. destruct (Nat.eqb_spec (n - S x) 0); [lia|]. cbn [Nat.eqb andb]. destruct hf; ring.
Qed.
Lemma star_related : related n true false (flip n) bath_site P P.
Proof.
  split; [apply flip_renumbering; lia| | | | |].
  - intros s x y Hs Hx Hy. cbn [params_of P_T spin']. unfold offdiag. cbn [hspin array_of]. destruct (Nat.eq_dec x y) as [->|NE].
    + rewrite !Nat.eqb_refl. cbn [negb andb]. change (c0 RRing) with 0. change (@eq R 0 (pm true * (pm (bath_site y) * pm (bath_site y)) * 0)). ring.
    + assert (NF : flip n x <> flip n y) by (intros E; apply NE; exact (proj2 (flip_renumbering n ltac:(lia)) x y Hx Hy E)).
      pose proof (star_entry x y Hx Hy NE) as E. unfold ent in E.
      replace (flip n x =? flip n y)%nat with false by (symmetry; apply Nat.eqb_neq; exact NF). replace (x =? y)%nat with false by (symmetry; apply Nat.eqb_neq; exact NE). cbn [negb].
      change (c0 RRing) with 0. rewrite E. change (pm true) with (- (1)). set (v := nth (x * n + y) H 0).
      destruct x as [|x], y as [|y]; [lia| | |]; cbn [bath_site negb Nat.eqb pm].
      * assert (Q : - (1) * (1 * -1) * v = v) by ring. rewrite Q. change (@eq R (if big v then v else 0) (- (1) * (1 * -1) * (if big v then v else 0))). ring.
      * assert (Q : - (1) * (-1 * 1) * v = v) by ring. rewrite Q. change (@eq R (if big v then v else 0) (- (1) * (-1 * 1) * (if big v then v else 0))). ring.
      * destruct HS as (_ & AR & _). assert (V0 : v = 0) by (unfold v; apply (AR (S x) (S y)); lia). rewrite V0. assert (Q : - (1) * (-1 * -1) * 0 = 0) by ring. rewrite Q. cbn [andb]. destruct (big 0); change (@eq R 0 (- (1) * (-1 * -1) * 0)); ring.
  - intros x y Hx Hy. cbn [params_of P_U]. unfold on_site. destruct x as [|x], y as [|y]; cbn [flip Nat.eqb andb]; try reflexivity.
    + destruct (Nat.eqb_spec (n - S y) 0); [lia|reflexivity].
    + destruct (Nat.eqb_spec (n - S x) 0); [lia|reflexivity].
    + destruct (Nat.eqb_spec (n - S x) 0); [lia|reflexivity].
  - intros s x _ Hx. cbn [spin']. rewrite star_level by exact Hx. unfold pm. ring.
  - intros x y _ _. cbn. split; reflexivity.
  - intros x y _ _. cbn. split; reflexivity.
Qed.
Variable eigh : dense RRing -> res (list R * list (list R)).
Variable eigsh : nat -> Z -> (list R -> res (list R)) -> res (list R * list (list R)).
Variable tridiag : (list R -> res (list R)) -> list R -> res (list R * list R).
Variable eight : list R -> list R -> res (list R * list (list R)).
Variables (s : nat) (beta : R).
Hypothesis Hs : (s <= 1)%nat.
Hypothesis H2 : half + half = 1.
Hypothesis HC : eigh_contract eigh.
Hypothesis HW : GflSpec.eigh_sound eight.
Hypothesis WK : workable big half eigh eigsh tridiag fl hf n s H U.
Lemma star_solved : exists ge sc egs, solve_impurity big half eigh eigsh tridiag eight fl hf n beta (Z.of_nat s) None false H U = Ok (ge, sc, egs, None) /\
  forall z, CBase.im z <> 0 -> exists g, gl_call ge (rcx (re z)) (CBase.im z) = Ok g /\ value_at ge z = g /\ value_at ge (cxopp z) = cxopp g /\ value_at ge (cxconj z) = cxconj g /\ (re z = 0 -> re g = 0).
Proof.
  destruct WK as [Hfl WK']. pose proof HS as (SY & AR & _).
  pose proof (code_ok half fl n H U ltac:(lia) H2 Hfl SY) as MO. destruct MO as ((Hn1 & Hn2 & H2') & HU & HJ & (HSx & HSp) & HSm & Hset).
  assert (MO : model_ok half n h fl (VArray RRing (on_site U)) (on_site U)) by (apply code_ok; auto; lia).
  destruct (exact_runs big half n h fl (VArray RRing (on_site U)) hf 0 None (on_site U) eigh eigsh Hn1 Hn2 H2 HU HJ HSx HSp HSm Hset HC) as (es & o & HB).
  destruct (exact_egs big half n h fl (VArray RRing (on_site U)) hf 0 None (on_site U) eigh eigsh Hn1 Hn2 H2 HU HJ HSx HSp HSm Hset HC es o HB) as (e & -> & _).
  pose proof (inst_sectors big half n h fl (VArray RRing (on_site U)) hf 0 None (on_site U) MO eigh eigsh HC es (Some e) HB) as SE.
  pose proof (screen_ok RRing (boltzmann 1000000 e (/ 1000000000)) es (sectors_paired n es SE) (proj1 SE)) as ES.
  destruct (WK' es e _ HB ES) as [UD KR].
  destruct (screened_mirror n big half h fl (VArray RRing (on_site U)) hf 0 None (on_site U) MO eigh eigsh HC es e HB tridiag eight beta 1000000 (/ 1000000000) _ "sp" ES (or_intror (conj eq_refl HW)) (flip n) bath_site s 0%nat star_related Hs ltac:(lia) eq_refl UD KR)
    as (ge & gh & EG & OD & CJ & IM).
  eexists ge, _, e. split.
  - unfold solve_impurity. cbv zeta. match goal with |- bind ?b _ = _ => replace b with (Ok (es, Some e)) by (symmetry; exact HB) end. cbn [bind snd fst].
    match goal with |- context [screen_espace ?a ?b ?c] => replace (screen_espace a b c) with (@Ok unit tt, cut_all RRing (boltzmann 1000000 e (/ 1000000000)) es) by (symmetry; exact ES) end. cbn [bind].
    match goal with |- bind ?b _ = _ => replace b with (Ok (cut_all RRing (boltzmann 1000000 e (/ 1000000000)) es, ge, gh)) by (symmetry; exact EG) end. reflexivity.
  - intros z Hz. assert (ZP : forall y, zpoint (rcx (re y)) (CBase.im y) = y) by (intros [a b]; apply cx_eq; cbn; ring).
    assert (Hz' : CBase.im (zpoint (rcx (re z)) (CBase.im z)) <> 0) by (rewrite ZP; exact Hz).
    destruct (OD (rcx (re z)) (CBase.im z) (rcx (re (cxopp z))) (CBase.im (cxopp z)) Hz') as (g & G1 & G2); [now rewrite !ZP|].
    destruct (CJ (rcx (re z)) (CBase.im z) (rcx (re (cxconj z))) (CBase.im (cxconj z)) Hz') as (g1 & G3 & G4); [now rewrite !ZP|].
    rewrite G1 in G3. injection G3 as <-. exists g. split; [exact G1|]. split; [apply value_ok, G1|]. split; [exact (value_ok _ (cxopp z) _ G2)|]. split; [exact (value_ok _ (cxconj z) _ G4)|].
    intros RZ. destruct (IM (rcx (re z)) (CBase.im z) Hz') as (g2 & G5 & Q); [now rewrite ZP|]. rewrite G1 in G5. injection G5 as <-. exact Q.
Qed.
End Star.
