(** The solver for two layers that face each other. *)
From Coq Require Import String Reals List Arith NArith ZArith Bool Lia Lra Ring Field.
From Verif Require Import Base RBase RLin CBase FockSpec OperatorsSpec SectorModel LocalModel HoppingModel CsrSpec NonLocalModel MatvecModel MbModel MbSpec EspaceModel EspaceSpec EspaceRealModel EspaceMoreProofs ProjModel ProjSpec
  CfModel CfSpec GfModel GfSpec GmSpec ExactSpec ExactProofs GflModel GflSpec AgrModel AgrSpec AgrInstProofs VisSpec FitModel FitSpec FitProofs DmftModel DmftSpec DmftProofs
  SymSpec SymProofs RelSpec RelLinProofs RelHamProofs RelFinalProofs RelCorProofs ObsModel ObsSpec OccSpec OccProofs SiamSpec SiamModel SiamCutProofs SiamInstProofs SiamImpProofs ScrSpec ScrProofs ScrRelProofs ScrMainProofs PhsSpec PhsProofs MagModel MagSpec MagProofs AfmSpec.
Import ListNotations.
Local Open Scope R_scope.

Lemma over_over z : over (over z) = z.
Proof. destruct z as [a b]. apply cx_eq; cbn; ring. Qed.
Lemma over_opp z : over z = cxopp (cxconj z).
Proof. destruct z as [a b]. apply cx_eq; cbn; ring. Qed.

Section Layers.
Variables (big : R -> bool) (half : R) (fl : hflags) (hf : bool) (n : nat) (U : R) (Hu Hd : list R) (f : R).
Hypothesis Hn : (2 <= n <= 32)%nat.
Hypothesis FA : facing n Hu Hd (centre hf U) f.
Notation V := (VArray RRing (on_site U)).
Notation P := (params_of big (layers n Hu Hd) V hf 0 None (on_site U)).
Notation lay s := (match s with O => Hu | _ => Hd end).
Lemma facing_pairs s k : (s < 2)%nat -> (0 < k < n)%nat -> ent n (lay (1 - s)%nat) (n - k) (n - k) = - ent n (lay s) k k /\ ent n (lay (1 - s)%nat) 0 (n - k) = ent n (lay s) 0 k.
Proof.
  clear big half fl. destruct FA as (_ & _ & _ & _ & _ & _ & PR). intros Hs Hk. destruct s as [|[|]]; [exact (PR k Hk)| |lia]. cbn [Nat.sub].
  destruct (PR (n - k)%nat ltac:(lia)) as [A B]. replace (n - (n - k))%nat with k in A, B by lia. split; [rewrite A; ring|symmetry; exact B].
Qed.
Lemma facing_arrow s : arrow n (lay s) /\ symmetric n (lay s).
Proof. destruct FA as (SU & SD & AU & AD & _). destruct s; auto. Qed.
Lemma facing_entry s x y : (s < 2)%nat -> (x < n)%nat -> (y < n)%nat -> x <> y -> ent n (lay (1 - s)%nat) (flip n x) (flip n y) = (- (1) * (pm (bath_site x) * pm (bath_site y))) * ent n (lay s) x y.
Proof.
  clear big half fl. intros Hs Hx Hy NE. destruct (facing_arrow s) as [AR SY]. destruct (facing_arrow (1 - s)) as [AR' SY']. pose proof (facing_pairs s) as PR. destruct x as [|x], y as [|y]; [lia| | |]; cbn [flip bath_site negb Nat.eqb pm].
  - destruct (PR (S y) Hs ltac:(lia)) as [_ ->]. ring.
  - rewrite (SY' (n - S x)%nat 0%nat), (SY (S x) 0%nat) by lia. destruct (PR (S x) Hs ltac:(lia)) as [_ ->]. ring.
  - rewrite AR', AR by lia. ring.
Qed.
Lemma facing_level s x : (s < 2)%nat -> (x < n)%nat -> centred n P (1 - s) (flip n x) = - centred n P s x.
Proof.
  intros Hs Hx.
  assert (Z : forall i, rsum n (fun j => if (i =? j)%nat then 0 else on_site U i j + on_site U j i) = 0).
  { intros i. apply rsum_0. intros j _. destruct (Nat.eqb_spec i j) as [|NE]; [reflexivity|]. unfold on_site. destruct i, j; cbn; try lia; ring. }
  assert (Q : forall t i, centred n P t i = ent n (lay t) i i + (if hf then 0 else / 2 * on_site U i i)).
  { intros t i. destruct hf; [rewrite centred_hf|rewrite centred_plain, Z]; cbn [hspin layers]; unfold ent; ring. }
  rewrite !Q. destruct x as [|x]; cbn [flip].
  - destruct FA as (_ & _ & _ & _ & EU & ED & _). unfold centre, on_site in *. destruct s as [|[|]]; [| |lia]; cbn [Nat.sub Nat.eqb andb]; rewrite EU, ED; destruct hf; field.
  - destruct (facing_pairs s (S x) Hs ltac:(lia)) as [-> _]. unfold on_site. destruct (Nat.eqb_spec (n - S x) 0); [lia|]. cbn [Nat.eqb andb]. destruct hf; ring.
Qed.
Lemma facing_related : related n true true (flip n) bath_site P P.
Proof.
  split; [apply flip_renumbering; lia| | | | |].
  - intros s x y Hs Hx Hy. cbn [params_of P_T spin']. unfold offdiag. cbn [hspin layers]. destruct (Nat.eq_dec x y) as [->|NE].
    + rewrite !Nat.eqb_refl. cbn [negb andb]. change (c0 RRing) with 0. change (@eq R 0 (pm true * (pm (bath_site y) * pm (bath_site y)) * 0)). ring.
    + assert (NF : flip n x <> flip n y) by (intros E; apply NE; exact (proj2 (flip_renumbering n ltac:(lia)) x y Hx Hy E)).
      pose proof (facing_entry s x y Hs Hx Hy NE) as E. unfold ent in E.
      replace (flip n x =? flip n y)%nat with false by (symmetry; apply Nat.eqb_neq; exact NF). replace (x =? y)%nat with false by (symmetry; apply Nat.eqb_neq; exact NE). cbn [negb].
      change (c0 RRing) with 0. rewrite E. change (pm true) with (- (1)). destruct (facing_arrow s) as [AR _]. set (v := nth (x * n + y) (lay s) 0).
      destruct x as [|x], y as [|y]; [lia| | |]; cbn [bath_site negb Nat.eqb pm].
      * assert (Q : - (1) * (1 * -1) * v = v) by ring. rewrite Q. change (@eq R (if big v then v else 0) (- (1) * (1 * -1) * (if big v then v else 0))). ring.
      * assert (Q : - (1) * (-1 * 1) * v = v) by ring. rewrite Q. change (@eq R (if big v then v else 0) (- (1) * (-1 * 1) * (if big v then v else 0))). ring.
      * assert (V0 : v = 0) by (unfold v; apply (AR (S x) (S y)); lia). rewrite V0. assert (Q : - (1) * (-1 * -1) * 0 = 0) by ring. rewrite Q. cbn [andb]. destruct (big 0); change (@eq R 0 (- (1) * (-1 * -1) * 0)); ring.
  - intros x y Hx Hy. cbn [params_of P_U]. unfold on_site. destruct x as [|x], y as [|y]; cbn [flip Nat.eqb andb]; try reflexivity.
    + destruct (Nat.eqb_spec (n - S y) 0); [lia|reflexivity].
    + destruct (Nat.eqb_spec (n - S x) 0); [lia|reflexivity].
    + destruct (Nat.eqb_spec (n - S x) 0); [lia|reflexivity].
  - intros s x Hs Hx. cbn [spin']. rewrite facing_level by assumption. unfold pm. ring.
  - intros x y _ _. cbn. split; reflexivity.
  - intros x y _ _. cbn. split; reflexivity.
Qed.
Hypothesis H2 : half + half = 1.
Variable eigh : dense RRing -> res (list R * list (list R)).
Variable eigsh : nat -> Z -> (list R -> res (list R)) -> res (list R * list (list R)).
Variable tridiag : (list R -> res (list R)) -> list R -> res (list R * list R).
Variable eight : list R -> list R -> res (list R * list (list R)).
Variable beta : R.
Hypothesis HC : eigh_contract eigh.
Hypothesis HW : GflSpec.eigh_sound eight.
Lemma facing_occupation es e scts : settable RRing (layers n Hu Hd) fl = true -> build_espace RRing Rleb big half eigh eigsh n (layers n Hu Hd) fl V hf 0 None None "sz" = Ok (es, Some e) -> Forall2 (fun e o => stored (snd e) o) es scts ->
  exists u d, fst (get_occupation scts e beta n) = Ok (u, d) /\ nth 0 u 0 + nth 0 d 0 = 1 /\ forall k, (0 < k < n)%nat -> nth k u 0 + nth (n - k) d 0 = 1.
Proof.
  clear HW tridiag eight. intros HS HB ST. destruct FA as (SU & SD & _). pose proof (layers_ok big half fl n U Hn H2 Hu Hd SU SD HS) as MO.
  destruct (related_occupation n true true (flip n) bath_site big half (layers n Hu Hd) fl V hf 0 None (on_site U) big half (layers n Hu Hd) fl V hf 0 None (on_site U) MO MO facing_related eigh eigh eigsh eigsh HC HC es es (Some e) (Some e) HB HB beta e e scts scts eq_refl eq_refl ST ST)
    as ([u d] & ud' & E & E' & Q). rewrite E in E'. injection E' as <-. exists u, d. split; [exact E|]. split.
  - specialize (Q 0%nat 0%nat ltac:(lia) ltac:(lia)). cbn [spin' Nat.sub pick fst snd flip image_occ] in Q. rewrite Q. ring.
  - intros [|k] Hk; [lia|]. specialize (Q 0%nat (S k) ltac:(lia) ltac:(lia)). cbn [spin' pick fst snd flip image_occ] in Q. cbn [Nat.sub pick snd] in Q. rewrite Q. ring.
Qed.
Theorem facing_solved : workable2 big half eigh eigsh tridiag fl hf n Hu Hd U ->
  exists gu gd sc e, solve_spins big half eigh eigsh tridiag eight fl hf n beta None false Hu Hd U = Ok ((gu, gd), sc, e, None) /\
  forall z, CBase.im z <> 0 -> value_at gd (cxopp z) = cxopp (value_at gu z) /\ value_at gu (cxconj z) = cxconj (value_at gu z) /\ value_at gd (cxconj z) = cxconj (value_at gd z) /\ value_at gd (over z) = over (value_at gu z).
Proof.
  intros [HS WK]. pose proof FA as (SU & SD & _). pose proof (layers_ok big half fl n U Hn H2 Hu Hd SU SD HS) as MO.
  destruct (dictionary big half fl hf n U H2 eigh eigsh HC _ MO) as (es & e & sc & HB & HSC).
  destruct (WK es e sc HB HSC 0%nat ltac:(lia)) as [U0 K0]. destruct (WK es e sc HB HSC 1%nat ltac:(lia)) as [U1 K1].
  destruct (inst_family big half n (layers n Hu Hd) fl V hf 0 None (on_site U) MO eigh eigsh HC es (Some e) HB) as (F & LF & _).
  destruct (kept_value big half n (layers n Hu Hd) fl V hf 0 None (on_site U) MO eigh eigsh HC es (Some e) HB tridiag eight _ sc HSC beta e 0 "sp" ltac:(lia) (or_intror (conj eq_refl HW)) F 0 false LF ltac:(lia) U0 K0) as (ge & gh & G0 & V0).
  destruct (kept_value big half n (layers n Hu Hd) fl V hf 0 None (on_site U) MO eigh eigsh HC es (Some e) HB tridiag eight _ sc HSC beta e 1 "sp" ltac:(lia) (or_intror (conj eq_refl HW)) F 0 false LF ltac:(lia) U1 K1) as (ge' & gh' & G1 & V1).
  exists ge, ge', sc, e. split; [exact (solve_spins_parts big half fl hf n U eigh eigsh tridiag eight beta Hu Hd es e sc ge gh ge' gh' HB HSC G0 G1)|].
  destruct (related_screened n true true (flip n) bath_site big half (layers n Hu Hd) fl V hf 0 None (on_site U) big half (layers n Hu Hd) fl V hf 0 None (on_site U) MO MO facing_related eigh eigh eigsh eigsh HC HC es es e e HB HB
    tridiag tridiag eight eight beta 1000000 (/ 1000000000) sc sc 0%nat "sp" "sp" HSC HSC ltac:(lia) (or_intror (conj eq_refl HW)) (or_intror (conj eq_refl HW)) 0%nat ltac:(lia) U0 K0 K1) as (g & gx & g' & gx' & A & B & EQ).
  assert (Q : Ok (sc, g, gx) = Ok (sc, ge, gh)) by (rewrite <- G0; symmetry; exact A). injection Q as -> ->. assert (Q : Ok (sc, g', gx') = Ok (sc, ge', gh')) by (rewrite <- G1; symmetry; exact B). injection Q as -> ->.
  assert (OD : forall z, CBase.im z <> 0 -> value_at ge' (cxopp z) = cxopp (value_at ge z)).
  { intros z Hz. destruct (EQ (rcx (re z)) (CBase.im z) (rcx (re (cxopp z))) (CBase.im (cxopp z))) as (v & X & Y); [rewrite zpt; exact Hz|now rewrite !zpt|]. rewrite (value_ok _ _ _ X), (value_ok _ _ _ Y). cbn [pm]. apply cx_eq; cbn; ring. }
  assert (CU : forall z, CBase.im z <> 0 -> value_at ge (cxconj z) = cxconj (value_at ge z)).
  { intros z Hz. assert (Hz' : CBase.im (cxconj z) <> 0) by (destruct z; cbn in *; lra). pose proof (V0 (rcx (re z)) (CBase.im z)) as X. pose proof (V0 (rcx (re (cxconj z))) (CBase.im (cxconj z))) as Y. rewrite zpt in X, Y.
    rewrite (value_ok _ _ _ (X Hz eq_refl)), (value_ok _ _ _ (Y Hz' eq_refl)), lehmann_w_conj, conj_cdiv. reflexivity. }
  assert (CD : forall z, CBase.im z <> 0 -> value_at ge' (cxconj z) = cxconj (value_at ge' z)).
  { intros z Hz. assert (Hz' : CBase.im (cxconj z) <> 0) by (destruct z; cbn in *; lra). pose proof (V1 (rcx (re z)) (CBase.im z)) as X. pose proof (V1 (rcx (re (cxconj z))) (CBase.im (cxconj z))) as Y. rewrite zpt in X, Y.
    rewrite (value_ok _ _ _ (X Hz eq_refl)), (value_ok _ _ _ (Y Hz' eq_refl)), lehmann_w_conj, conj_cdiv. reflexivity. }
  intros z Hz. split; [now apply OD|]. split; [now apply CU|]. split; [now apply CD|]. rewrite over_opp. assert (Hz' : CBase.im (cxconj z) <> 0) by (destruct z; cbn in *; lra). rewrite (OD _ Hz'), (CU _ Hz). now rewrite over_opp.
Qed.
End Layers.
