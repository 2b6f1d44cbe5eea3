(** A stationary point is returned unchanged. *)
From Coq Require Import Reals List Arith ZArith Bool Lia Lra Psatz FunctionalExtensionality.
From Verif Require Import Base RBase RLin CBase FitModel FitSpec FitProofs FitMoreProofs IntProofs NrModel NrSpec NrProofs SymSpec SymProofs.
Import ListNotations.
Local Open Scope R_scope.

Lemma leb_true a b : a <= b -> Rleb a b = true.
Proof. intros H. now apply Rleb_spec. Qed.
Lemma leb_false a b : b < a -> Rleb a b = false.
Proof. intros H. destruct (Rleb a b) eqn:E; [|reflexivity]. apply Rleb_spec in E. lra. Qed.
Lemma reqb_same x : Reqb x x = true.
Proof. unfold Reqb. destruct (Req_EM_T x x); [reflexivity|contradiction]. Qed.

Lemma itmax : exists n, ITMAX = S n /\ (32 < n)%nat.
Proof. exists 1999%nat. split; [reflexivity|lia]. Qed.
(** Line search along a constant function: the bracket (0, b) is halved until it is short. *)
Section Const.
Variables (c tol : R).
Hypothesis Ht : 0 <= tol <= 1 / 4.
Notation f := (fun _ : R => c).
Notation df := (fun _ : R => 0).
Notation loop := (dloop f df tol).
Lemma const_next b d e w v : 0 < b -> 1 / 10 ^ 10 * 4 < b * (1 - 2 * tol) ->
  exists d' e', dround f df tol (mkDb 0 b d e (b / 2) c 0 w c 0 v c 0) = inr (mkDb 0 (b / 2) d' e' (b / 2 / 2) c 0 (b / 2) c 0 w c 0).
Proof.
  intros Hb H. assert (Z : ZEPS = 1 / 10 ^ 10) by reflexivity. unfold dround. cbn [dxx da db dfx].
  rewrite Rabs_pos_eq with (x := b / 2) by lra. rewrite leb_false.
  2: { replace (b / 2 - 1 / 2 * (0 + b)) with 0 by field. rewrite Rabs_R0. rewrite Z. nra. }
  assert (D : exists e', dstep tol (mkDb 0 b d e (b / 2) c 0 w c 0 v c 0) = (1 / 2 * (0 - b / 2), e')).
  { unfold dstep. rewrite !reqb_same. rewrite (leb_true 0 0) by lra. rewrite !(Rltb_false 0 ((0 - (b / 2 + 2 * (b - 0))) * (b / 2 + 2 * (b - 0) - b))) by nra. cbn [andb orb].
    destruct (Rltb _ _); eexists; reflexivity. }
  destruct D as (e' & D). rewrite D. rewrite leb_true.
  2: { rewrite Rabs_left1 by lra. rewrite Z. nra. }
  exists (1 / 2 * (0 - b / 2)), e'. unfold dupdate. rewrite (leb_true c c) by lra. rewrite leb_false by lra. do 2 f_equal; field.
Qed.
Lemma const_loop k : forall iters b d e w v, (k < iters)%nat -> 0 < b -> b * (1 - 2 * tol) <= 1 / 10 ^ 10 * 4 * 2 ^ k -> exists x, loop iters (mkDb 0 b d e (b / 2) c 0 w c 0 v c 0) = Ok (x, c).
Proof.
  assert (STOP : forall iters b d e w v, 0 < b -> b * (1 - 2 * tol) <= 1 / 10 ^ 10 * 4 -> loop (S iters) (mkDb 0 b d e (b / 2) c 0 w c 0 v c 0) = Ok (b / 2, c)).
  { intros iters b d e w v Hb H. assert (Z : ZEPS = 1 / 10 ^ 10) by reflexivity. cbn [dloop]. unfold dround. cbn [dxx da db dfx]. rewrite Rabs_pos_eq with (x := b / 2) by lra. rewrite leb_true; [reflexivity|].
    replace (b / 2 - 1 / 2 * (0 + b)) with 0 by field. rewrite Rabs_R0, Z. nra. }
  induction k as [|k IH]; intros iters b d e w v HI Hb H; (destruct iters as [|iters]; [lia|]).
  - exists (b / 2). apply STOP; auto. cbn [pow] in H. lra.
  - destruct (Rle_lt_dec (b * (1 - 2 * tol)) (1 / 10 ^ 10 * 4)) as [Q|Q]; [exists (b / 2); now apply STOP|].
    destruct (const_next b d e w v Hb Q) as (d' & e' & E). cbn [dloop]. rewrite E. apply IH; [lia|lra|]. cbn [pow] in H. lra.
Qed.
Lemma const_line fuel d0 : exists t, mnbrak f fuel 0 1 = Ok (mkBr 0 1 (1 + GOLD * (1 - 0)) c c c) /\ dbrent f df tol d0 0 1 (1 + GOLD * (1 - 0)) = Ok (t, c).
Proof.
  unfold GOLD.
  assert (M : mnbrak f fuel 0 1 = Ok (mkBr 0 1 (1 + GOLD * (1 - 0)) c c c)).
  { unfold mnbrak, mnbrak_start. rewrite (Rltb_false c c) by lra. destruct fuel; cbn [mnbrak_loop bfc bfb]; rewrite (Rltb_false c c) by lra; reflexivity. }
  assert (D : exists t, dbrent f df tol d0 0 1 (1 + GOLD * (1 - 0)) = Ok (t, c)).
  { unfold dbrent. rewrite Rltb_true by (unfold GOLD; lra). rewrite Rltb_false by (unfold GOLD; lra). set (C := 1 + GOLD * (1 - 0)). assert (HC : C = 2618034 / 1000000) by (unfold C, GOLD; lra).
    assert (Z : ZEPS = 1 / 10 ^ 10) by reflexivity. destruct itmax as (N & -> & HN). cbn [dloop].
    assert (E : exists d' e', dround f df tol (mkDb 0 C d0 0 1 c 0 1 c 0 1 c 0) = inr (mkDb 0 1 d' e' (1 / 2) c 0 1 c 0 1 c 0)).
    { unfold dround. cbn [dxx da db dfx]. rewrite Rabs_R1. rewrite leb_false.
      2: { rewrite HC. rewrite Rabs_left1 by lra. rewrite Z. lra. }
      assert (DS : dstep tol (mkDb 0 C d0 0 1 c 0 1 c 0 1 c 0) = (1 / 2 * (0 - 1), 0 - 1)).
      { unfold dstep. rewrite Rabs_R0, Rabs_R1, Rltb_false by (rewrite Z; lra). now rewrite (leb_true 0 0) by lra. }
      rewrite DS. rewrite leb_true by (rewrite Rabs_left1, Z by lra; lra). unfold dupdate. rewrite (leb_true c c) by lra. rewrite leb_false by lra.
      do 2 eexists. replace (1 + 1 / 2 * (0 - 1)) with (1 / 2) by field. reflexivity. }
    destruct E as (d' & e' & E). rewrite E. apply (const_loop 32 N); [exact HN|lra|]. assert (2 ^ 32 = 4294967296) by (simpl; lra). lra. }
  destruct D as (t & D). exists t. split; [exact M|exact D].
Qed.
End Const.

Lemma zero_along p xi t : length p = length xi -> (forall y, In y xi -> y = 0) -> along p xi t = p.
Proof.
  revert xi. induction p as [|a p IH]; intros [|y xi] L H; try discriminate; [reflexivity|]. unfold along in *. cbn [combine map fst snd]. rewrite (H y (or_introl eq_refl)). f_equal; [ring|]. apply IH; [now injection L|]. intros; apply H; now right.
Qed.
Theorem stationary_linmin func dfunc fuel d0 p xi : length p = length xi -> (forall y, In y xi -> y = 0) -> length (dfunc p) = length p -> exists xi', dlinmin func dfunc fuel d0 p xi = Ok (p, xi', func p).
Proof.
  intros L H LD. unfold dlinmin. assert (F : f1dim func p xi = fun _ => func p) by (extensionality t; unfold f1dim; now rewrite zero_along).
  assert (DF : df1dim dfunc p xi = fun _ => 0).
  { extensionality t. unfold df1dim. rewrite zero_along by auto. assert (G : forall (a b : list R) (z : R), (forall y, In y b -> y = 0) -> fold_left (fun (s : R) (q : R * R) => s + fst q * snd q) (combine a b) z = z).
    { induction a as [|x a IHa]; intros [|y b] z HB; try reflexivity. cbn [combine fold_left fst snd]. rewrite IHa by (intros; apply HB; now right). rewrite (HB y (or_introl eq_refl)). ring. }
    apply (G (dfunc p) xi 0). exact H. }
  rewrite F, DF. destruct (const_line (func p) TOL ltac:(unfold TOL; lra) fuel d0) as (t & M & D). rewrite M. cbn [bind bax bbx bcx]. rewrite D. cbn [bind].
  eexists. rewrite along_scaled, zero_along by auto. reflexivity.
Qed.
Theorem stationary func dfunc fuel d0 p : length (dfunc p) = length p -> (forall y, In y (dfunc p) -> y = 0) -> frprmn func dfunc fuel d0 p = Ok (p, 1%nat, func p).
Proof.
  intros L H. unfold frprmn, frprmn_n. destruct itmax as (N & -> & HN). cbn [frprmn_loop].
  destruct (stationary_linmin func dfunc fuel d0 p (map Ropp (dfunc p))) as (xi' & E); [now rewrite map_length| |exact L|].
  - intros y Hy. apply in_map_iff in Hy. destruct Hy as (x & <- & Hx). rewrite (H x Hx). ring.
  - rewrite E. cbn [bind]. replace (func p - func p) with 0 by ring. rewrite Rabs_R0, leb_true; [reflexivity|]. pose proof (Rabs_pos (func p)). unfold FTOL, EPS. lra.
Qed.
(** A bath that fits exactly. *)
Theorem exact_fit fuel d0 m nmats vals beta mem x : length x = (2 * m)%nat -> length vals = nmats -> length mem = nmats -> (forall row, In row mem -> length row = (2 * m)%nat) ->
  (forall i, (i < nmats)%nat -> nth i vals (rcx 0) = hyb m (fun k => nth k x 0) (fun k => nth (m + k) x 0) (nth i (matsubara nmats beta) (rcx 0))) ->
  c_fit fuel d0 m nmats vals beta mem x = Ok (x, 1%nat, 0).
Proof.
  intros L LV LM ROW FIT. unfold c_fit, c_fit_with. rewrite stationary.
  - do 2 f_equal. assert (LZ : length (matsubara nmats beta) = nmats) by apply z_length. rewrite c_chi2_eq by congruence. rewrite (chi2_misfit m) by congruence. unfold misfit. rewrite LZ.
    rewrite (rsum_ext nmats _ (fun _ => 0)); [rewrite rsum_0 by reflexivity; unfold Rdiv; ring|]. intros i Hi. rewrite FIT by auto. unfold cxn2, cxsub, cxadd, cxopp, re, im. cbn [fst snd]. ring.
  - now rewrite c_dchi2_length.
  - intros y Hy. apply (In_nth _ _ 0) in Hy. destruct Hy as (k & Hk & <-). rewrite c_dchi2_length in Hk. rewrite grad_nth by auto.
    rewrite (rsum_ext nmats _ (fun _ => 0)); [rewrite rsum_0 by reflexivity; unfold Rdiv; ring|]. intros i Hi. unfold rest. rewrite FIT by auto. unfold cxsub, cxadd, cxopp, re, im. cbn [fst snd]. ring.
Qed.
