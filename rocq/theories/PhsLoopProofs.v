(** The loop at half filling. *)
From Coq Require Import String Reals List Arith NArith ZArith Bool Lia Lra Psatz Ring Field.
From Verif Require Import Base RBase RLin CBase FockSpec OperatorsSpec SectorModel LocalModel HoppingModel CsrSpec NonLocalModel MatvecModel MbModel MbSpec EspaceModel EspaceSpec EspaceRealModel EspaceMoreProofs ProjModel ProjSpec
  CfModel CfSpec GfModel GfSpec GmSpec ExactSpec GflModel GflSpec AgrModel AgrSpec VisSpec FitModel FitSpec FitProofs FitMoreProofs GflProofs NrModel NrSpec NrProofs DmftModel DmftSpec DmftProofs
  SymSpec SymProofs SiamSpec SiamModel SiamImpProofs ScrSpec PhsSpec PhsProofs.
Import ListNotations.
Local Open Scope R_scope.
Add Field cxf_phsl : cx_field.

Lemma csum_rev m (f : nat -> cx) : csum m (fun k => f (m - 1 - k)%nat) = csum m f.
Proof.
  induction m as [|m IH]; [reflexivity|]. rewrite csum_S_l. rewrite (csum_ext m _ (fun k => f (m - 1 - k)%nat)); [|intros k Hk; f_equal; lia]. rewrite IH.
  replace (S m - 1 - 0)%nat with m by lia. rewrite GflProofs.csum_S. ring.
Qed.
Lemma cxinv_opp a : cxinv (cxopp a) = cxopp (cxinv a).
Proof. destruct a as [x y]. unfold cxinv, cxopp, cxn2, re, CBase.im. cbn [fst snd]. replace (- x * - x + - y * - y) with (x * x + y * y) by ring. apply cx_eq; cbn; unfold Rdiv; ring. Qed.
Lemma csum_opp m f : csum m (fun k => cxopp (f k)) = cxopp (csum m f).
Proof. rewrite (csum_ext m _ (fun k => cxmul (rcx (-1)) (f k))) by (intros k _; apply cx_eq; cbn; ring). rewrite csum_scal_l. apply cx_eq; cbn; ring. Qed.
Lemma cxdiv_opp a b : cxdiv a (cxopp b) = cxopp (cxdiv a b).
Proof. unfold cxdiv. rewrite cxinv_opp. ring. Qed.
Lemma mirror_hyb m x z : mirror_symmetric m x -> hyb m (fun k => nth k x 0) (fun k => nth (m + k) x 0) (cxopp z) = cxopp (hyb m (fun k => nth k x 0) (fun k => nth (m + k) x 0) z).
Proof.
  intros HM. unfold hyb. rewrite <- (csum_rev m (fun k => cxdiv _ (cxsub z _))). rewrite <- csum_opp. apply csum_ext. intros k Hk. cbv beta. destruct (HM k Hk) as [E V].
  rewrite <- V. rewrite <- cxdiv_opp. f_equal. rewrite E. destruct z as [a b]. apply cx_eq; cbn; ring.
Qed.

(** ** The impurity *)
Section Loop.
Variables (big : R -> bool) (half : R).
Variable eigh : dense RRing -> res (list R * list (list R)).
Variable eigsh : nat -> Z -> (list R -> res (list R)) -> res (list R * list (list R)).
Variable tridiag : (list R -> res (list R)) -> list R -> res (list R * list R).
Variable eight : list R -> list R -> res (list R * list (list R)).
Variables (fl : hflags) (hf : bool) (n s : nat) (beta U : R) (fitter : list R -> list cx -> list R).
Hypothesis Hn : (2 <= n <= 32)%nat.
Hypothesis Hs : (s <= 1)%nat.
Hypothesis H2 : half + half = 1.
Hypothesis HC : eigh_contract eigh.
Hypothesis HW : GflSpec.eigh_sound eight.
Notation solver := (impurity_solver big half eigh eigsh tridiag eight fl hf n beta (Z.of_nat s) None false).
Notation wk H := (workable big half eigh eigsh tridiag fl hf n s H U).

Section One.
Variables (g : gfimp) (delta : list cx) (mu : R).
Hypothesis SG : shaped n U g.
Hypothesis LF : length (fitter (imp_x g) delta) = (2 * (n - 1))%nat.
Hypothesis MF : mirror_symmetric (n - 1) (fitter (imp_x g) delta).
Hypothesis HM : mu = centre hf U.
Notation g' := (imp_fit_update fitter g delta mu).
Lemma shaped_fit : shaped n U g'.
Proof.
  destruct SG as (N & EU & LH & LX & AR). subst n. split; [reflexivity|]. split; [exact EU|].
  split; [unfold imp_fit_update, imp_update; cbn [imp_H set_H]; rewrite upd_tot_length, fit_H_length; exact LH|]. split; [exact LF|]. apply fit_arrow; auto; lia.
Qed.
Lemma fit_star : half_star n (imp_H g') (centre hf U).
Proof.
  destruct SG as (N & EU & LH & LX & AR). subst n. pose proof (fit_entries fitter g delta mu ltac:(lia) LH LF) as FE.
  split; [apply DmftProofs.fit_symmetric; auto; lia|]. split; [apply fit_arrow; auto; lia|]. split; [rewrite FE by lia; cbn; rewrite HM; reflexivity|].
  intros k Hk. rewrite !FE by lia. cbn [Nat.eqb]. destruct (Nat.eqb_spec k 0); [lia|]. destruct (Nat.eqb_spec (imp_n g - k) 0); [lia|]. rewrite !Nat.eqb_refl.
  destruct (MF (k - 1)%nat ltac:(lia)) as [E V]. replace (imp_n g - 1 - 1 - (k - 1))%nat with (imp_n g - k - 1)%nat in E, V by lia. split; [lra|symmetry; exact V].
Qed.
Theorem imp_half : wk (imp_H g') -> exists g'' f, imp_solve solver g' = Ok g'' /\ imp_gf g'' = Some f /\ imp_x g'' = imp_x g' /\ imp_H g'' = imp_H g' /\ shaped n U g'' /\
  (forall z, CBase.im z <> 0 -> f (cxopp z) = cxopp (f z) /\ f (cxconj z) = cxconj (f z) /\ exists v, imp_Sigma g'' z = Ok v /\ imp_Sigma g'' (cxopp z) = Ok (cxsub (rcx (2 * centre hf U)) v)) /\
  forall w, w <> 0 -> re (f (0, w)) = 0 /\ exists v, imp_Sigma g'' (0, w) = Ok v /\ re v = centre hf U.
Proof.
  intros WK. pose proof shaped_fit as SG'. pose proof SG' as (N' & EU' & LH' & LX' & AR').
  destruct (star_solved big half fl hf n (imp_H g') U Hn fit_star eigh eigsh tridiag eight s beta Hs H2 HC HW WK) as (ge & sc & egs & ES & PT).
  exists (set_gf g' (value_at ge)), (value_at ge). split; [unfold imp_solve, impurity_solver; rewrite EU', ES; reflexivity|]. split; [reflexivity|]. split; [reflexivity|]. split; [reflexivity|].
  split; [exact SG'|].
  assert (FI : forall z, imp_free_inv (set_gf g' (value_at ge)) z = cxsub (cxadd z (rcx (centre hf U))) (hyb (n - 1) (fun k => nth k (imp_x g') 0) (fun k => nth (n - 1 + k) (imp_x g') 0) z)).
  { intros z. unfold imp_free_inv. cbn [imp_H imp_x set_gf]. rewrite (delta1_hyb (n - 1) (imp_x g') LX'). replace (nth 0 (imp_H g') 0) with (ent n (imp_H g') 0 0) by reflexivity.
    rewrite (proj1 (proj2 (proj2 fit_star))). rewrite rcx_opp. ring. }
  assert (MX : mirror_symmetric (n - 1) (imp_x g')) by exact MF.
  split.
  - intros z Hz. destruct (PT z Hz) as (v & _ & V1 & V2 & V3 & _). rewrite V1, V2, V3. split; [reflexivity|]. split; [reflexivity|].
    eexists. unfold imp_Sigma. cbn [imp_gf set_gf]. split; [reflexivity|]. rewrite !FI, V1, V2, cxinv_opp, mirror_hyb by exact MX. f_equal.
    replace (2 * centre hf U) with (centre hf U + centre hf U) by ring. rewrite rcx_add. ring.
  - intros w Hw. destruct (PT (0, w) Hw) as (v & _ & V1 & _ & _ & V4). rewrite V1. specialize (V4 eq_refl). split; [exact V4|].
    eexists. split; [reflexivity|]. rewrite FI, V1. assert (RV : re (cxinv v) = 0) by (unfold cxinv, re in *; cbn [fst snd] in *; rewrite V4; unfold Rdiv; ring).
    pose proof (symmetric_hyb (n - 1) (imp_x g') w LX' MX) as RH. set (Y := hyb _ _ _ _) in *. destruct Y as [a b], (cxinv v) as [c d]. cbn in *. subst a c. ring.
Qed.
End One.

(** ** The local function *)
Lemma balanced_delta mu ed g l w : w <> 0 -> balanced n U mu ed hf (g, l) -> mu - ed = centre hf U -> exists d, loc_Delta g l (0, w) = Ok d /\ re d = 0.
Proof.
  clear - n U hf. intros Hw (_ & EM & EE & BL & sg & ES & SV) HM. destruct (SV w Hw) as (v & EV & RV). unfold loc_Delta, loc_Weiss, loc_call_inv, loc_call, loc_free_inv. rewrite EM, ES. cbn [attr bind].
  destruct (loc_kind l) as [hy|h]; cbn [bind]; rewrite EV; cbn [bind].
  - eexists. split; [reflexivity|]. specialize (BL w). destruct (hy (0, w)) as [a b], v as [c d]. cbn in *. lra.
  - eexists. split; [reflexivity|]. destruct BL as [E0 BL]. subst ed. assert (Q : cxsub (cxadd (0, w) (rcx mu)) v = (0, w - CBase.im v)) by (destruct v as [c d]; cbn in *; apply cx_eq; cbn; lra).
    rewrite Q. specialize (BL (w - CBase.im v)). assert (RI : forall y, re y = 0 -> re (cxinv y) = 0) by (intros y Hy; unfold cxinv, re in *; cbn [fst snd] in *; rewrite Hy; unfold Rdiv; ring).
    specialize (RI _ BL). destruct (cxinv _) as [a b], v as [c d]. cbn in *. lra.
Qed.
Lemma balanced_grid mu ed g l zs : frequencies zs -> balanced n U mu ed hf (g, l) -> mu - ed = centre hf U -> exists d, loc_Delta_grid g l zs = Ok d /\ length d = length zs /\ imaginary d.
Proof.
  clear - n U hf. intros FZ B HM. unfold loc_Delta_grid. induction zs as [|z zs IH]; [exists []; repeat split; intros d []|].
  destruct IH as (ds & E & L & I); [intros y Hy; apply FZ; right; exact Hy|]. destruct (FZ z (or_introl eq_refl)) as [RZ IZ]. destruct z as [a w]. cbn in RZ, IZ. subst a.
  destruct (balanced_delta mu ed g l w IZ B HM) as (d & ED & RD). exists (d :: ds). cbn [mapM]. rewrite ED. cbn [bind]. rewrite E. cbn [bind]. split; [reflexivity|]. split; [cbn; now rewrite L|].
  intros y [<-|Hy]; [exact RD|apply I; exact Hy].
Qed.
(** ** One step *)
Section Step.
Variables (mu ed : R) (zs : list cx).
Hypothesis HM : mu - ed = centre hf U.
Hypothesis FZ : frequencies zs.
Hypothesis KP : keeps_pairs n (length zs) fitter.
Theorem half_step g l delta : balanced n U mu ed hf (g, l) -> length delta = length zs -> imaginary delta -> wk (imp_H (imp_fit_update fitter g delta (mu - ed))) ->
  exists g' l' d, step fitter solver zs (g, l) delta = Ok ((g', l'), d) /\ balanced n U mu ed hf (g', l') /\ length d = length zs /\ imaginary d /\
    (exists f, imp_gf g' = Some f /\ forall z, CBase.im z <> 0 -> f (cxopp z) = cxopp (f z) /\ f (cxconj z) = cxconj (f z)) /\
    forall z, CBase.im z <> 0 -> exists v, imp_Sigma g' z = Ok v /\ imp_Sigma g' (cxopp z) = Ok (cxsub (rcx (2 * centre hf U)) v).
Proof.
  intros B LD ID WK. pose proof B as ((EN & EU & LH & LX & AR & MX) & EM & EE & BL & sg & ES & SV).
  destruct (KP (imp_x g) delta LX LD) as [LF MF]. specialize (MF MX ID).
  assert (SG : shaped n U g) by (repeat split; assumption).
  destruct (imp_half g delta (mu - ed) SG LF MF HM WK) as (g2 & f & E2 & EF & EX & EH & SH & FZ2 & FW).
  destruct SH as (EN2 & EU2 & LH2 & LX2 & AR2).
  assert (B2 : balanced n U mu ed hf (g2, loc_set_local l SImp)).
  { split; [split; [exact EN2|split; [exact EU2|split; [exact LH2|split; [exact LX2|split; [exact AR2|rewrite EX; exact MF]]]]]|].
    split; [exact EM|]. split; [exact EE|]. split; [exact BL|]. exists SImp. split; [reflexivity|]. intros w Hw. exact (proj2 (FW w Hw)). }
  destruct (balanced_grid mu ed g2 (loc_set_local l SImp) zs FZ B2 HM) as (d & ED & LDd & IDd).
  exists g2, (loc_set_local l SImp), d. split.
  { unfold step, dmft_step. cbn [fst snd]. rewrite EM. cbn [attr bind]. rewrite EE. cbn [attr bind]. fold (imp_fit_update fitter g delta (mu - ed)). rewrite E2. cbn [bind fst snd]. rewrite ED. reflexivity. }
  split; [exact B2|]. split; [exact LDd|]. split; [exact IDd|]. split.
  - exists f. split; [exact EF|]. intros z Hz. destruct (FZ2 z Hz) as (A1 & A2 & _). auto.
  - intros z Hz. exact (proj2 (proj2 (FZ2 z Hz))).
Qed.
(** ** The loop *)
Hypothesis HWK : forall g l delta, balanced n U mu ed hf (g, l) -> length delta = length zs -> imaginary delta -> wk (imp_H (imp_fit_update fitter g delta (mu - ed))).
Notation fits d := (length d = length zs /\ imaginary d).
Theorem half_loop dist tol max_iter mix fuel : (forall hist d, (forall a b, In (a, b) hist -> fits a /\ fits b) -> mix hist = Some d -> fits d) ->
  forall gl it hist gl' it' ev r, (forall a b, In (a, b) hist -> fits a /\ fits b) -> balanced n U mu ed hf gl ->
  drive _ _ (step fitter solver zs) dist tol max_iter mix fuel hist (gl, it) = ((gl', it'), ev, r) ->
  balanced n U mu ed hf gl' /\ (forall d, In d ev -> fits d) /\ (r = Ok tt \/ r = Err ConvergedExc \/ r = Err FailedToConvergeExc \/ r = Err OutOfFuel).
Proof.
  intros HX. induction fuel as [|fuel IH]; intros gl it hist gl' it' ev r HH B E; cbn [drive] in E.
  { destruct (mix hist); injection E as <- <- <- <-; (split; [exact B|split; [intros d []|auto]]). }
  destruct (mix hist) as [d|] eqn:EM; [|injection E as <- <- <- <-; split; [exact B|split; [intros d []|auto]]].
  destruct (HX hist d HH EM) as [LD ID]. destruct gl as [g l]. destruct (half_step g l d B LD ID (HWK g l d B LD ID)) as (g1 & l1 & d1 & E1 & B1 & L1 & I1 & _).
  unfold dmft_call in E. rewrite E1 in E. destruct (Rltb _ _).
  { injection E as <- <- <- <-. split; [exact B1|]. split; [intros y [<-|[]]; auto|auto]. }
  destruct (max_iter <? it + 1)%nat.
  { injection E as <- <- <- <-. split; [exact B1|]. split; [intros y [<-|[]]; auto|auto]. }
  destruct (drive _ _ _ _ _ _ _ _ _ _) as [[[gl2 it2] ev2] r2] eqn:E2. injection E as <- <- <- <-.
  apply IH in E2; [|intros a b [[= <- <-]|I]; [auto|apply HH; exact I]|exact B1]. destruct E2 as (B2 & V2 & R2). split; [exact B2|]. split; [|exact R2]. intros y [<-|I]; auto.
Qed.
End Step.
(** ** The start *)
Lemma reset_pairs m x : (2 <= m)%nat -> length x = (2 * m)%nat -> exists x', reset_x x = Ok x' /\ length x' = (2 * m)%nat /\ mirror_symmetric m x'.
Proof.
  clear. intros Hm L. unfold reset_x, get_initial_bath. rewrite map_length, L. replace (2 * m / 2)%nat with m by (symmetry; rewrite Nat.mul_comm; apply Nat.div_mul; lia).
  destruct (init_levels_ok m 2 (map Some x) ltac:(lia) ltac:(rewrite map_length; lia)) as (y & E & LY & V). rewrite map_length, L in *. rewrite E. cbn [bind]. rewrite unopt_Some. exists y. split; [reflexivity|]. split; [exact LY|].
  destruct (initial_bath_ok m 2 ltac:(lia)) as (p & x0 & G & W & L0 & CP & _ & SY & _). destruct (SY Hm) as (_ & _ & SY').
  destruct (init_levels_ok m 2 (repeat None (2 * m)) ltac:(lia) ltac:(rewrite repeat_length; lia)) as (y0 & E0 & LY0 & V0). rewrite repeat_length in *.
  assert (y0 = x0). { unfold get_initial_bath in G. rewrite E0 in G. injection G as <-. unfold written in W. apply map_Some_inj. congruence. } subst y0.
  assert (EQ : forall j, (j < 2 * m)%nat -> nth j y 0 = nth j x0 0) by (intros j Hj; rewrite V, V0 by exact Hj; reflexivity).
  intros k Hk. rewrite !EQ by lia. split; [now apply SY'|]. rewrite (proj1 (CP k Hk)), (proj1 (CP (m - 1 - k)%nat ltac:(lia))). reflexivity.
Qed.
Theorem half_start mu ed zs g l Sigma : (3 <= n)%nat -> mu - ed = centre hf U -> frequencies zs -> shaped n U g -> loc_ed l = Some ed -> balanced_lattice (loc_kind l) ed ->
  (forall w, w <> 0 -> re (Sigma (0, w)) = centre hf U) ->
  exists g' l' d, initialize zs g l U (SFun Sigma) (Some mu) = Ok (g', l', d) /\ balanced n U mu ed hf (g', l') /\ length d = length zs /\ imaginary d.
Proof.
  clear - Hn. intros H3 HM FZ (EN & EU & LH & LX & AR) EE BL SV.
  destruct (reset_pairs (n - 1) (imp_x g) ltac:(lia) LX) as (x' & EX & LX' & MX).
  set (l' := loc_update (loc_set_local l (SFun Sigma)) mu). set (g1 := imp_update g (mu - ed)).
  assert (B : balanced n U mu ed hf (set_x g1 x', l')).
  { split; [split; [exact EN|split; [exact EU|split; [|split; [exact LX'|split; [|exact MX]]]]]|].
    - unfold g1, imp_update. cbn [imp_H set_x set_H]. now rewrite upd_tot_length.
    - intros i j Hi Hj NE. unfold g1, imp_update. cbn [imp_H set_x set_H]. rewrite update_ent by (auto; lia). destruct (Nat.eqb_spec i 0); [lia|]. cbn [andb]. now apply AR.
    - split; [reflexivity|]. split; [exact EE|]. split; [exact BL|]. exists (SFun Sigma). split; [reflexivity|]. intros w Hw. exists (Sigma (0, w)). split; [reflexivity|now apply SV]. }
  destruct (balanced_grid mu ed _ _ zs FZ B HM) as (d & ED & LD & ID).
  exists (set_x g1 x'), l', d. split; [|split; [exact B|split; [exact LD|exact ID]]].
  unfold initialize. cbn [loc_ed loc_update loc_set_local]. fold l'. rewrite EE. cbn [attr bind]. fold g1. unfold imp_reset_bath. change (imp_x g1) with (imp_x g). rewrite EX. cbn [bind]. rewrite ED. reflexivity.
Qed.
End Loop.
Lemma shaped_init n U mem g : (2 <= n)%nat -> length mem = (2 * (n - 1))%nat -> imp_init n U mem = Ok g -> shaped n U g.
Proof.
  intros Hn L E. destruct (wf_init (fun x _ => x) (fun _ _ => Err ValueError) (fun _ _ => eq_refl) n U mem g ltac:(lia) L E) as (A & B & C & D).
  split; [exact A|]. split; [|split; [exact B|split; [exact C|exact D]]]. unfold imp_init in E. destruct (reset_x mem); [|discriminate]. cbn [bind] in E. injection E as <-. reflexivity.
Qed.

(** ** Lattices and fits *)
Lemma hybrid_balanced m x ed : length x = (2 * m)%nat -> mirror_symmetric m x -> balanced_lattice (LHybrid (delta1 x)) ed.
Proof. intros L M w. rewrite (delta1_hyb m x L). now apply symmetric_hyb. Qed.
Lemma bethe_balanced csqrt : (forall w, cxmul (csqrt w) (csqrt w) = w) -> (forall w, 0 <= re (csqrt w)) -> balanced_lattice (LHilbert (ht csqrt)) 0.
Proof.
  intros SQ PR. split; [reflexivity|]. intros w. unfold ht, _ht. set (b := if Rltb 0 _ then _ else _). cbn [re fst].
  pose proof (SQ (cxsub (rcx 1) (cxmul (0, b) (0, b)))) as Q. pose proof (PR (cxsub (rcx 1) (cxmul (0, b) (0, b)))) as P. set (r := csqrt _) in *. destruct r as [x y]. cbn in *.
  assert (Q1 : x * x - y * y = 1 + b * b) by (apply (f_equal fst) in Q; cbn in Q; lra). assert (Q2 : x * y = 0) by (apply (f_equal snd) in Q; cbn in Q; lra).
  assert (Y : y = 0) by nra. rewrite Y. ring.
Qed.
Lemma imag_reflect d : imaginary d -> map (reflect (-1)) d = d.
Proof. intros I. rewrite <- (map_id d) at 2. apply map_ext_in. intros y Hy. specialize (I y Hy). destruct y as [a b]. cbn in I. subst a. apply cx_eq; cbn; ring. Qed.
Lemma commuting_keeps n nm fitter : (forall x d, length x = (2 * (n - 1))%nat -> length d = nm -> length (fitter x d) = (2 * (n - 1))%nat) ->
  (forall x d, length x = (2 * (n - 1))%nat -> length d = nm ->
    fitter (relabel (n - 1) (-1) (fun k => n - 1 - 1 - k)%nat (fun _ => 1) x) (map (reflect (-1)) d) = relabel (n - 1) (-1) (fun k => n - 1 - 1 - k)%nat (fun _ => 1) (fitter x d)) ->
  keeps_pairs n nm fitter.
Proof.
  intros HL HE x d LX LD. split; [auto|]. intros MX ID. apply mirror_fixed; [auto|]. rewrite <- HE by assumption. rewrite (imag_reflect d ID). apply (mirror_fixed (n - 1) x LX) in MX. now rewrite MX.
Qed.
Lemma c_fit_keeps fuel d0 n nm beta mem : length mem = nm -> (forall row, In row mem -> length row = (2 * (n - 1))%nat) ->
  keeps_pairs n nm (fun x d => match c_fit fuel d0 (n - 1) nm d beta mem x with Ok (x', _, _) => x' | Err _ => x end).
Proof.
  intros LM ROW x d LX LD. destruct (c_fit _ _ _ _ _ _ _ _) as [[[x' it] v]|e] eqn:E; [|auto]. split.
  - exact (proj1 (c_fit_descends fuel d0 (n - 1) nm d beta mem x x' it v LX LD E)).
  - intros MX ID. exact (proj2 (SymProofs.fit_symmetric fuel d0 (n - 1) nm d beta mem x x' it v LD LM ROW LX ID MX E)).
Qed.
Lemma blend_keeps a k old new : length old = k -> length new = k -> imaginary old -> imaginary new -> length (blend a old new) = k /\ imaginary (blend a old new).
Proof.
  intros L1 L2 I1 I2. split; [unfold blend; rewrite map_length, combine_length; lia|]. intros d Hd. unfold blend in Hd. apply in_map_iff in Hd. destruct Hd as ([o w] & <- & I).
  specialize (I1 o (in_combine_l _ _ _ _ I)). specialize (I2 w (in_combine_r _ _ _ _ I)). destruct o as [p q], w as [t u]. cbn in *. subst. ring.
Qed.
Lemma matsubara_points nm beta : 0 < beta -> frequencies (matsubara nm beta).
Proof.
  intros HB z Hz. unfold matsubara in Hz. apply in_map_iff in Hz. destruct Hz as (i & <- & _). cbn. split; [ring|]. pose proof PI_RGT_0. pose proof (pos_INR i).
  assert (0 < (2 * INR i + 1) * PI / beta) by (unfold Rdiv; apply Rmult_lt_0_compat; [nra|now apply Rinv_0_lt_compat]). lra.
Qed.
(** One level: not symmetric from the start. *)
Lemma one_level U mem g w : length mem = 2%nat -> imp_init 2 U mem = Ok g -> re (delta1 (imp_x g) (0, w)) < 0.
Proof.
  intros L E. unfold imp_init, reset_x, get_initial_bath in E. rewrite map_length, L in E. change (2 / 2)%nat with 1%nat in E.
  destruct (init_levels_ok 1 2 (map Some mem) ltac:(lia) ltac:(rewrite map_length; lia)) as (y & E0 & LY & V). rewrite E0 in E. cbn [bind] in E. injection E as <-. cbn [imp_x]. rewrite unopt_Some. rewrite map_length, L in *.
  rewrite (delta1_hyb 1 y LY). unfold hyb. rewrite csum_re. unfold rsum, nsum. cbn [seq fold_left map fold_right]. 
  pose proof (V 0%nat ltac:(lia)) as V0. pose proof (V 1%nat ltac:(lia)) as V1. cbn [Nat.ltb Nat.leb] in V0, V1. change (blevel 1 2 0) with 2 in V0.
  assert (C : 0 < coup 1) by (unfold coup; pose proof (Rmax_l (1 / 10) (1 / sqrt (INR 1))); lra).
  cbn [Nat.add]. unfold bsum. cbn [map fold_right fold_left]. rewrite V0, V1. set (c := coup 1) in *. unfold cxdiv, cxinv, cxmul, cxsub, cxadd, cxopp, rcx, cxn2, re, CBase.im. cbn.
  assert (0 < c * c) by nra. assert (0 < / ((0 + - (2)) * (0 + - (2)) + (w + - 0) * (w + - 0))) by (apply Rinv_0_lt_compat; nra).
  unfold Rdiv. nra.
Qed.
Lemma half_default n U zs g l Sigma : (2 <= n <= 32)%nat -> (3 <= n)%nat -> frequencies zs -> shaped n U g -> loc_ed l = Some 0 -> balanced_lattice (loc_kind l) 0 ->
  (forall w, w <> 0 -> re (Sigma (0, w)) = U / 2) ->
  exists g' l' d, initialize zs g l U (SFun Sigma) None = Ok (g', l', d) /\ balanced n U (U / 2) 0 false (g', l') /\ length d = length zs /\ imaginary d.
Proof.
  intros Hn H3 FZ SG EE BL HS. change (initialize zs g l U (SFun Sigma) None) with (initialize zs g l U (SFun Sigma) (Some (U / 2))).
  apply (half_start false n U Hn (U / 2) 0 zs g l Sigma); auto. unfold centre. lra.
Qed.
