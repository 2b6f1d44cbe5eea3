(** The impurity object: fit, update, solve, self-energy. *)
From Coq Require Import String Reals List Arith NArith ZArith Bool Lia Lra Psatz Ring Field.
From Verif Require Import Base RBase RLin CBase SectorModel LocalModel HoppingModel NonLocalModel MatvecModel MbModel MbSpec EspaceModel
  ProjModel ProjSpec CfModel CfSpec GfModel GfSpec ExactSpec GflModel GflSpec AgrModel AgrInstProofs VisSpec FitModel FitSpec DmftModel DmftSpec DmftProofs SiamSpec SiamModel SiamInstProofs.
Import ListNotations.
Local Open Scope R_scope.
Add Field cxf_siamimp : cx_field.

Lemma value_ok g z v : gl_call g (rcx (re z)) (im z) = Ok v -> value_at g z = v.
Proof. intros E. unfold value_at. now rewrite E. Qed.

Section Imp.
Variables (big : R -> bool) (half : R).
Variable eigh : dense RRing -> res (list R * list (list R)).
Variable eigsh : nat -> Z -> (list R -> res (list R)) -> res (list R * list (list R)).
Variable tridiag : (list R -> res (list R)) -> list R -> res (list R * list R).
Variable eight : list R -> list R -> res (list R * list (list R)).
Variables (fl : hflags) (hf : bool) (n s : nat) (beta : R) (fitter : list R -> list cx -> list R).
Hypothesis Hn : (2 <= n <= 32)%nat.
Hypothesis Hs : (s <= 1)%nat.
Hypothesis Hh2 : half + half = 1.
Hypothesis HC : eigh_contract eigh.
Hypothesis HW : GflSpec.eigh_sound eight.
Hypothesis HF : forall p d, length (fitter p d) = length p.
Notation solver := (impurity_solver big half eigh eigsh tridiag eight fl hf n beta (Z.of_nat s) None false).
Variables (U0 : R) (mem : list R) (g0 g : gfimp) (ops : list imp_op) (delta : list cx) (mu : R).
Hypothesis HL : length mem = (2 * (n - 1))%nat.
Hypothesis HI : imp_init n U0 mem = Ok g0.
Hypothesis HO : foldM (imp_do fitter solver) ops g0 = Ok g.
Notation g' := (imp_fit_update fitter g delta mu).
Notation H := (imp_H g').
Notation U := (imp_U g').
Hypothesis Hfl : settable RRing (array_of n H) fl = true.
Hypothesis HBG : forall k, (k < n - 1)%nat -> nth (n - 1 + k) (imp_x g') 0 = 0 \/ big (nth (n - 1 + k) (imp_x g') 0) = true.
Hypothesis HK : forall es, sectors n es -> krylov n (product_of big half n (array_of n H) fl (VArray RRing (on_site U)) hf 0 None) tridiag (Z.of_nat s) es (fun op p' q' t i a => exc n op (Z.of_nat s) 0 p' q' t i a) 11.
Notation w := (if hf then half * U else 0).

Theorem imp_solved : exists g'' f vis fin egs, imp_solve solver g' = Ok g'' /\ imp_gf g'' = Some f /\
  sectors n vis /\ eigenstates n (Msec big half n (array_of n H) (VArray RRing (on_site U)) hf 0 None (on_site U)) vis /\ 0 < Zof beta egs vis <= Zof beta egs fin /\
  let r := Zof beta egs fin / Zof beta egs vis in
  (forall z, im z <> 0 -> exists S, imp_Sigma g'' z = Ok S /\ f z <> rcx 0 /\ imp_call g'' z = Ok (f z) /\ (0 < im z -> im (f z) <= 0 /\ im S <= 0) /\
    (U = 0 -> S = cxmul (rcx (1 - r)) (imp_free_inv g'' z))) /\
  exists C B, 0 < B /\ forall z, B <= im z * im z -> exists S, imp_Sigma g'' z = Ok S /\
    cxn2 (cxsub S (cxadd (cxmul (rcx (1 - r)) (imp_free_inv g'' z)) (rcx (r * (U * occupation n beta egs vis (other n s 0) / Zof beta egs vis - w))))) <= C / (im z * im z).
Proof.
  destruct (impurity_hamiltonian fitter solver HF n U0 mem g0 g ops delta mu ltac:(lia) HL HI HO) as (LH & SY & AR & E00 & EX & FI).
  assert (BG : forall k, (0 < k < n)%nat -> ent n H 0 k = 0 \/ big (ent n H 0 k) = true).
  { intros k Hk. destruct k as [|k]; [lia|]. rewrite (proj1 (EX k ltac:(lia))). apply HBG. lia. }
  destruct (code_solved big half eigh eigsh tridiag eight fl hf n s beta H U ltac:(lia) Hs Hh2 Hfl SY AR BG HC HW HK) as (ge & vis & fin & egs & ES & VS & VE & VZ & PT & C & B & HB & HH).
  exists (set_gf g' (value_at ge)), (value_at ge), vis, fin, egs. split; [|split; [reflexivity|split; [exact VS|split; [exact VE|split; [exact VZ|]]]]].
  { unfold imp_solve, impurity_solver. rewrite ES. reflexivity. }
  cbv zeta. change (imp_H (set_gf g' (value_at ge))) with H. set (Z' := Zof beta egs fin) in *. set (N := Zof beta egs vis) in *.
  assert (FREE : forall z, im z <> 0 -> imp_free_inv (set_gf g' (value_at ge)) z = cxsub (bare_inverse n (ent n H 0 0 - w) (fun k => ent n H k k) (fun k => ent n H 0 k) z) (rcx w)).
  { intros z Hz. change (imp_free_inv (set_gf g' (value_at ge)) z) with (imp_free_inv g' z). destruct (FI z) as [-> _].
    - intros k _ Q. apply Hz. rewrite Q. reflexivity.
    - unfold bare_inverse. assert (HY : hybridisation n (fun k => ent n H k k) (fun k => ent n H 0 k) z = hyb (n - 1) (fun k => nth k (imp_x g') 0) (fun k => nth (n - 1 + k) (imp_x g') 0) z).
      { unfold hybridisation, hyb. apply csum_ext. intros k Hk. destruct (EX k Hk) as (-> & _ & ->). reflexivity. }
      rewrite HY, E00. destruct z as [a b]. set (Y := hyb _ _ _ _). destruct Y as [c d]. unfold rcx, cxsub, cxadd, re, im. cbn. f_equal; ring. }
  assert (SIG : forall z v, im z <> 0 -> gl_call ge (rcx (re z)) (im z) = Ok v -> imp_Sigma (set_gf g' (value_at ge)) z = Ok (cxsub (self_energy n (ent n H 0 0 - w) (fun k => ent n H k k) (fun k => ent n H 0 k) z v) (rcx w))).
  { intros z v Hz E. unfold imp_Sigma. cbn [imp_gf set_gf]. rewrite (FREE z Hz), (value_ok ge z v E). unfold self_energy. f_equal. ring. }
  split.
  - intros z Hz. destruct (PT z Hz) as (v & EV & V0 & CA & FR). eexists. split; [exact (SIG z v Hz EV)|]. rewrite (value_ok ge z v EV). split; [exact V0|]. split; [|split].
    + unfold imp_call. rewrite (SIG z v Hz EV). cbn [bind]. f_equal. fold (imp_free_inv (set_gf g' (value_at ge)) z). rewrite (FREE z Hz). unfold self_energy.
      transitivity (cxinv (cxinv v)); [f_equal; ring|field; split; [exact V0|intros Q; injection Q; exact R1_neq_R0]].
    + intros Hp. destruct (CA Hp) as [I1 I2]. split; [exact I1|]. enough (Q : forall x, im (cxsub x (rcx w)) = im x) by (rewrite Q; exact I2). intros [a b]. cbn. ring.
    + intros Q. rewrite (FR Q), (FREE z Hz). assert (W : rcx w = rcx 0) by (rewrite Q; destruct hf; f_equal; ring). rewrite W. ring.
  - exists C, B. split; [exact HB|]. intros z Hz. destruct (HH z Hz) as (v & EV & BD). assert (Hz0 : im z <> 0) by (intros Q; rewrite Q in Hz; lra).
    eexists. split; [exact (SIG z v Hz0 EV)|]. rewrite (FREE z Hz0).
    set (SE := self_energy _ _ _ _ _ _) in *. set (D := bare_inverse _ _ _ _ _) in *. set (A := U * occupation n beta egs vis (other n s 0) / N) in *.
    assert (Q : cxsub (cxsub SE (rcx w)) (cxadd (cxmul (rcx (1 - Z' / N)) (cxsub D (rcx w))) (rcx (Z' / N * (A - w)))) = cxsub SE (cxadd (cxmul (rcx (1 - Z' / N)) D) (rcx (Z' / N * A)))).
    { clearbody SE D A. destruct SE as [a b], D as [c d]. unfold rcx, cxsub, cxadd, cxmul, re, im. cbn. f_equal; ring. }
    rewrite Q. exact BD.
Qed.
End Imp.
