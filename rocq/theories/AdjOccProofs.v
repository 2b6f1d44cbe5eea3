(** Proofs for the occupation of the impurity. *)
From Coq Require Import Reals List Arith ZArith Bool Lia Lra Psatz.
From Verif Require Import Base RBase RLin CBase EspaceModel FitModel DmftModel DmftProofs FermiModel FermiSpec FermiMoreProofs FermiFinalProofs AdjModel AdjSpec.
Import ListNotations.
Local Open Scope R_scope.

Lemma poles_nonzero m w e gf z : pole_function m w e gf -> (forall i, (i < m)%nat -> 0 <= w i) -> 0 < rsum m w -> im z <> 0 -> gf z <> rcx 0.
Proof.
  intros P W S I E. rewrite (P z I) in E. apply (f_equal im) in E. rewrite csum_im in E. cbn [rcx im snd] in E.
  assert (D : forall i, 0 < (re z - e i) * (re z - e i) + im z * im z) by (intros i; pose proof (Rle_0_sqr (re z - e i)); pose proof (Rsqr_pos_lt (im z) I); unfold Rsqr in *; lra).
  assert (T : forall i, im (cxdiv (rcx (w i)) (cxsub z (rcx (e i)))) = - im z * (w i / ((re z - e i) * (re z - e i) + im z * im z))).
  { intros i. specialize (D i). destruct z as [x y]. cbv [cxdiv cxmul cxinv cxsub cxadd cxopp cxn2 rcx re im fst snd] in *. field. lra. }
  rewrite (rsum_ext _ _ _ (fun i _ => T i)), rsum_scal_l in E.
  assert (Z : rsum m (fun i => w i / ((re z - e i) * (re z - e i) + im z * im z)) = 0) by (destruct (Rmult_integral _ _ E); [lra|assumption]).
  assert (A : forall i, (i < m)%nat -> w i = 0).
  { intros i Hi. assert (N : forall k, (k < m)%nat -> 0 <= w k / ((re z - e k) * (re z - e k) + im z * im z)).
    { intros k Hk. apply Rmult_le_pos; [now apply W|]. apply Rlt_le, Rinv_0_lt_compat, D. }
    pose proof (rsum_nonneg_0 _ _ N Z i Hi) as Q. cbn beta in Q. unfold Rdiv in Q. destruct (Rmult_integral _ _ Q) as [Q'|Q']; [exact Q'|]. exfalso. pose proof (Rinv_0_lt_compat _ (D i)). lra. }
  rewrite (rsum_0 _ _ A) in S. lra.
Qed.

(** The solved impurity as a function. *)
Lemma imp_poles g gf m w e : imp_gf g = Some gf -> pole_function m w e gf -> (forall i, (i < m)%nat -> 0 <= w i) -> 0 < rsum m w ->
  exists f, imp_fun g = Ok f /\ pole_function m w e f.
Proof.
  intros G P W S. unfold imp_fun. rewrite G. cbn [attr bind]. eexists. split; [reflexivity|]. intros z I. cbn beta.
  rewrite (imp_call_gf g gf z G (poles_nonzero m w e gf z P W S I)). now apply P.
Qed.

Section Occ.
Variable geigh : nat -> (nat -> nat -> R) -> (nat -> nat -> R) -> res (list R * list (list R)).
Hypothesis GC : geigh_contract geigh.
Variable kB : R.
Hypothesis KB : 0 < kB.

Lemma imp_closed g gf m w e mu : imp_gf g = Some gf -> pole_function m w e gf -> (forall i, (i < m)%nat -> 0 <= w i) -> 0 < rsum m w ->
  imp_spin_integrate geigh kB g mu =
    Ok (rsum m (fun i => w i * ((radius * radius / (radius * radius + e i * e i) - tanh_cf 200 ((e i - mu) / (2 * (kB * 300)))) / 2))).
Proof.
  intros G P W S. destruct (imp_poles g gf m w e G P W S) as (f & F & PF). unfold imp_spin_integrate. rewrite F. cbn [bind].
  exact (integrate_exact m w e f PF geigh 100 kB mu 300 radius GC ltac:(lia) ltac:(lra)).
Qed.
Lemma imp_accuracy g gf m w e mu : imp_gf g = Some gf -> pole_function m w e gf -> (forall i, (i < m)%nat -> 0 <= w i) -> 0 < rsum m w ->
  exists x, imp_integrate geigh kB g mu = Ok x /\
    Rabs (x - 2 * rsum m (fun i => w i * fermi ((e i - mu) / (kB * 300)))) <=
      2 * rsum m (fun i => w i * ((e i * e i / (radius * radius + e i * e i)
        + Rabs ((e i - mu) / (2 * (kB * 300))) * odd_product 200 ((e i - mu) / (2 * (kB * 300)))) / 2)).
Proof.
  intros G P W S. destruct (imp_poles g gf m w e G P W S) as (f & F & PF). unfold imp_integrate, imp_spin_integrate. rewrite F. cbn [bind].
  destruct (integrate_accuracy geigh kB f mu 300 100 radius m w e GC ltac:(lia) ltac:(lra) PF) as (x & -> & A). cbn [bind]. exists (2 * x). split; [reflexivity|].
  replace (2 * x - 2 * rsum m (fun i => w i * fermi ((e i - mu) / (kB * 300)))) with (2 * (x - rsum m (fun i => w i * fermi ((e i - mu) / (kB * 300))))) by ring.
  rewrite Rabs_mult, (Rabs_right 2) by lra. apply Rmult_le_compat_l; [lra|]. eapply Rle_trans; [exact A|].
  apply Req_le, rsum_ext. intros i Hi. rewrite (Rabs_right (w i)) by (apply Rle_ge, W, Hi). reflexivity.
Qed.
(** One level above the potential: at least the occupation at 300 K. *)
Lemma imp_warm g gf e mu : imp_gf g = Some gf -> pole_function 1 (fun _ => 1) (fun _ => e) gf -> mu <= e ->
  exists x, imp_integrate geigh kB g mu = Ok x /\ 2 * fermi ((e - mu) / (kB * 300)) - e * e / (radius * radius + e * e) <= x.
Proof.
  intros G P L. assert (W : forall i, (i < 1)%nat -> 0 <= (fun _ : nat => 1) i) by (intros; cbn; lra).
  assert (S : 0 < rsum 1 (fun _ => 1)) by (rewrite rsum_const; cbn; lra).
  destruct (imp_poles g gf 1 _ _ G P W S) as (f & F & PF). unfold imp_integrate, imp_spin_integrate. rewrite F. cbn [bind].
  destruct (integrate_biased geigh kB f mu 300 100 radius e GC ltac:(lia) ltac:(lra) PF) as (x & -> & A & _). cbn [bind]. exists (2 * x). split; [reflexivity|].
  specialize (A L). lra.
Qed.
Lemma spin_sum g g' mu gf gf' : imp_gf g = Some gf -> imp_gf g' = Some gf' ->
  spin_integrate geigh kB (g, g') (Some mu) = (do u <- imp_spin_integrate geigh kB g mu; do d <- imp_spin_integrate geigh kB g' mu; Ok (u + d)) /\
  (imp_spin_integrate geigh kB g mu = imp_spin_integrate geigh kB g' mu -> spin_integrate geigh kB (g, g') (Some mu) = imp_integrate geigh kB g mu).
Proof.
  intros G G'. unfold spin_integrate, imp_integrate. cbn [fst snd]. split.
  - destruct (imp_spin_integrate geigh kB g mu); cbn [bind]; [|reflexivity]. destruct (imp_spin_integrate geigh kB g' mu); cbn [bind]; [|reflexivity]. f_equal. ring.
  - intros <-. destruct (imp_spin_integrate geigh kB g mu) as [u|]; cbn [bind]; [|reflexivity]. f_equal. ring.
Qed.
End Occ.
Lemma warm_level geigh : geigh_contract geigh -> forall kB, 0 < kB -> kB * 300 <= 1 -> forall g gf, imp_gf g = Some gf -> pole_function 1 (fun _ => 1) (fun _ => kB * 300) gf ->
  exists x, imp_integrate geigh kB g 0 = Ok x /\ forall beta, 2 / (kB * 300) <= beta -> 2 * fermi (beta * (kB * 300)) <= 2 / 5 < x.
Proof.
  intros GC kB K K1 g gf G P. destruct (imp_warm geigh GC kB K g gf (kB * 300) 0 G P ltac:(lra)) as (x & E & L). exists x. split; [exact E|]. intros beta B.
  replace ((kB * 300 - 0) / (kB * 300)) with 1 in L by (field; lra).
  assert (E3 : exp 1 <= 3) by apply exp_le_3. assert (E2 : 2 <= exp 1) by (pose proof (exp_ineq1 1 ltac:(lra)); lra).
  assert (F1 : 1 / 4 <= fermi 1) by (unfold fermi; pose proof (exp_pos 1); apply Rmult_le_compat_l; [lra|]; apply Rinv_le_contravar; lra).
  assert (T : 0 < kB * 300) by lra. split.
  - assert (B2 : 2 <= beta * (kB * 300)) by (apply (Rmult_le_compat_r (kB * 300)) in B; [|lra]; unfold Rdiv in B; rewrite Rmult_assoc, Rinv_l in B by lra; lra).
    assert (X : 4 <= exp (beta * (kB * 300))).
    { apply Rle_trans with (exp (1 + 1)); [rewrite exp_plus; nra|]. destruct (Req_EM_T (1 + 1) (beta * (kB * 300))) as [<-|N]; [lra|]. left. apply exp_increasing. lra. }
    assert (fermi (beta * (kB * 300)) <= 1 / 5); [|lra]. unfold fermi. apply Rmult_le_compat_l; [lra|]. apply Rinv_le_contravar; lra.
  - assert (Q : kB * 300 * (kB * 300) / (radius * radius + kB * 300 * (kB * 300)) <= 1 / 100).
    { apply (Rmult_le_reg_r (radius * radius + kB * 300 * (kB * 300))); [unfold radius; nra|]. unfold Rdiv at 1. rewrite Rmult_assoc, Rinv_l by (unfold radius; nra). unfold radius. nra. }
    lra.
Qed.
