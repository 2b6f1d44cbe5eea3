(** The two-term integral when its poles approach each other. *)
From Coq Require Import Reals List Bool Lia Lra Psatz.
From Verif Require Import Base RBase CBase IntModel IntSpec DmftProofs IntProofs.
Import ListNotations.
Local Open Scope R_scope.

Section Lim.
Variable psi : nat -> cx -> cx.
Hypothesis HP : polygamma_line psi.
Variables (mu : R * R) (beta : R).
Notation f := (fun t => re (psi 0%nat (1 / 2, t))).
Notation g := (fun t => im (psi 1%nat (1 / 2, t))).
Notation k := (beta / (2 * PI)).

Lemma affine_lim a m e : derivable_pt_lim (fun e => a * (e - m)) e a.
Proof.
  assert (H : derivable_pt_lim (fun e => e - m) e (1 - 0)).
  { apply derivable_pt_lim_minus with (f1 := fun e => e) (f2 := fun _ => m); [apply derivable_pt_lim_id|apply derivable_pt_lim_const]. }
  apply (derivable_pt_lim_scal _ a) in H. replace (a * (1 - 0)) with a in H by ring. exact H.
Qed.
Lemma branch_lim m e : derivable_pt_lim (fun e => f (scaled beta (e - m))) e (k * g (scaled beta (m - e))).
Proof.
  destruct HP as (H1 & _ & H3).
  replace (k * g (scaled beta (m - e))) with (- g (scaled beta (e - m)) * k).
  2: { replace (scaled beta (m - e)) with (- scaled beta (e - m)) by (unfold scaled; ring). cbn beta. rewrite H3. ring. }
  apply (derivable_pt_lim_comp (fun e => scaled beta (e - m)) f); [apply affine_lim|apply H1].
Qed.
Lemma mixed_lim e : derivable_pt_lim (mixed psi mu beta) e (k * g (scaled beta (snd mu - e)) - k * g (scaled beta (fst mu - e))).
Proof. apply (derivable_pt_lim_minus (fun e => f (scaled beta (e - snd mu))) (fun e => f (scaled beta (e - fst mu)))); apply branch_lim. Qed.
Lemma direct_mixed e : occupation mu beta * (k * g (scaled beta (snd mu - e)) - k * g (scaled beta (fst mu - e))) = direct psi mu beta e.
Proof. unfold direct. cbn beta. ring. Qed.
Lemma direct_continuous e : continuity_pt (direct psi mu beta) e.
Proof.
  destruct HP as (_ & H2 & _).
  assert (C : forall m, continuity_pt (fun e => g (scaled beta (m - e))) e).
  { intros m. apply (continuity_pt_comp (fun e => scaled beta (m - e)) g); [|apply H2].
    apply derivable_continuous_pt. exists (k * (0 - 1)).
    apply (derivable_pt_lim_scal (fun e => m - e)). apply derivable_pt_lim_minus with (f1 := fun _ => m) (f2 := fun e => e); [apply derivable_pt_lim_const|apply derivable_pt_lim_id]. }
  apply (continuity_pt_scal (fun e => g (scaled beta (snd mu - e)) - g (scaled beta (fst mu - e))) (k * occupation mu beta)).
  apply continuity_pt_minus with (f1 := fun e => g (scaled beta (snd mu - e))) (f2 := fun e => g (scaled beta (fst mu - e))); apply C.
Qed.

Theorem Gamma2_coincide A B e eps : tiny15 <= Rabs (bias mu beta) -> 0 < eps ->
  exists delta, 0 < delta /\ forall e', e' <> e -> Rabs (e' - e) < delta ->
  exists v, Gamma2 psi A B e e' mu beta = Ok v /\ Rabs (v - (A ^ 2 + A * B + B ^ 2) * direct psi mu beta e) < eps.
Proof.
  intros Hx He. set (K1 := B ^ 2 + 1). set (K2 := Rabs (A * B * occupation mu beta) + 1).
  assert (P1 : 0 < K1) by (unfold K1; nra). assert (P2 : 0 < K2) by (unfold K2; pose proof (Rabs_pos (A * B * occupation mu beta)); lra).
  assert (E1 : 0 < eps / (2 * K1)) by (apply Rdiv_lt_0_compat; lra). assert (E2 : 0 < eps / (2 * K2)) by (apply Rdiv_lt_0_compat; lra).
  destruct (direct_continuous e (eps / (2 * K1)) E1) as (d1 & D1 & C1). destruct (mixed_lim e (eps / (2 * K2)) E2) as (d2 & C2).
  exists (Rmin d1 d2). split; [apply Rmin_pos; [exact D1|apply cond_pos]|]. intros e' Hne Hd.
  pose proof (Rmin_l d1 d2). pose proof (Rmin_r d1 d2). eexists. split; [apply Gamma2_sum; auto|].
  cbn [directs pairs with_each fst snd]. specialize (C1 e'). simpl in C1. unfold R_dist in C1.
  assert (Q1 : Rabs (direct psi mu beta e' - direct psi mu beta e) < eps / (2 * K1)).
  { apply C1. split; [split; [exact I|auto]|]. simpl. unfold R_dist. lra. }
  specialize (C2 (e' - e)). replace (e + (e' - e)) with e' in C2 by ring.
  assert (Q2 := C2 ltac:(lra) ltac:(lra)). set (m' := k * g (scaled beta (snd mu - e)) - k * g (scaled beta (fst mu - e))) in *.
  pose proof (direct_mixed e) as DM. fold m' in DM.
  assert (EQ : A ^ 2 * direct psi mu beta e + (B ^ 2 * direct psi mu beta e' + 0) + (A * B * interference psi mu beta e e' + 0 + (0 + 0)) - (A ^ 2 + A * B + B ^ 2) * direct psi mu beta e =
    B ^ 2 * (direct psi mu beta e' - direct psi mu beta e) + A * B * occupation mu beta * ((mixed psi mu beta e' - mixed psi mu beta e) / (e' - e) - m')).
  { rewrite <- DM. unfold interference.
    replace ((mixed psi mu beta e - mixed psi mu beta e') / (e - e')) with ((mixed psi mu beta e' - mixed psi mu beta e) / (e' - e)) by (field; lra). ring. }
  rewrite EQ. eapply Rle_lt_trans; [apply Rabs_triang|]. rewrite (Rabs_mult (B ^ 2)), (Rabs_mult (A * B * occupation mu beta)).
  assert (AB : Rabs (B ^ 2) = K1 - 1) by (rewrite Rabs_right by (apply Rle_ge, pow2_ge_0); unfold K1; ring).
  assert (AC : Rabs (A * B * occupation mu beta) = K2 - 1) by (unfold K2; ring).
  rewrite AB, AC. assert (N1 : 0 <= K1 - 1) by (rewrite <- AB; apply Rabs_pos). assert (N2 : 0 <= K2 - 1) by (rewrite <- AC; apply Rabs_pos).
  replace eps with (K1 * (eps / (2 * K1)) + K2 * (eps / (2 * K2))) by (field; lra).
  revert Q1 Q2 E1 E2 N1 N2. generalize (Rabs (direct psi mu beta e' - direct psi mu beta e)) (Rabs ((mixed psi mu beta e' - mixed psi mu beta e) / (e' - e) - m')) (eps / (2 * K1)) (eps / (2 * K2)).
  clear. intros a b c d Q1 Q2 E1 E2 N1 N2.
  assert ((K1 - 1) * a <= (K1 - 1) * c) by (apply Rmult_le_compat_l; lra). assert ((K2 - 1) * b <= (K2 - 1) * d) by (apply Rmult_le_compat_l; lra). nra.
Qed.
End Lim.

(** A pair of functions with these properties: z^2 and 2 z. *)
Definition ex_psi (n : nat) (z : cx) : cx := match n with O => cxmul z z | _ => cxadd z z end.
Lemma ex_psi_line : polygamma_line ex_psi.
Proof.
  split; [|split].
  - intros t. unfold ex_psi, cxmul, cxadd, re, im. cbn [fst snd].
    replace (- (t + t)) with (0 - (1 * t + t * 1)) by ring.
    apply derivable_pt_lim_minus with (f1 := fun _ => 1 / 2 * (1 / 2)) (f2 := fun t => t * t); [apply derivable_pt_lim_const|].
    apply (derivable_pt_lim_mult (fun t => t) (fun t => t)); apply derivable_pt_lim_id.
  - intros t. apply derivable_continuous_pt. exists (1 + 1). unfold ex_psi, cxadd, im. cbn [fst snd].
    apply (derivable_pt_lim_plus (fun t => t) (fun t => t)); apply derivable_pt_lim_id.
  - intros t. unfold ex_psi, cxadd, im. cbn [fst snd]. ring.
Qed.

(** Opposite amplitudes. *)
Theorem Gamma2_no_cancel psi mu beta A e : polygamma_line psi -> tiny15 <= Rabs (bias mu beta) -> A <> 0 -> direct psi mu beta e <> 0 ->
  exists c delta, 0 < c /\ 0 < delta /\ forall e', e' <> e -> Rabs (e' - e) < delta ->
  exists v, Gamma2 psi A (- A) e e' mu beta = Ok v /\ c < Rabs v.
Proof.
  intros HP Hx HA Hd. set (L := A ^ 2 * direct psi mu beta e).
  assert (HL : L <> 0) by (unfold L; apply Rmult_integral_contrapositive; split; [apply pow_nonzero; exact HA|exact Hd]).
  pose proof (Rabs_pos_lt L HL) as PL.
  destruct (Gamma2_coincide psi HP mu beta A (- A) e (Rabs L / 2) Hx ltac:(lra)) as (delta & Dp & H).
  exists (Rabs L / 2), delta. split; [lra|]. split; [exact Dp|]. intros e' Hne He. destruct (H e' Hne He) as (v & E & B). exists v. split; [exact E|].
  replace ((A ^ 2 + A * - A + (- A) ^ 2) * direct psi mu beta e) with L in B by (unfold L; ring).
  pose proof (Rabs_triang_inv L (L - v)). replace (L - (L - v)) with v in H0 by ring. rewrite (Rabs_minus_sym v L) in B. lra.
Qed.
