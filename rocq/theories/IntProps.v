(** Properties C53, C69 and C70: the cotunnelling integrals. *)
From Coq Require Import Reals List Lia Lra Permutation.
From Verif Require Import Base RBase CBase IntModel IntSpec IntProofs IntLimProofs.
Import ListNotations.
Local Open Scope R_scope.

(** C53: the four direct terms and the six interference terms, each once. *)
Theorem C53_sum psi mu beta A B C D a b c d : / 10 ^ 15 <= Rabs (bias mu beta) -> NoDup [a; b; c; d] ->
  Gamma4 psi A B C D a b c d mu beta =
  Ok (directs psi mu beta [(A, a); (B, b); (C, c); (D, d)] + pairs psi mu beta [(A, a); (B, b); (C, c); (D, d)]).
Proof. exact (Gamma4_sum psi mu beta A B C D a b c d). Qed.
Print Assumptions C53_sum.
Theorem C53_sum2 psi mu beta A B a b : / 10 ^ 15 <= Rabs (bias mu beta) -> a <> b ->
  Gamma2 psi A B a b mu beta = Ok (directs psi mu beta [(A, a); (B, b)] + pairs psi mu beta [(A, a); (B, b)]).
Proof. exact (Gamma2_sum psi mu beta A B a b). Qed.
Print Assumptions C53_sum2.
(** [Sigma.exact] passes amplitudes and energies to the right places, for every
    number of poles that it supports. *)
Theorem C53_exact psi mu beta l : / 10 ^ 15 <= Rabs (bias mu beta) -> NoDup (map snd l) -> In (length l) [1; 2; 4]%nat ->
  exact psi (map fst l) (map snd l) mu beta = Ok (directs psi mu beta l + pairs psi mu beta l).
Proof. exact (exact_sum psi mu beta l). Qed.
Print Assumptions C53_exact.
Theorem C53_other psi mu beta l : ~ In (length l) [1; 2; 4]%nat ->
  exact psi (map fst l) (map snd l) mu beta = Err NotImplementedError.
Proof. exact (exact_other psi mu beta l). Qed.
Print Assumptions C53_other.
(** The order of the poles does not matter, whatever the outcome. *)
Theorem C53_permutation psi mu beta l l' : Permutation l l' ->
  exact psi (map fst l) (map snd l) mu beta = exact psi (map fst l') (map snd l') mu beta.
Proof. exact (exact_perm psi mu beta l l'). Qed.
Print Assumptions C53_permutation.

(** C69, refuted: two poles that come together should act as one pole with the
    added amplitudes; the interference is counted once instead of twice. *)
Theorem C69_coincide psi mu beta A B e eps : polygamma_line psi -> / 10 ^ 15 <= Rabs (bias mu beta) -> 0 < eps ->
  exists delta, 0 < delta /\ forall e', e' <> e -> Rabs (e' - e) < delta ->
  exists v, Gamma2 psi A B e e' mu beta = Ok v /\ Rabs (v - (A ^ 2 + A * B + B ^ 2) * direct psi mu beta e) < eps.
Proof. exact (fun HP => Gamma2_coincide psi HP mu beta A B e eps). Qed.
Print Assumptions C69_coincide.
Theorem C69_refuted psi mu beta A e : polygamma_line psi -> / 10 ^ 15 <= Rabs (bias mu beta) -> A <> 0 -> direct psi mu beta e <> 0 ->
  exists c delta, 0 < c /\ 0 < delta /\ forall e', e' <> e -> Rabs (e' - e) < delta ->
  exists v, Gamma2 psi A (- A) e e' mu beta = Ok v /\ c < Rabs v.
Proof. exact (Gamma2_no_cancel psi mu beta A e). Qed.
Print Assumptions C69_refuted.

(** C70: equal potentials give no rate at all; just off them two poles raise. *)
Theorem C70_equal psi mu beta Y E : fst mu = snd mu -> length Y = length E -> In (length Y) [1; 2; 4]%nat -> exact psi Y E mu beta = Ok 0.
Proof. exact (equal_potentials psi mu beta Y E). Qed.
Print Assumptions C70_equal.
Theorem C70_refuted psi mu beta A B e e' : / 10 ^ 16 <= Rabs (bias mu beta) < / 10 ^ 15 -> Gamma2 psi A B e e' mu beta = Err TypeError.
Proof. exact (window_fails psi mu beta A B e e'). Qed.
Print Assumptions C70_refuted.

(** One pole is treated there, with the series of the occupation. *)
Theorem C70_single psi mu beta A e : / 10 ^ 16 <= Rabs (bias mu beta) < / 10 ^ 15 -> exact psi [A] [e] mu beta = Ok (A ^ 2 * direct_near psi mu beta e).
Proof. exact (window_single psi mu beta A e). Qed.
Print Assumptions C70_single.

(** Examples with z^2 and 2z for the two polygamma functions. *)
Example C69_ex_line : polygamma_line ex_psi.
Proof. exact ex_psi_line. Qed.
Lemma ex_bias : bias (0, 1) 1 = 1.
Proof. unfold bias. cbn. ring. Qed.
Lemma ex_regular : tiny15 <= Rabs (bias (0, 1) 1).
Proof. rewrite ex_bias, Rabs_R1. unfold tiny15. rewrite <- Rinv_1. apply Rinv_le_contravar; [lra|]. simpl. lra. Qed.
Example C69_ex_direct : direct ex_psi (0, 1) 1 0 <> 0.
Proof.
  unfold direct, ex_psi, scaled, occupation. rewrite ex_bias. cbn [fst snd]. unfold cxadd, im. cbn [fst snd].
  assert (0 < exp 1 - 1) by (pose proof (exp_ineq1 1 ltac:(lra)); lra). pose proof PI_RGT_0.
  assert (0 < / (exp 1 - 1)) by (apply Rinv_0_lt_compat; lra). assert (0 < / (2 * PI)) by (apply Rinv_0_lt_compat; lra).
  apply Rgt_not_eq. unfold Rdiv. replace _ with (2 * (/ (2 * PI) * / (2 * PI)) * / (exp 1 - 1)); [apply Rmult_lt_0_compat; [apply Rmult_lt_0_compat; [lra|apply Rmult_lt_0_compat; auto]|auto]|].
  cbn. ring.
Qed.
Example C69_ex : exists c delta, 0 < c /\ 0 < delta /\ forall e', e' <> 0 -> Rabs (e' - 0) < delta ->
  exists v, Gamma2 ex_psi 1 (- 1) 0 e' (0, 1) 1 = Ok v /\ c < Rabs v.
Proof. apply C69_refuted; [exact C69_ex_line|exact ex_regular|lra|exact C69_ex_direct]. Qed.
Example C53_ex : Gamma4 ex_psi 1 2 3 4 0 1 2 3 (0, 1) 1 =
  Ok (directs ex_psi (0, 1) 1 [(1, 0); (2, 1); (3, 2); (4, 3)] + pairs ex_psi (0, 1) 1 [(1, 0); (2, 1); (3, 2); (4, 3)]).
Proof. apply C53_sum; [exact ex_regular|]. repeat constructor; cbn; intuition lra. Qed.
Example C53_ex_one : exact ex_psi [3] [2] (0, 1) 1 = Ok (3 ^ 2 * direct ex_psi (0, 1) 1 2).
Proof.
  change [3] with (map fst [(3, 2)]). change [2] with (map snd [(3, 2)]).
  rewrite C53_exact; [cbn; f_equal; ring|exact ex_regular|repeat constructor; cbn; tauto|cbn; tauto].
Qed.
Example C70_ex_single : exact ex_psi [3] [2] (0, tiny16) 1 = Ok (3 ^ 2 * direct_near ex_psi (0, tiny16) 1 2).
Proof.
  apply C70_single. unfold bias. cbn [fst snd]. replace ((tiny16 - 0) * 1) with tiny16 by ring.
  rewrite Rabs_right by (pose proof tiny_pos; lra). split; [apply Rle_refl|apply tiny_lt].
Qed.
Example C70_ex : tiny16 <= Rabs (bias (0, tiny16) 1) < tiny15 /\ Gamma2 ex_psi 1 2 0 3 (0, tiny16) 1 = Err TypeError.
Proof.
  assert (E : Rabs (bias (0, tiny16) 1) = tiny16) by (unfold bias; cbn [fst snd]; rewrite Rabs_right by (pose proof tiny_pos; lra); ring).
  assert (W : tiny16 <= Rabs (bias (0, tiny16) 1) < tiny15) by (rewrite E; split; [apply Rle_refl|apply tiny_lt]).
  split; [exact W|]. now apply C70_refuted.
Qed.
