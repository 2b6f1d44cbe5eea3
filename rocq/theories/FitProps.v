(** C50 (initial baths) and C51 (gradient of the fit objective). *)
From Coq Require Import Reals List Arith ZArith Bool Lia Lra.
From Verif Require Import Base RBase RLin CBase FitModel FitSpec FitProofs FitMoreProofs.
Import ListNotations.
Local Open Scope R_scope.

(** Every entry is written; couplings; extremes and symmetry of the levels. *)
Theorem C50_initial_bath : forall (nb : nat) (B : R), (1 <= nb)%nat ->
  exists p x, get_initial_bath None (Some nb) B = Ok p /\ written p x /\ length x = (2 * nb)%nat /\
  (forall k, (k < nb)%nat -> nth (nb + k) x 0 = Rmax (1 / 10) (1 / sqrt (INR nb)) /\ 1 / 10 <= nth (nb + k) x 0) /\
  (nb = 1%nat -> nth 0 x 0 = B) /\
  ((2 <= nb)%nat -> nth 0 x 0 = - B /\ nth (nb - 1) x 0 = B /\ forall k, (k < nb)%nat -> nth k x 0 = - nth (nb - 1 - k) x 0) /\
  (Nat.odd nb = true -> (3 <= nb)%nat -> forall k, (k < nb)%nat -> nth k x 0 = - B + INR k * (B / INR (nb / 2))) /\
  (Nat.even nb = true -> (4 <= nb)%nat -> nth (nb / 2 - 1) x 0 = - (1 / 10) /\ nth (nb / 2) x 0 = 1 / 10 /\
     forall k, (k < nb / 2 - 1)%nat -> nth k x 0 = - B + INR k * (B / INR (nb / 2 - 1))).
Proof. exact initial_bath_ok. Qed.
Print Assumptions C50_initial_bath.

(** Order of the levels: odd counts are ordered, even ones only for wide bands. *)
Theorem C50_order : forall (nb : nat) (B : R) (p : list (option R)) (x : list R), (3 <= nb)%nat ->
  get_initial_bath None (Some nb) B = Ok p -> written p x ->
  (Nat.odd nb = true -> (strictly_increasing nb (fun k => nth k x 0) <-> 0 < B)) /\
  (Nat.even nb = true -> (strictly_increasing nb (fun k => nth k x 0) <-> 1 / 10 * INR (nb / 2 - 1) < B)).
Proof. exact initial_bath_order. Qed.
Print Assumptions C50_order.

(** For the default band the levels are out of order from 42 sites on. *)
Theorem C50_order_refuted : exists p x, get_initial_bath None (Some 42%nat) 2 = Ok p /\ written p x /\ ~ strictly_increasing 42 (fun k => nth k x 0).
Proof. exact initial_bath_unsorted. Qed.
Print Assumptions C50_order_refuted.

(** Reusing a parameter array overwrites all of it; bad calls raise. *)
Theorem C50_in_place : forall (nb : nat) (B : R) (p : list (option R)), (1 <= nb)%nat -> length p = (2 * nb)%nat ->
  get_initial_bath (Some p) None B = get_initial_bath None (Some nb) B.
Proof. exact initial_bath_given. Qed.
Print Assumptions C50_in_place.

Theorem C50_bad_calls : forall (nb : nat) (B : R) (p : list (option R)),
  get_initial_bath None None B = Err TypeError /\ get_initial_bath (Some p) (Some nb) B = Err ValueError /\
  get_initial_bath None (Some 0%nat) B = Err IndexError.
Proof. exact initial_bath_errors. Qed.
Print Assumptions C50_bad_calls.

(** The C initialiser agrees with the Python one, except at three sites. *)
Theorem C50_c_twin : forall (nb : nat) (p : list (option R)), (1 <= nb)%nat -> nb <> 3%nat -> length p = (2 * nb)%nat ->
  c_init_bath nb p = get_initial_bath None (Some nb) 2.
Proof. exact c_init_python. Qed.
Print Assumptions C50_c_twin.

Theorem C50_c_three_refuted : forall p : list (option R), length p = 6%nat ->
  exists x, c_init_bath 3 p = Ok x /\ nth 1 x None = nth 1 p None.
Proof. exact c_init_three. Qed.
Print Assumptions C50_c_three_refuted.

Example C50_one : get_initial_bath None (Some 1%nat) 2 = Ok [Some 2; Some (Rmax (1 / 10) (1 / sqrt 1))].
Proof. reflexivity. Qed.
Example C50_three : get_initial_bath None (Some 3%nat) 2 =
  Ok (map Some [- (2); 0; 2; Rmax (1 / 10) (1 / sqrt (INR 3)); Rmax (1 / 10) (1 / sqrt (INR 3)); Rmax (1 / 10) (1 / sqrt (INR 3))]).
Proof. reflexivity. Qed.

(** The computed vector is the gradient of the objective actually minimised,
    and the C code computes the same two functions. *)
Theorem C51_gradient : forall (m : nat) (p : list R) (z vals : list cx) (mem : list (list cx)),
  length p = (2 * m)%nat -> length vals = length z -> length mem = length z ->
  (forall row, In row mem -> length row = (2 * m)%nat) ->
  off_levels p z -> (0 < length z)%nat ->
  exists g, dchi2 z vals mem p = Ok g /\ length g = length p /\
  forall k, (k < length p)%nat -> derivable_pt_lim (fun t => chi2 z vals (upd_tot p k t)) (nth k p 0) (nth k g 0).
Proof. exact gradient. Qed.
Print Assumptions C51_gradient.

Theorem C51_objective : forall (m : nat) (p : list R) (z vals : list cx), length p = (2 * m)%nat -> length vals = length z ->
  chi2 z vals p = misfit (length z) m (fun i => nth i z (rcx 0)) (fun i => nth i vals (rcx 0)) (fun k => nth k p 0) (fun k => nth (m + k) p 0).
Proof. exact chi2_is_misfit. Qed.
Print Assumptions C51_objective.

Theorem C51_c_twin : forall (m : nat) (x : list R) (z vals : list cx) (mem : list (list cx)),
  length x = (2 * m)%nat -> length vals = length z -> length mem = length z -> (0 < length z)%nat ->
  c_chi2 m z vals x = chi2 z vals x /\ dchi2 z vals mem x = Ok (c_dchi2 m z vals mem x).
Proof. exact c_twin. Qed.
Print Assumptions C51_c_twin.

Theorem C51_matsubara : forall (nmats : nat) (beta : R) (p : list R), 0 < beta -> off_levels p (matsubara nmats beta).
Proof. exact matsubara_off. Qed.
Print Assumptions C51_matsubara.

(** One level at energy 0 with coupling 1, one point [i], target 0. *)
Example C51_case : off_levels [0; 1] [ci] /\ chi2 [ci] [rcx 0] [0; 1] = 1 /\
  dchi2 [ci] [rcx 0] [[rcx 0; rcx 0]] [0; 1] = Ok [0; 4].
Proof.
  split; [|split].
  - intros i j Hi Hj. simpl in *. assert (i = 0%nat) as -> by lia. assert (j = 0%nat) as -> by lia. cbn. intros E. injection E. lra.
  - unfold chi2, chi2_loop, delta_fit, delta1, eks, vks. cbn. unfold cxn2. cbn. field.
  - unfold dchi2, delta_fit, delta1, ddelta1, dotr, eks, vks. cbn. unfold cxn2. cbn. f_equal. apply f_equal2; [match goal with |- ?x = ?y => change (@eq R x y) end; field; split; lra|].
    apply f_equal2; [match goal with |- ?x = ?y => change (@eq R x y) end; field; split; lra|reflexivity].
Qed.
