(** C54: the C optimiser. *)
From Coq Require Import Reals List Arith ZArith Bool Lia Lra.
From Verif Require Import Base RBase CBase FitModel FitSpec NrModel NrSpec NrProofs RLin.
Import ListNotations.
Local Open Scope R_scope.

(** The bracket found by mnbrak is one, and no start point is lower. *)
Theorem C54_bracket (f : R -> R) fuel ax bx s : mnbrak f fuel ax bx = Ok s ->
  bfa s = f (bax s) /\ bfb s = f (bbx s) /\ bfc s = f (bcx s) /\ bfb s <= bfa s /\ bfb s <= bfc s /\
  bfb s <= f ax /\ bfb s <= f bx /\ (ax <> bx -> between (bax s) (bbx s) (bcx s)).
Proof. exact (mnbrak_bracket f fuel ax bx s). Qed.
Print Assumptions C54_bracket.
(** The answer does not depend on how long the loop may run. *)
Theorem C54_bracket_fuel (f : R -> R) f1 f2 ax bx s : (f1 <= f2)%nat -> mnbrak f f1 ax bx = Ok s -> mnbrak f f2 ax bx = Ok s.
Proof. exact (mnbrak_fuel f f1 f2 ax bx s). Qed.
Print Assumptions C54_bracket_fuel.
(** There need not be an answer: mnbrak has no iteration limit. *)
Theorem C54_bracket_terminates_refuted (f : R -> R) : decreasing_from f 0 -> forall fuel, mnbrak f fuel 0 1 = Err OutOfFuel.
Proof. exact (mnbrak_diverges f). Qed.
Print Assumptions C54_bracket_terminates_refuted.

(** dbrent returns a value of the function, no larger than at the start. *)
Theorem C54_line (f df : R -> R) tol d0 ax bx cx xmin v : dbrent f df tol d0 ax bx cx = Ok (xmin, v) -> v = f xmin /\ v <= f bx.
Proof. exact (dbrent_descends f df tol d0 ax bx cx xmin v). Qed.
Print Assumptions C54_line.
Theorem C54_line_outcomes (f df : R -> R) tol d0 ax bx cx :
  (exists r, dbrent f df tol d0 ax bx cx = Ok r) \/ dbrent f df tol d0 ax bx cx = Err NRError.
Proof. exact (dbrent_outcomes f df tol d0 ax bx cx). Qed.
Print Assumptions C54_line_outcomes.
(** The bracket update discards the half that holds the minimum: on [x * x]
    with the bracket [-10 < 1 < 2] the answer is 1. *)
Theorem C54_minimum_refuted : exists (f df : R -> R) ax bx cx,
  (forall x, derivable_pt_lim f x (df x)) /\ ax < bx < cx /\ f bx < f ax /\ f bx < f cx /\ (exists x, ax < x < cx /\ df x = 0 /\ forall y, f x <= f y) /\
  forall d0, exists x v, dbrent f df TOL d0 ax bx cx = Ok (x, v) /\ df x <> 0 /\ x = bx.
Proof.
  exists (fun x => x * x), (fun x => 2 * x), (-10), 1, 2. split.
  { intros x. replace (2 * x) with (1 * id x + id x * 1) by (unfold id; ring). apply (derivable_pt_lim_mult id id x 1 1); apply derivable_pt_lim_id. }
  split; [lra|]. split; [lra|]. split; [lra|]. split; [exists 0; split; [lra|]; split; [lra|intros y; pose proof (Rle_0_sqr y); unfold Rsqr in *; lra]|].
  intros d0. exists 1, 1. split; [apply dbrent_loses|]. split; lra.
Qed.
Print Assumptions C54_minimum_refuted.
(** It can also answer with a point outside the bracket. *)
Theorem C54_inside_refuted : exists (f df : R -> R) ax bx cx,
  (forall x, derivable_pt_lim f x (df x)) /\ ax < bx < cx /\
  forall d0, exists x v, dbrent f df TOL d0 ax bx cx = Ok (x, v) /\ x < ax.
Proof.
  exists (fun x => x), (fun _ => 1), 0, (1 / 2 / 10 ^ 10), 1. split; [intros x; apply derivable_pt_lim_id|]. split; [lra|]. intros d0. apply dbrent_outside.
Qed.
Print Assumptions C54_inside_refuted.

(** The function minimised along a direction and the derivative used for it:
    the gradient at that point of the line times the direction. *)
Theorem C54_direction (func : list R -> R) dfunc p xi t : length p = length xi ->
  let y := map (fun q : R * R => fst q + t * snd q) (combine p xi) in length (dfunc y) = length p ->
  f1dim func p xi t = func y /\ df1dim dfunc p xi t = rsum (length p) (fun i => nth i (dfunc y) 0 * nth i xi 0).
Proof. exact (fun L LD => conj eq_refl (df1dim_dot dfunc p xi t L LD)). Qed.
Print Assumptions C54_direction.

(** A line minimisation and the whole conjugate-gradient run never go up and
    report the value at the point they return. *)
Theorem C54_linmin (func : list R -> R) dfunc fuel d0 p xi p' xi' fret : length p = length xi ->
  dlinmin func dfunc fuel d0 p xi = Ok (p', xi', fret) ->
  fret = func p' /\ func p' <= func p /\ length p' = length p /\ exists t, p' = map (fun q : R * R => fst q + t * snd q) (combine p xi).
Proof. exact (dlinmin_descends func dfunc fuel d0 p xi p' xi' fret). Qed.
Print Assumptions C54_linmin.
Theorem C54_descent (func : list R -> R) dfunc dim fuel d0 p p' it fret : (forall p, length p = dim -> length (dfunc p) = dim) -> length p = dim ->
  frprmn func dfunc fuel d0 p = Ok (p', it, fret) ->
  fret = func p' /\ func p' <= func p /\ length p' = dim /\ (1 <= it <= 2000)%nat.
Proof. exact (fun DL => frprmn_descends func dfunc dim DL fuel d0 p p' it fret). Qed.
Print Assumptions C54_descent.
(** So the bath fit in C reports the misfit of the bath it returns, and that is
    no worse than the bath it was given. *)
Theorem C54_fit fuel d0 m nmats vals beta mem x x' it fret : length x = (2 * m)%nat -> length vals = nmats ->
  c_fit fuel d0 m nmats vals beta mem x = Ok (x', it, fret) ->
  let mis := fun x : list R => misfit nmats m (fun i => nth i (matsubara nmats beta) (rcx 0)) (fun i => nth i vals (rcx 0)) (fun k => nth k x 0) (fun k => nth (m + k) x 0) in
  length x' = (2 * m)%nat /\ fret = mis x' /\ mis x' <= mis x.
Proof. exact (c_fit_descends fuel d0 m nmats vals beta mem x x' it fret). Qed.
Print Assumptions C54_fit.

(** A run. *)
Example C54_run fuel d0 : frprmn run_f run_df fuel d0 [0] = Ok ([1 / 2], 1%nat, 10 ^ 6) /\ run_f [1 / 2] < run_f [0].
Proof. split; [apply run_frprmn|]. unfold run_f. cbn [nth]. lra. Qed.
Example C54_decreasing : decreasing_from (fun x => - x) 0.
Proof. intros x y _ H. lra. Qed.
