(** C141: linear mixing in DMFT.solve. *)
From Coq Require Import String Reals List Arith Bool Lia Lra Psatz.
From Verif Require Import Base RBase CBase DmftModel LmModel LmSpec LmProofs.
Import ListNotations.
Local Open Scope R_scope.

(** A convex condition that holds for the first hybridisation and is kept by the step
    holds for every hybridisation the run evaluates ... *)
Theorem C141_convex {S} (dstep : S -> list cx -> res (S * list cx)) dist tol max_iter fuel m alpha w delta0 broyden mix C st st' ev r : length w = m ->
  (forall k, (k < m)%nat -> 0 <= alpha * nth k w 0 <= 1) -> (forall k, (k < m)%nat -> convex (C k)) -> inside m C delta0 -> linear_rule alpha w delta0 mix ->
  (forall s d s' d', inside m C d -> dstep s d = Ok (s', d') -> inside m C d') -> dmft_solve dstep dist tol max_iter fuel broyden mix "linear" st = (st', ev, r) -> Forall (inside m C) ev.
Proof. exact (solve_inside dstep dist tol max_iter fuel m alpha w delta0 broyden mix C st st' ev r). Qed.
Print Assumptions C141_convex.

(** ... such as causality, with the default weights, or with others at high temperature. *)
Theorem C141_causal {S} (dstep : S -> list cx -> res (S * list cx)) dist tol max_iter fuel nmats beta a alpha delta0 broyden mix st st' ev r : 0 < beta -> 0 <= alpha <= 1 -> (a = 0 \/ (beta <= PI /\ 0 <= a)) ->
  causal nmats delta0 -> linear_rule alpha (weights nmats beta a) delta0 mix ->
  (forall s d s' d', causal nmats d -> dstep s d = Ok (s', d') -> causal nmats d') -> dmft_solve dstep dist tol max_iter fuel broyden mix "linear" st = (st', ev, r) -> Forall (causal nmats) ev.
Proof. exact (solve_causal dstep dist tol max_iter fuel nmats beta a alpha delta0 broyden mix st st' ev r). Qed.
Print Assumptions C141_causal.

(** The zeros of the distance are the fixed points, whatever the positive weights. *)
Theorem C141_fixed w old new m : length w = m -> length old = m -> length new = m -> (forall k, (k < m)%nat -> 0 < nth k w 0) ->
  ((forall k, (k < m)%nat -> nth k (distance w old new) (rcx 0) = rcx 0) <-> new = old).
Proof. exact (fixed_point w old new m). Qed.
Print Assumptions C141_fixed.

(** A misspelt method evaluates nothing and raises nothing. *)
Theorem C141_name_refuted {S} (dstep : S -> list cx -> res (S * list cx)) dist tol max_iter fuel broyden mix name st : name <> "linear"%string -> name <> "broyden"%string ->
  dmft_solve dstep dist tol max_iter fuel broyden mix name st = (st, [], Ok tt).
Proof. exact (solve_other dstep dist tol max_iter fuel broyden mix name st). Qed.
Print Assumptions C141_name_refuted.

(** Plain mixing without line search, at most [iter] times. *)
Definition plain (alpha : R) (w : list R) (delta0 : list cx) (iter : nat) (hist : list (list cx * list cx)) : option (list cx) :=
  match hist with
  | [] => Some delta0
  | (old, new) :: _ => if (length hist <=? iter)%nat then Some (mixed (1 * alpha) w old new) else None
  end.
Lemma plain_rule alpha w delta0 iter : linear_rule alpha w delta0 (plain alpha w delta0 iter).
Proof.
  intros hist delta E. destruct hist as [|[old new] hist]; cbn [plain] in E; [left; split; congruence|]. destruct (_ <=? _)%nat; [|discriminate]. injection E as <-.
  right. exists old, new, 1. split; [now left|]. split; [lra|reflexivity].
Qed.
(** A step with the fixed point -i/10 at one frequency; the defaults reach -82/100 i ... *)
Definition ex_step (s : unit) (d : list cx) : res (unit * list cx) := Ok (tt, [(0, - / 10)]).
Definition ex_dist (a b : list cx) : R := Rabs (im (nth 0 a (rcx 0)) - im (nth 0 b (rcx 0))).
Lemma ex_run w : exists st r, dmft_solve ex_step ex_dist (/ 1000) 20 2 (fun _ => None) (plain (/ 5) [w] [(0, -1)] 1) "linear" (tt, 0%nat) = (st, [[(0, -1)]; mixed (1 * / 5) [w] [(0, -1)] [(0, - / 10)]], r).
Proof.
  assert (N : Rltb (Rabs (- / 10 - -1)) (/ 1000) = false).
  { destruct (Rltb (Rabs (- / 10 - -1)) (/ 1000)) eqn:E; [|reflexivity]. unfold Rltb in E. destruct (Rlt_dec (Rabs (- / 10 - -1)) (/ 1000)) as [L|]; [|discriminate]. rewrite Rabs_pos_eq in L by lra. lra. }
  unfold dmft_solve. cbn [String.eqb Ascii.eqb Bool.eqb drive plain dmft_call ex_step]. unfold ex_dist at 1. cbn [nth im snd]. rewrite N. cbn [Nat.ltb Nat.leb Nat.add length].
  generalize (mixed (1 * / 5) [w] [(0, -1)] [(0, - / 10)]). intros d. cbn [drive plain length Nat.leb].
  match goal with |- context [dmft_call ?a ?b ?c ?e ?f ?g ?h d] => destruct (dmft_call a b c e f g h d) as [st' [new|x]] end; do 2 eexists; reflexivity.
Qed.
Example C141_ex : exists st r, dmft_solve ex_step ex_dist (/ 1000) 20 2 (fun _ => None) (plain (/ 5) (weights 1 100 0) [(0, -1)] 1) "linear" (tt, 0%nat) = (st, [[(0, -1)]; [(0, - 82 / 100)]], r).
Proof.
  replace (weights 1 100 0) with [1]. 2:{ pose proof (weights_one 1 100 0 ltac:(lra) ltac:(lia)) as E. unfold weights in *. cbn in *. now rewrite E. }
  destruct (ex_run 1) as (st & r & E). exists st, r. rewrite E. replace (mixed (1 * / 5) [1] [(0, -1)] [(0, - / 10)]) with [(0, - 82 / 100) : cx]; [reflexivity|].
  unfold mixed, distance. cbn [combine map fst snd]. f_equal. apply cx_eq; cbn; field.
Qed.
(** ... but weights 1/wn at beta = 100 overshoot: the second hybridisation is not causal. *)
Theorem C141_weights_refuted : exists st d r, dmft_solve ex_step ex_dist (/ 1000) 20 2 (fun _ => None) (plain (/ 5) (weights 1 100 1) [(0, -1)] 1) "linear" (tt, 0%nat) = (st, [[(0, -1)]; d], r) /\
  causal 1 [(0, -1)] /\ (forall s x s' d', ex_step s x = Ok (s', d') -> causal 1 d') /\ 3 < im (nth 0 d (rcx 0)).
Proof.
  set (w := nth 0 (weights 1 100 1) 0). replace (weights 1 100 1) with [w] by reflexivity.
  destruct (ex_run w) as (st & r & E). exists st, (mixed (1 * / 5) [w] [(0, -1)] [(0, - / 10)]), r. split; [exact E|].
  split; [split; [reflexivity|]; intros [|k] Hk; [cbn; lra|lia]|]. split.
  { intros s x s' d' H. injection H as _ <-. split; [reflexivity|]. intros [|k] Hk; [cbn; lra|lia]. }
  assert (W : 25 <= w).
  { unfold w. rewrite weights_nth by lia. pose proof (wn_pos 100 0 ltac:(lra)) as P. rewrite Rpower_Ropp, Rpower_1 by exact P.
    assert (wn 100 0 <= / 25) by (unfold wn; cbn [INR]; pose proof PI_4; lra). rewrite <- (Rinv_inv 25). apply Rinv_le_contravar; assumption. }
  rewrite (mixed_nth _ _ _ _ 1 0) by (auto; lia). cbn [nth re im fst snd]. nra.
Qed.
Print Assumptions C141_weights_refuted.
