(** Model of [DMFT.solve] and of linear mixing in edpyt/dmft.py. *)
From Coq Require Import String Reals List Arith Bool.
From Verif Require Import Base RBase CBase DmftModel.
Import ListNotations.
Local Open Scope R_scope.

(** dmft.py:410 and 414: [wn = (2 * np.arange(nmats) + 1) * np.pi / beta],
    [weights = wn ** -alpha].  numpy's power of positive numbers is [Rpower]. *)
Definition wn (beta : R) (k : nat) : R := (2 * INR k + 1) * PI / beta.
Definition weights (nmats : nat) (beta alpha : R) : list R := map (fun k => Rpower (wn beta k) (- alpha)) (seq 0 nmats).
(** dmft.py:440-442 [distance], from the value [new] of the call. *)
Definition distance (w : list R) (delta new : list cx) : list cx :=
  map (fun p => cxmul (rcx (fst p)) (cxsub (snd (snd p)) (fst (snd p)))) (combine w (combine delta new)).
(** scipy's [linearmixing]: the Jacobian is -1/alpha, so that the next trial is
    [delta + t * distance]; t is alpha times the step length of the line search. *)
Definition mixed (t : R) (w : list R) (delta new : list cx) : list cx :=
  map (fun p => cxadd (fst p) (cxmul (rcx t) (snd p))) (combine delta (distance w delta new)).
(** External: the line search of scipy may go back to any earlier point, with any step
    length in [0, 1]. *)
Definition linear_rule (alpha : R) (w : list R) (delta0 : list cx) (mix : list (list cx * list cx) -> option (list cx)) : Prop :=
  forall hist delta, mix hist = Some delta ->
    (hist = [] /\ delta = delta0) \/ exists old new s, In (old, new) hist /\ 0 <= s <= 1 /\ delta = mixed (s * alpha) w old new.

(** dmft.py:477-485 [solve]; [broyden] and [linear] are the choices of the two routines
    of scipy.  Simplification: keyword arguments are part of these choices. *)
Definition dmft_solve {S} (dstep : S -> list cx -> res (S * list cx)) (dist : list cx -> list cx -> R) (tol : R) (max_iter fuel : nat)
    (broyden linear : list (list cx * list cx) -> option (list cx)) (mixing_method : string) (st : S * nat) : (S * nat) * list (list cx) * res unit :=
  if (mixing_method =? "linear")%string then drive S (list cx) dstep dist tol max_iter linear fuel [] st
  else if (mixing_method =? "broyden")%string then drive S (list cx) dstep dist tol max_iter broyden fuel [] st
  else (st, [], Ok tt).
