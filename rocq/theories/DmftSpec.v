(** Self-consistency: traces of evaluations, arrowhead matrices and resolvents. *)
From Coq Require Import Reals List Arith ZArith Bool.
From Verif Require Import Base RBase RLin CBase.
Import ListNotations.
Local Open Scope R_scope.

(** Errors along a list of trials: replay the steps from state [s]; [None] marks a
    step that raised. *)
Section Replay.
Variables (S D : Type) (dstep : S -> D -> res (S * D)) (dist : D -> D -> R).
Fixpoint replay (s : S) (trials : list D) : list (option R) :=
  match trials with
  | [] => []
  | d :: trials => match dstep s d with Ok (s', new) => Some (dist new d) :: replay s' trials | Err _ => [None] end
  end.
End Replay.
Definition all_above (tol : R) (es : list R) : Prop := forall e, In e es -> tol <= e.

(** [n] by [n] matrix stored by rows. *)
Definition ent (n : nat) (H : list R) (i j : nat) : R := nth (i * n + j) H 0.
Definition symmetric (n : nat) (H : list R) : Prop := forall i j, (i < n)%nat -> (j < n)%nat -> ent n H i j = ent n H j i.
(** Zero outside the first row, the first column and the diagonal. *)
Definition arrow (n : nat) (H : list R) : Prop :=
  forall i j, (0 < i < n)%nat -> (0 < j < n)%nat -> i <> j -> ent n H i j = 0.
(** [x] is the first column of the inverse of [z - H]. *)
Definition resolvent_col (n : nat) (H : list R) (z : cx) (x : nat -> cx) : Prop :=
  forall i, (i < n)%nat -> cxsub (cxmul z (x i)) (csum n (fun j => cxmul (rcx (ent n H i j)) (x j))) = rcx (if (i =? 0)%nat then 1 else 0).
(** Semicircular density of states of half-width 1. *)
Definition semicircular (h : cx -> cx) (z : cx) : Prop := h z = cxinv (cxsub z (cxmul (rcx (1 / 4)) (h z))).
