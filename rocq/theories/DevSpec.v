(** Weighted means over the passes of a sampling loop. *)
From Coq Require Import Reals List Arith Bool.
From Verif Require Import Base RBase RLin CBase.
Import ListNotations.
Local Open Scope R_scope.

(** The last element, if there is one, satisfies [p]. *)
Definition ends_with {A} (p : A -> bool) (l : list A) : Prop := forall a l', l = l' ++ [a] -> p a = true.
(** (x0 + sum_t w_t x_t) / sum_t w_t *)
Definition weighted_mean (m : nat) (w : nat -> R) (x0 : R) (x : nat -> R) : R := (x0 + rsum m (fun t => w t * x t)) / rsum m w.
Definition weighted_cmean (m : nat) (w : nat -> R) (x0 : cx) (x : nat -> cx) : cx := cxdiv (cxadd x0 (csum m (fun t => cxmul (rcx (w t)) (x t)))) (rcx (rsum m w)).
(** The plain average of a list; 0 for the empty one. *)
Definition cmean (l : list cx) : cx := match l with [] => rcx 0 | _ => cxdiv (fold_right cxadd (rcx 0) l) (rcx (INR (length l))) end.
Definition rmean (l : list R) : R := match l with [] => 0 | _ => fold_right Rplus 0 l / INR (length l) end.
