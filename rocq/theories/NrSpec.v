(** Line search: what a bracket is. *)
From Coq Require Import Reals List.
Local Open Scope R_scope.

(** [b] lies strictly between [a] and [c]. *)
Definition between (a b c : R) : Prop := a < b < c \/ c < b < a.
Definition decreasing_from (f : R -> R) (x0 : R) : Prop := forall x y, x0 <= x -> x < y -> f y < f x.
