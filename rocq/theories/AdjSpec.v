(** What is asked of a bracketing root finder; totals. *)
From Coq Require Import Reals List Arith Bool.
From Verif Require Import Base.
Import ListNotations.
Local Open Scope R_scope.

Definition sum_of (l : list R) : R := fold_right Rplus 0 l.
(** A result is a root within the bracket; exceptions at the ends are passed on (first
    [a], then [b]); equal signs at the ends are refused. *)
Definition bracketing (root : (R -> res R) -> R -> R -> res R) : Prop := forall f a b, a <= b ->
  (forall x, root f a b = Ok x -> a <= x <= b /\ f x = Ok 0) /\
  (forall e, f a = Err e -> root f a b = Err e) /\
  (forall u e, f a = Ok u -> f b = Err e -> root f a b = Err e) /\
  (forall u v, f a = Ok u -> f b = Ok v -> 0 < u * v -> root f a b = Err ValueError).
