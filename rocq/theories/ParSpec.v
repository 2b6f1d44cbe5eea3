(** Means over samples that are distributed over ranks; iteration of an update. *)
From Coq Require Import Reals List Arith.
From Verif Require Import Base RBase RLin CBase.
Local Open Scope R_scope.

(** [cnt r] samples on rank [r], the [t]-th one of rank [r] with the value [x r t]. *)
Definition total_count (size : nat) (cnt : nat -> nat) : nat := list_sum (List.map cnt (List.seq 0 size)).
Definition all_mean (size : nat) (cnt : nat -> nat) (x : nat -> nat -> cx) : cx := cxdiv (csum size (fun r => csum (cnt r) (x r))) (rcx (INR (total_count size cnt))).
Definition rank_mean (cnt : nat -> nat) (x : nat -> nat -> cx) (r : nat) : cx := cxdiv (csum (cnt r) (x r)) (rcx (INR (cnt r))).
(** s, s + f(s), ... *)
Fixpoint iterate (f : R -> R) (k : nat) (s : R) : R := match k with O => s | S k => iterate f k s + f (iterate f k s) end.
