(** Convex conditions on arrays. *)
From Coq Require Import Reals List Arith.
From Verif Require Import Base RBase CBase.
Import ListNotations.
Local Open Scope R_scope.

(** With two numbers, everything between them. *)
Definition convex (C : cx -> Prop) : Prop := forall x y t, C x -> C y -> 0 <= t <= 1 -> C ((1 - t) * re x + t * re y, (1 - t) * im x + t * im y).
(** An array of [m] numbers, the k-th one in [C k]. *)
Definition inside (m : nat) (C : nat -> cx -> Prop) (a : list cx) : Prop := length a = m /\ forall k, (k < m)%nat -> C k (nth k a (rcx 0)).
Definition causal (m : nat) (a : list cx) : Prop := inside m (fun _ z => im z <= 0) a.
