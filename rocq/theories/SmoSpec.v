(** What smoothing means, in terms of cosines and sines. *)
From Coq Require Import Reals List Arith ZArith Bool.
From Verif Require Import Base RBase RLin CBase.
Import ListNotations.
Local Open Scope R_scope.

(** Amplitudes of the oscillation with [k] periods in [n] samples. *)
Definition cosamp (n k : nat) (x : nat -> R) : R := rsum n (fun j => x j * cos (2 * PI * INR k * INR j / INR n)).
Definition sinamp (n k : nat) (x : nat -> R) : R := rsum n (fun j => x j * sin (2 * PI * INR k * INR j / INR n)).
(** Oscillations with [k] and [n - k] periods cannot be told apart. *)
Definition slow (n : nat) (limit : R) (k : nat) : Prop := INR (Nat.min k (n - k)) <= limit.
(** [y] has the slow oscillations of [x] and no others. *)
Definition lowpass (n : nat) (limit : R) (x y : nat -> R) : Prop := forall k, (k < n)%nat ->
  (slow n limit k -> cosamp n k y = cosamp n k x /\ sinamp n k y = sinamp n k x) /\
  (~ slow n limit k -> cosamp n k y = 0 /\ sinamp n k y = 0).

(** [v] is on the straight line between neighbouring points. *)
Definition between (xs : nat -> R) (ys : nat -> cx) (m : nat) (x : R) (v : cx) : Prop := forall i, (S i < m)%nat -> xs i <= x <= xs (S i) ->
  v = cxadd (ys i) (cxmul (rcx ((x - xs i) / (xs (S i) - xs i))) (cxsub (ys (S i)) (ys i))).
Definition increasing (xs : list R) : Prop := forall i j, (i < j)%nat -> (j < length xs)%nat -> nth i xs 0 < nth j xs 0.
