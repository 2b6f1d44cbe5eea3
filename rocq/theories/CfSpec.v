(** Specification vocabulary for resolvents. *)
From Coq Require Import List Arith Reals.
From Verif Require Import Base RBase RLin CBase LanczosSpec.
Local Open Scope R_scope.

(** [x] solves (z - T) x = f for the real n x n matrix T. *)
Definition solves (n : nat) (T : nat -> nat -> R) (z : cx) (x f : nat -> cx) : Prop :=
  forall i, (i < n)%nat -> cxsub (cxmul z (x i)) (csum n (fun j => cxmul (rcx (T i j)) (x j))) = f i.

(** First unit vector. *)
Definition e0 (i : nat) : cx := if (i =? 0)%nat then rcx 1 else rcx 0.
Definition matrix_symmetric (n : nat) (T : nat -> nat -> R) : Prop := forall i j, (i < n)%nat -> (j < n)%nat -> T i j = T j i.

(** [mv] multiplies by the matrix [M]. *)
Definition multiplies (d : nat) (M : nat -> nat -> R) (mv : list R -> res (list R)) : Prop :=
  forall x, length x = d -> exists y, mv x = Ok y /\ length y = d /\
    forall i, (i < d)%nat -> nth i y 0 = rsum d (fun j => M i j * nth j x 0).

(** +-(T - E). *)
Definition shifted (sign E : R) (T : nat -> nat -> R) (i j : nat) : R :=
  let t := T i j - if (i =? j)%nat then E else 0 in if Rltb sign 0 then - t else t.
