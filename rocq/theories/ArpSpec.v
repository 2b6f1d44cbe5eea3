(** The protocol of ARPACK and what it guarantees. *)
From Coq Require Import Reals List Arith ZArith Bool.
From Verif Require Import Base RBase RLin TriSpec ArpModel.
Import ListNotations.
Local Open Scope R_scope.

(** [l] with the entries from [p] on replaced by those of [y]. *)
Definition splice (p : nat) (y l : list R) : list R := map (fun i => if (p <=? i)%nat && (i <? p + length y)%nat then nth (i - p) y 0 else nth i l 0) (seq 0 (length l)).
Definition product (N : nat) (A : nat -> nat -> R) (x : list R) : list R := map (apply_mat N A (fun j => nth j x 0)) (seq 0 N).
(** The first [m] of [d], [z] are orthonormal eigenpairs. *)
Definition eigenpairs (N : nat) (A : nat -> nat -> R) (m : nat) (d : list R) (z : list (list R)) : Prop :=
  (m <= length d)%nat /\ (m <= length z)%nat /\ (forall k, (k < m)%nat -> length (nth k z []) = N) /\ orthonormal N m (fun k i => nth i (nth k z []) 0) /\
  forall k, (k < m)%nat -> eigenvector N A (nth k d 0) (fun i => nth i (nth k z []) 0).
Definition lowest_pairs (N : nat) (A : nat -> nat -> R) (m : nat) (d : list R) (z : list (list R)) : Prop :=
  eigenpairs N A m d z /\ exists e, spectrum N A e /\ forall k, (k < m)%nat -> nth k d 0 = e k.

Section Contract.
Variable St : Type.
Variable fresh : nat -> nat -> option (list R) -> St.
Variable saupd : nat -> Z -> nat -> nat -> Z -> Z -> St -> list R -> reply St.
Variable seupd : nat -> Z -> nat -> St -> list R -> list R * list (list R) * Z.

(** A dialogue in which every product asked for is the one with [A]. *)
Inductive dialogue (N : nat) (nev : Z) (ncv maxit : nat) (A : nat -> nat -> R) : Z -> Z -> St -> list R -> reply St -> Prop :=
| dia_end ido info st w o : saupd N nev ncv maxit ido info st w = o -> r_ido o <> 1%Z -> r_ido o <> (-1)%Z -> dialogue N nev ncv maxit A ido info st w o
| dia_ask ido info st w o o' : saupd N nev ncv maxit ido info st w = o -> r_ido o = 1%Z \/ r_ido o = (-1)%Z ->
    length (r_workd o) = (3 * N)%nat -> (1 <= r_x o)%nat -> (r_x o - 1 + N <= 3 * N)%nat -> (1 <= r_y o)%nat -> (r_y o - 1 + N <= 3 * N)%nat ->
    dialogue N nev ncv maxit A (r_ido o) (r_info o) (r_st o) (splice (r_y o - 1) (product N A (map (fun i => nth (r_x o - 1 + i) (r_workd o) 0) (seq 0 N))) (r_workd o)) o' ->
    dialogue N nev ncv maxit A ido info st w o'.

(** Legal arguments: the dialogue ends.  Status 0: all wanted pairs, lowest first;
    positive status: those that have converged, extraction fails if there are none.
    Illegal arguments: a negative status at once. *)
Definition arpack_contract : Prop := forall N nev ncv maxit (A : nat -> nat -> R) v0, (forall i j, (i < N)%nat -> (j < N)%nat -> A i j = A j i) ->
  match v0 with Some v => (length v <= N)%nat | None => True end ->
  exists o, dialogue N nev ncv maxit A 0 (match v0 with None => 0 | Some _ => 1 end) (fresh N ncv v0) (repeat 0 (3 * N)) o /\
  if ((0 <? nev) && (nev <? Z.of_nat ncv) && (Z.of_nat ncv <=? Z.of_nat N))%Z then
    exists d z ierr, seupd N nev ncv (r_st o) (firstn (2 * N) (r_workd o)) = (d, z, ierr) /\
    ((r_info o < 0)%Z \/
     r_info o = 0%Z /\ Z.of_nat (r_nconv o) = nev /\ (ierr <> 0%Z \/ length d = r_nconv o /\ length z = r_nconv o /\ lowest_pairs N A (r_nconv o) d z) \/
     (0 < r_info o)%Z /\ (Z.of_nat (r_nconv o) <= nev)%Z /\ (if (r_nconv o =? 0)%nat then ierr <> 0%Z else ierr = 0%Z /\ eigenpairs N A (r_nconv o) d z))
  else (r_info o < 0)%Z.
End Contract.
