(** Rate equations. *)
From Coq Require Import Reals List Arith ZArith Bool Sorted.
From Verif Require Import Base RBase RLin CBase RateModel.
Import ListNotations.
Local Open Scope R_scope.

(** Strictly before in Python's order of tuples. *)
Inductive before : label -> label -> Prop :=
| before_nil y b : before [] (y :: b)
| before_lt x y a b : (x < y)%nat -> before (x :: a) (y :: b)
| before_eq x a b : before a b -> before (x :: a) (x :: b).

(** Rate from [I] to [F]: the value of the stored element, 0 if there is none or
    its evaluation raises. *)
Definition rate_of {V L} (call : V -> L -> res R) (d : list (key2 * V)) (lead : L) (F I : label) : R :=
  bsum (K := RRing) (fun e => if list_eq_dec Nat.eq_dec (fst (fst e)) F then if list_eq_dec Nat.eq_dec (snd (fst e)) I
     then match call (snd e) lead with Ok g => g | Err _ => 0 end else 0 else 0) d.
Definition lsum {L} (f : L -> R) (l : list L) : R := bsum (K := RRing) f l.

(** Generator of a Markov process on [sz] states, acting on columns. *)
Definition conserves (sz : nat) (W : mat) : Prop := forall i, (i < sz)%nat -> rsum sz (fun f => W f i) = 0.
Definition rate_signs (sz : nat) (W : mat) : Prop :=
  forall f i, (f < sz)%nat -> (i < sz)%nat -> if (f =? i)%nat then W f i <= 0 else 0 <= W f i.
Definition rate_matrix (sz : nat) (W : mat) : Prop := conserves sz W /\ rate_signs sz W.

(** Stationary vectors. *)
Definition stationary (sz : nat) (W : mat) (p : nat -> R) : Prop := forall f, (f < sz)%nat -> rsum sz (fun i => W f i * p i) = 0.
(** Any two stationary vectors are proportional. *)
Definition unique_stationary (sz : nat) (W : mat) : Prop := forall x y, stationary sz W x -> stationary sz W y ->
  exists a b, ~ (a = 0 /\ b = 0) /\ forall i, (i < sz)%nat -> a * x i + b * y i = 0.
(** What the eigensolver is trusted for: right eigenpairs, real vectors for
    real eigenvalues, and no real eigenvalue missing. *)
Definition eig_ok (sz : nat) (W : mat) (w : list cx) (v : list (list cx)) : Prop :=
  length v = length w /\
  (forall j, (j < length w)%nat ->
     length (nth j v []) = sz /\
     (exists i, (i < sz)%nat /\ nth i (nth j v []) (rcx 0) <> rcx 0) /\
     (forall f, (f < sz)%nat -> csum sz (fun i => cxmul (rcx (W f i)) (nth i (nth j v []) (rcx 0))) = cxmul (nth j w (rcx 0)) (nth f (nth j v []) (rcx 0))) /\
     (im (nth j w (rcx 0)) = 0 -> forall i, (i < sz)%nat -> im (nth i (nth j v []) (rcx 0)) = 0)) /\
  (forall (x : nat -> R) lam, (exists i, (i < sz)%nat /\ x i <> 0) ->
     (forall f, (f < sz)%nat -> rsum sz (fun i => W f i * x i) = lam * x f) -> In (rcx lam) w).

(** Neighbouring sectors: one electron more or less. *)
Definition one_electron (a b : Z * Z) : Prop := (Z.abs (fst a - fst b) + Z.abs (snd a - snd b) = 1)%Z.
Definition legal (n : nat) (s : Z * Z) : Prop := (0 <= fst s <= Z.of_nat n /\ 0 <= snd s <= Z.of_nat n)%Z.
Definition active (n : nat) (ngs : list (Z * Z)) (s : Z * Z) : Prop :=
  In s ngs \/ exists g, In g ngs /\ one_electron g s /\ legal n s.
(** Cotunnelling: a ground sector, one with a spin flipped, or one electron more
    or less than any of these. *)
Definition spin_flip (a b : Z * Z) : Prop := exists k, (k = -1 \/ k = 0 \/ k = 1)%Z /\ b = ((fst a + k)%Z, (snd a - k)%Z).
Definition co_active (ngs : list (Z * Z)) (s : Z * Z) : Prop :=
  exists g r, In g ngs /\ spin_flip g r /\ (s = r \/ one_electron r s).

(** Scalar product of two vectors of equal length. *)
Definition overlap (v a : list R) : R := rsum (length v) (fun i => nth i v 0 * nth i a 0).
