(** The matrix of thermal Green's functions in Lehmann form, and free electrons. *)
From Coq Require Import Reals List Arith NArith ZArith Bool.
From Verif Require Import Base RBase RLin CBase OperatorsSpec FockSpec SectorModel LocalModel MatvecModel EspaceModel ProjModel ProjSpec GfSpec.
Import ListNotations.
Local Open Scope R_scope.

(** The sector with [m] electrons of spin [s] (0 up, 1 down) and [o] of the other. *)
Definition of_spin (F : family) (s m o : nat) : sct RRing := match s with O => F m o | _ => F o m end.
(** <j| c+ on site x and spin s |i> *)
Definition add_amp (n s x : nat) (J I : sct RRing) (j i : nat) : R :=
  bracket RRing n (Cr (x + s * n)) J I (vec RRing J j) (vec RRing I i).

(** Unnormalised Lehmann sum <<c_x ; c+_y>>. *)
Definition lehmann (n s x y : nat) (beta egs : R) (F : family) (z : cx) : cx :=
  csum n (fun m => csum (S n) (fun o => let I := of_spin F s m o in let J := of_spin F s (S m) o in
    csum (nvals J) (fun j => csum (nvals I) (fun i =>
      cxdiv (rcx (add_amp n s x J I j i * add_amp n s y J I j i * (weight beta egs (energy J j) + weight beta egs (energy I i))))
            (cxsub z (rcx (energy J j - energy I i))))))).

(** <u| sum_xy h(s)_xy c+_xs c_ys |t> in the Fock space of 2n orbitals. *)
Definition free_ham (n : nat) (h : nat -> nat -> nat -> R) (u t : N) : R :=
  rsum 2 (fun s => rsum n (fun x => rsum n (fun y => h s x y * @z2k RRing (elem (2 * n) [Cr (x + s * n); An (y + s * n)] u t)))).
(** The sectors hold eigenpairs of the free Hamiltonian. *)
Definition free_pairs (n : nat) (h : nat -> nat -> nat -> R) (F : family) : Prop :=
  forall p q, (p <= n)%nat -> (q <= n)%nat -> forall k a, (k < nvals (F p q))%nat -> (a < sdim RRing (F p q))%nat ->
    rsum (sdim RRing (F p q)) (fun b => free_ham n h (basis RRing n (F p q) a) (basis RRing n (F p q) b) * nth b (vec RRing (F p q) k) 0)
    = energy (F p q) k * nth a (vec RRing (F p q) k) 0.

(** Two square complex matrices are inverse to each other. *)
Definition delta (x y : nat) : cx := if (x =? y)%nat then rcx 1 else rcx 0.
Definition inverse_mat (n : nat) (A B : nat -> nat -> cx) : Prop := forall x y, (x < n)%nat -> (y < n)%nat ->
  csum n (fun c => cxmul (A x c) (B c y)) = delta x y /\ csum n (fun c => cxmul (B x c) (A c y)) = delta x y.
(** z - h *)
Definition shifted_mat (z : cx) (h : nat -> nat -> R) (x y : nat) : cx := cxsub (cxmul z (delta x y)) (rcx (h x y)).
Definition entry (G : list (list cx)) (x y : nat) : cx := nth y (nth x G []) (rcx 0).

(** What numpy.linalg.eigh returns for a symmetric matrix: as many pairs as rows,
    with orthonormal vectors. *)
Definition eigh_complete (eigh : dense RRing -> res (list R * list (list R))) : Prop := forall D vals cols, d_rows RRing D = d_cols RRing D ->
  (forall a b, (a < d_rows RRing D)%nat -> (b < d_rows RRing D)%nat -> d_at RRing D a b = d_at RRing D b a) -> eigh D = Ok (vals, cols) ->
  length vals = d_rows RRing D /\ length cols = d_rows RRing D /\ orthonormal (d_rows RRing D) (d_rows RRing D) (fun k i => nth i (nth k cols []) 0).
(** One-body matrix after the chemical potential and the threshold on the hoppings. *)
Definition one_body (big : R -> bool) (mu : R) (h : nat -> nat -> nat -> R) (s x y : nat) : R :=
  if (x =? y)%nat then h s x x + mu else if big (h s x y) then h s x y else 0.
