(** The thermal Green's function in Lehmann form. *)
From Coq Require Import Reals List Arith NArith ZArith Bool.
From Verif Require Import Base RBase RLin CBase OperatorsSpec FockSpec SectorModel LocalModel MatvecModel EspaceModel ProjModel ProjSpec.
Import ListNotations.
Local Open Scope R_scope.

Definition energy (s : sct RRing) (k : nat) : R := nth k (s_vals RRing s) 0.
Definition nvals (s : sct RRing) : nat := length (s_vals RRing s).

(** The eigenvectors of the sector are a complete orthonormal basis. *)
Definition eigenbasis (s : sct RRing) : Prop :=
  nvals s = sdim RRing s /\ orthonormal (sdim RRing s) (sdim RRing s) (fun k i => nth i (vec RRing s k) 0).

(** A family of sectors, one per pair of electron numbers. *)
Definition family := nat -> nat -> sct RRing.
(** [es] lists the family, in any order. *)
Definition lists_family (n : nat) (es : espace RRing) (F : family) : Prop :=
  NoDup (map fst es) /\
  (forall key s, In (key, s) es <-> exists p q, (p <= n)%nat /\ (q <= n)%nat /\ key = [p; q] /\ s = F p q) /\
  forall p q, (p <= n)%nat -> (q <= n)%nat -> is_sector RRing n p q (F p q).

Definition weight (beta egs E : R) : R := exp (- beta * (E - egs)).
Definition Zsum (n : nat) (beta egs : R) (F : family) : R :=
  rsum (S n) (fun p => rsum (S n) (fun q => rsum (nvals (F p q)) (fun i => weight beta egs (energy (F p q) i)))).

(** Square of <j| o |i> between two sectors. *)
Definition bra2 (n : nat) (o : ladder_op) (J I : sct RRing) (j i : nat) : R :=
  bracket RRing n o J I (vec RRing J j) (vec RRing I i) ^ 2.

(** Unnormalised Lehmann sum for adding an up electron on site [pos]. *)
Definition lehmann_up (n pos : nat) (beta egs : R) (F : family) (z : cx) : cx :=
  csum n (fun p => csum (S n) (fun q =>
    csum (nvals (F (S p) q)) (fun j => csum (nvals (F p q)) (fun i =>
      cxdiv (rcx (bra2 n (Cr pos) (F (S p) q) (F p q) j i * (weight beta egs (energy (F (S p) q) j) + weight beta egs (energy (F p q) i))))
            (cxsub z (rcx (energy (F (S p) q) j - energy (F p q) i))))))).
