(** An impurity (site 0) coupled to a star of bath levels. *)
From Coq Require Import Reals List Arith NArith ZArith Bool.
From Verif Require Import Base RBase RLin CBase OperatorsSpec FockSpec SectorModel LocalModel MatvecModel EspaceModel ProjModel ProjSpec LanczosSpec CfSpec GfSpec GmSpec GflSpec.
Import ListNotations.
Local Open Scope R_scope.

(** Energy of the doubly occupied sites, and the Hamiltonian with hopping [h s x y] and a repulsion on each site. *)
Definition repel (n : nat) (u : nat -> R) (t : N) : R := rsum n (fun i => if occ t i && occ t (i + n) then u i else 0).
Definition hubbard (n : nat) (h : nat -> nat -> nat -> R) (u : nat -> R) (t s : N) : R := free_ham n h t s + (if N.eqb t s then repel n u s else 0).
(** Spin [1 - s] on site [k]. *)
Definition other (n s k : nat) : nat := (k + (1 - s) * n)%nat.
Definition occR (t : N) (i : nat) : R := if occ t i then 1 else 0.
(** Hamiltonian matrices of the sectors, up to a constant energy. *)
Definition hubbard_family (n : nat) (h : nat -> nat -> nat -> R) (u : nat -> R) (c : R) (M : nat -> nat -> nat -> nat -> R) : Prop :=
  forall p q a b, (p <= n)%nat -> (q <= n)%nat -> (a < dimn n p q)%nat -> (b < dimn n p q)%nat ->
    M p q a b = hubbard n h u (basis RRing n (bare n p q) a) (basis RRing n (bare n p q) b) + (if (a =? b)%nat then c else 0).
(** The hopping of the spin [s] is a star around the site 0, and only that site has a repulsion. *)
Definition star (n s : nat) (h : nat -> nat -> nat -> R) (u : nat -> R) (e0 : R) (ek vk : nat -> R) : Prop :=
  h s 0%nat 0%nat = e0 /\ forall k, (0 < k < n)%nat -> u k = 0 /\ forall l, (l < n)%nat -> h s l k = if (l =? 0)%nat then vk k else if (l =? k)%nat then ek k else 0.
Definition symmetric_hopping (n : nat) (h : nat -> nat -> nat -> R) : Prop :=
  forall s x y, (s < 2)%nat -> (x < n)%nat -> (y < n)%nat -> h s x y = h s y x.
(** The hybridisation of the star, and the weighted occupation of an orbital. *)
Definition hybridisation (n : nat) (ek vk : nat -> R) (z : cx) : cx :=
  csum (n - 1) (fun k => cxdiv (rcx (vk (S k) * vk (S k))) (cxsub z (rcx (ek (S k))))).
Definition occupation (n : nat) (beta egs : R) (es : espace RRing) (i : nat) : R :=
  rsuml (map (fun e => rsum (nvals (snd e)) (fun k => weight beta egs (energy (snd e) k) *
    rsum (sdim RRing (snd e)) (fun b => occR (basis RRing n (snd e) b) i * nth b (vec RRing (snd e) k) 0 ^ 2))) es).
(** What is left of the inverse of a function after the level and the hybridisation are taken off. *)
Definition bare_inverse (n : nat) (e0 : R) (ek vk : nat -> R) (z : cx) : cx := cxsub (cxsub z (rcx e0)) (hybridisation n ek vk z).
Definition self_energy (n : nat) (e0 : R) (ek vk : nat -> R) (z g : cx) : cx := cxsub (bare_inverse n e0 ek vk z) (cxinv g).
