(** Cotunnelling elements. *)
From Coq Require Import Reals List Arith NArith ZArith Bool.
From Verif Require Import Base RBase RLin OperatorsSpec FockSpec SectorModel MatvecModel EspaceModel ProjModel ProjSpec GfSpec RateModel RateSpec TransSpec CotModel.
Import ListNotations.
Local Open Scope R_scope.

(** One operator acting on spin [s] (0 up, 1 down). *)
Definition moved (op : fop) (s : nat) (p q p' q' : nat) : Prop :=
  match s with O => neighbour op p p' /\ q = q' | S O => p = p' /\ neighbour op q q' | _ => False end.
(** Reached from a ground sector by at most one spin flip. *)
Definition co_reach (n : nat) (es : espace RRing) (egs : R) (p q : nat) : Prop :=
  (p <= n)%nat /\ (q <= n)%nat /\ exists a b, is_ground es egs a b /\ spin_flip (Z.of_nat a, Z.of_nat b) (Z.of_nat p, Z.of_nat q).
(** All sectors needed are stored. *)
Definition co_solved (n : nat) (es : espace RRing) (egs : R) : Prop :=
  NoDup (map fst es) /\
  (forall key s, In (key, s) es -> (0 < nvals s)%nat /\ exists p q, key = [p; q] /\ is_sector RRing n p q s) /\
  (forall p q, co_reach n es egs p q -> exists s, In ([p; q], s) es) /\
  (forall p q p' q', co_reach n es egs p q -> apart p q p' q' -> (p' <= n)%nat -> (q' <= n)%nat -> exists s, In ([p'; q'], s) es).

(** <j| c(+) on site pos and spin s |i> *)
Definition amp (n : nat) (op : fop) (s : nat) (J I : sct RRing) (j i pos : nat) : R :=
  bracket RRing n (lad op (pos + s * n)) J I (vec RRing J j) (vec RRing I i).
Definition side (op : fop) : R := match op with OpCdg => 1 | OpC => -1 end.

(** The path from I through J to F: first [op] on spin [s1], then its reverse on
    spin [s2]; amplitudes and energies of the intermediate states. *)
Definition exact_path (n : nat) (es : espace RRing) (op : fop) (s1 s2 : nat) (g : gf2) : Prop :=
  exists p q i pj qj p' q' f I J F,
    c_I g = [p; q; i] /\ c_F g = [p'; q'; f] /\ c_nsJ g = (pj, qj) /\
    In ([p; q], I) es /\ In ([pj; qj], J) es /\ In ([p'; q'], F) es /\ (i < nvals I)%nat /\ (f < nvals F)%nat /\
    moved op s1 p q pj qj /\ moved (opp_op op) s2 pj qj p' q' /\
    c_vI g = map (fun j => map (fun pos => amp n op s1 J I j i pos) (seq 0 n)) (seq 0 (nvals J)) /\
    c_vF g = map (fun j => map (fun pos => amp n (opp_op op) s2 F J f j pos) (seq 0 n)) (seq 0 (nvals J)) /\
    c_E g = map (fun j => side op * (energy J j - energy I i)) (seq 0 (nvals J)) /\
    c_dE g = energy F f - energy I i.
(** Electron number of spin [s]. *)
Definition count (s p q : nat) : nat := match s with O => p | _ => q end.
(** The process that adds spin [sj] and removes spin [si]: the electron may be
    added first if there is room, or removed first if there is one. *)
Definition exact_sigma (n : nat) (es : espace RRing) (F I : label) (sp : nat * nat) (s : sigma) : Prop :=
  let '(si, sj) := sp in
  exists p q i, I = [p; q; i] /\
  match s with
  | SE e => c_F e = F /\ c_I e = I /\ exact_path n es OpCdg sj si e /\ count si p q = 0%nat /\ (count sj p q < n)%nat
  | SH h => c_F h = F /\ c_I h = I /\ exact_path n es OpC si sj h /\ count sj p q = n /\ (0 < count si p q)%nat
  | SEH e h => c_F e = F /\ c_I e = I /\ c_F h = F /\ c_I h = I /\ exact_path n es OpCdg sj si e /\ exact_path n es OpC si sj h
  end.
(** Spin pairs (removed, added) between two sectors. *)
Definition channels (F I : label) : list (nat * nat) :=
  match F, I with
  | p' :: q' :: _, p :: q :: _ =>
      if (p' =? p)%nat && (q' =? q)%nat then [(0, 0); (1, 1)]%nat
      else if (S p' =? p)%nat && (q' =? S q)%nat then [(0, 1)]%nat
      else if (p' =? S p)%nat && (S q' =? q)%nat then [(1, 0)]%nat else []
  | _, _ => []
  end.

(** Where [Gfun] is not cut off. *)
Definition regular (beta x : R) : Prop := x = 0 \/ (1 / 10 ^ 18 <= beta * Rabs x /\ beta * Rabs x <= 10 ^ 3).
(** The electron is added before the other one leaves. *)
Definition electron_first (s : sigma) : Prop := exists e, s = SE e.
