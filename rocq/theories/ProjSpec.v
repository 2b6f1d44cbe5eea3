(** Matrix elements of ladder operators between states of two sectors. *)
From Coq Require Import List Arith NArith ZArith Bool.
From Verif Require Import Base OperatorsSpec FockSpec SectorModel LocalModel MatvecModel EspaceModel ProjModel.
Import ListNotations.

(** The ladder operator on orbital [i]. *)
Definition lad (op : fop) (i : nat) : ladder_op := match op with OpC => An i | OpCdg => Cr i end.
(** Particle numbers before and after. *)
Definition neighbour (op : fop) (p p' : nat) : Prop := match op with OpC => p = S p' | OpCdg => p' = S p end.
Definition opp_op (op : fop) : fop := match op with OpC => OpCdg | OpCdg => OpC end.

Section Spec.
Variable K : CRing.
Local Open Scope cr_scope.

Definition ups (s : sct K) : list N := match s_states K s with StSz u _ => u | StN _ => [] end.
Definition dws (s : sct K) : list N := match s_states K s with StSz _ d => d | StN _ => [] end.
Definition vec (s : sct K) (k : nat) : list K := match s_vecs K s with Cols _ cs => nth k cs [] | _ => [] end.

(** A solved sector with [p] up and [q] down electrons on [n] sites. *)
Definition is_sector (n p q : nat) (s : sct K) : Prop :=
  (p <= n)%nat /\ (q <= n)%nat /\ (n <= 32)%nat /\ s_states K s = StSz (ups s) (dws s) /\
  generate_states n p = Ok (ups s) /\ generate_states n q = Ok (dws s) /\
  exists cs, s_vecs K s = Cols K cs /\ length cs = length (s_vals K s) /\
    forall x, In x cs -> length x = (length (ups s) * length (dws s))%nat.

(** Number of basis states, and the Fock state of 2n orbitals at position [a]. *)
Definition sdim (s : sct K) : nat := (length (dws s) * length (ups s))%nat.
Definition basis (n : nat) (s : sct K) (a : nat) : N :=
  combine n (nth (a mod length (ups s)) (ups s) 0%N) (nth (a / length (ups s)) (dws s) 0%N).

(** Component [a] (over the basis of J) of the operator applied to the vector
    [phi] over the basis of I. *)
Definition applied (n : nat) (o : ladder_op) (J I : sct K) (phi : list K) (a : nat) : K :=
  nsum (sdim I) (fun b => z2k (elem (2 * n) [o] (basis n J a) (basis n I b)) * nth b phi 0).
(** <psi| o |phi> *)
Definition bracket (n : nat) (o : ladder_op) (J I : sct K) (psi phi : list K) : K :=
  nsum (sdim J) (fun a => nth a psi 0 * applied n o J I phi a).
End Spec.
