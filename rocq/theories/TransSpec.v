(** Sequential tunnelling elements and equilibrium. *)
From Coq Require Import Reals List Arith NArith ZArith Bool.
From Verif Require Import Base RBase RLin OperatorsSpec FockSpec SectorModel MatvecModel EspaceModel ProjModel ProjSpec GfSpec RateModel RateSpec.
Import ListNotations.
Local Open Scope R_scope.

(** The lowest stored energy of the sector is within 1e-9 of [egs]. *)
Definition is_ground (es : espace RRing) (egs : R) (p q : nat) : Prop :=
  exists s m, In ([p; q], s) es /\ In m (s_vals RRing s) /\ (forall x, In x (s_vals RRing s) -> m <= x) /\ Rabs (m - egs) < 1 / 1000000000.
(** Sectors one electron apart. *)
Definition apart (p q p' q' : nat) : Prop := exists op, (neighbour op p p' /\ q = q') \/ (p = p' /\ neighbour op q q').
(** A ground sector or, within the Hilbert space, one electron away from it. *)
Definition reachable (n : nat) (es : espace RRing) (egs : R) (p q : nat) : Prop :=
  is_ground es egs p q \/ exists p' q', is_ground es egs p' q' /\ apart p' q' p q /\ (p <= n)%nat /\ (q <= n)%nat.

(** The solved eigenspace: distinct sectors, with at least one state each, and
    every reachable sector is among them. *)
Definition solved (n : nat) (es : espace RRing) (egs : R) : Prop :=
  NoDup (map fst es) /\
  (forall key s, In (key, s) es -> (0 < nvals s)%nat /\ exists p q, key = [p; q] /\ is_sector RRing n p q s) /\
  (forall p q, reachable n es egs p q -> exists s, In ([p; q], s) es).

(** Amplitudes <j| c(+)_pos |i> on all sites; the matrix elements of spin up
    carry the parity of the down electrons. *)
Definition amps_up (n q : nat) (op : fop) (J I : sct RRing) (j i : nat) : list R :=
  map (fun pos => z2k (K := RRing) (parity_sign q) * bracket RRing n (lad op pos) J I (vec RRing J j) (vec RRing I i)) (seq 0 n).
Definition amps_dw (n : nat) (op : fop) (J I : sct RRing) (j i : nat) : list R :=
  map (fun pos => bracket RRing n (lad op (pos + n)) J I (vec RRing J j) (vec RRing I i)) (seq 0 n).
Definition opposite (k : gkind) : gkind := match k with Electron => Hole | Hole => Electron end.

(** An element from state i of a sector to state j of one an electron apart. *)
Definition exact_element (n : nat) (es : espace RRing) (g : gfel) : Prop :=
  exists p q i p' q' j I J op,
    g_I g = [p; q; i] /\ g_F g = [p'; q'; j] /\ In ([p; q], I) es /\ In ([p'; q'], J) es /\
    (i < nvals I)%nat /\ (j < nvals J)%nat /\
    ((neighbour op p p' /\ q = q' /\ g_v g = amps_up n q op J I j i) \/
     (p = p' /\ neighbour op q q' /\ g_v g = amps_dw n op J I j i)) /\
    match op with
    | OpCdg => g_kind g = Electron /\ g_E g = energy J j - energy I i
    | OpC => g_kind g = Hole /\ g_E g = energy I i - energy J j
    end.

(** The same process backwards. *)
Definition conj_el (g g' : gfel) : Prop :=
  g_F g' = g_I g /\ g_I g' = g_F g /\ g_v g' = g_v g /\ g_E g' = g_E g /\ g_kind g' = opposite (g_kind g).
(** A dictionary of exact elements, closed under reversal. *)
Definition paired (n : nat) (es : espace RRing) (d : list (key2 * gfel)) : Prop :=
  NoDup (map fst d) /\ (forall k g, In (k, g) d -> k = (g_F g, g_I g) /\ exact_element n es g) /\
  (forall F I g, In ((F, I), g) d -> exists g', In ((I, F), g') d /\ conj_el g g').

(** Energy of a labelled state. *)
Definition state_energy (es : espace RRing) (id : label) (E : R) : Prop :=
  exists p q k s, id = [p; q; k] /\ In ([p; q], s) es /\ (k < nvals s)%nat /\ E = energy s k.
(** Within [c] of the ground state energy. *)
Definition near (es : espace RRing) (egs c : R) (id : label) : Prop := exists E, state_energy es id E /\ Rabs (E - egs) < c.

(** ** Equilibrium *)
Definition electrons (id : label) : R := match id with p :: q :: _ => INR (p + q) | _ => 0 end.
(** Grand canonical weights, up to a common factor. *)
Definition gibbs (beta mu : R) (E : label -> R) (id : label) : R := exp (- beta * (E id - mu * electrons id)).
