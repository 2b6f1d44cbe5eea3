(** Tunnelling between sectors labelled by the total number of electrons. *)
From Coq Require Import Reals List Arith NArith ZArith Bool.
From Verif Require Import Base RBase RLin OperatorsSpec FockSpec SectorModel LocalModel MatvecModel EspaceModel ProjModel ProjSpec GfSpec RateModel RateSpec TransSpec.
Import ListNotations.
Local Open Scope R_scope.

Definition nst (s : sct RRing) : list N := match s_states RRing s with StN l => l | StSz _ _ => [] end.
(** A solved sector with [N] electrons in the 2n orbitals of [n] sites. *)
Definition nsector (n N : nat) (s : sct RRing) : Prop :=
  (N <= 2 * n)%nat /\ (2 * n <= 32)%nat /\ s_states RRing s = StN (nst s) /\ generate_states (2 * n) N = Ok (nst s) /\ (0 < nvals s)%nat /\
  exists cs, s_vecs RRing s = Cols RRing cs /\ length cs = nvals s /\ forall x, In x cs -> length x = length (nst s).
(** Distinct sectors, each with at least one state. *)
Definition nsolved (n : nat) (es : espace RRing) : Prop :=
  NoDup (map fst es) /\ forall key s, In (key, s) es -> exists N, key = [N] /\ nsector n N s.
Definition stored (es : espace RRing) (N : nat) : Prop := exists s, In ([N], s) es.

(** <j| c(+) |i> for the orbital [orb]; up spins come first. *)
Definition namp (n : nat) (op : fop) (orb : nat) (J I : sct RRing) (j i : nat) : R :=
  rsum (length (nst J)) (fun a => rsum (length (nst I)) (fun b =>
    nth a (vec RRing J j) 0 * z2k (K := RRing) (elem (2 * n) [lad op orb] (nth a (nst J) 0%N) (nth b (nst I) 0%N)) * nth b (vec RRing I i) 0)).
Definition namps (n spin : nat) (op : fop) (J I : sct RRing) (j i : nat) : list R :=
  map (fun pos => namp n op (pos + spin * n) J I j i) (seq 0 n).

(** The element for the transition from state i of one sector to state j of another. *)
Definition exact_nel (n : nat) (es : espace RRing) (spin : nat) (g : gfel) : Prop :=
  exists NI i NJ j I J op,
    g_I g = [NI; i] /\ g_F g = [NJ; j] /\ In ([NI], I) es /\ In ([NJ], J) es /\ (i < nvals I)%nat /\ (j < nvals J)%nat /\
    neighbour op NI NJ /\ g_v g = namps n spin op J I j i /\
    match op with
    | OpCdg => g_kind g = Electron /\ g_E g = energy J j - energy I i
    | OpC => g_kind g = Hole /\ g_E g = energy I i - energy J j
    end.

(** Transitions between [lo] and [lo]+1 electrons are considered: one of the two is the
    chosen number, and the other is neither 0 nor 2n. *)
Definition linked (n N lo : nat) : Prop := (lo = N /\ (N + 1 < 2 * n)%nat) \/ (S lo = N /\ (1 < N)%nat).
Definition is_state (es : espace RRing) (N k : nat) : Prop := exists s, In ([N], s) es /\ (k < nvals s)%nat.
Definition considered (n : nat) (es : espace RRing) (N : nat) (F I : label) : Prop :=
  exists lo a b, linked n N lo /\ is_state es (S lo) a /\ is_state es lo b /\ ((F = [S lo; a] /\ I = [lo; b]) \/ (F = [lo; b] /\ I = [S lo; a])).

(** Python's order of pairs of tuples. *)
Definition kbefore (a b : key2) : Prop := before (fst a) (fst b) \/ (fst a = fst b /\ before (snd a) (snd b)).

(** The first stored sector with the lowest of all energies. *)
Definition lowest (es : espace RRing) (N : nat) (E : R) : Prop :=
  exists es1 s es2, es = es1 ++ ([N], s) :: es2 /\ In E (s_vals RRing s) /\
    (forall k t x, In (k, t) es -> In x (s_vals RRing t) -> E <= x) /\
    (forall k t x, In (k, t) es1 -> In x (s_vals RRing t) -> E < x).

(** Energy and number of electrons of a labelled state. *)
Definition nstate_energy (es : espace RRing) (id : label) (E : R) : Prop :=
  exists N k s, id = [N; k] /\ In ([N], s) es /\ (k < nvals s)%nat /\ E = energy s k.
Definition nelectrons (id : label) : R := match id with N :: _ => INR N | [] => 0 end.
(** Grand canonical weights, up to a common factor. *)
Definition ngibbs (beta mu : R) (E : label -> R) (id : label) : R := exp (- beta * (E id - mu * nelectrons id)).

(** The number of electrons asked for or, without one, that of the ground state. *)
Definition chosen (es : espace RRing) (No : option nat) (N : nat) : Prop := match No with Some M => M = N | None => exists E, lowest es N E end.
(** All sectors that are needed have been solved. *)
Definition links_stored (n : nat) (es : espace RRing) (N : nat) : Prop := forall lo, linked n N lo -> stored es lo /\ stored es (S lo).
(** Charge (number of electrons per unit time) carried by the signed rates [T] in the distribution [p]. *)
Definition current (sz : nat) (T : mat) (p : nat -> R) : R := rsum sz (fun f => rsum sz (fun i => T f i * p i)).
(** No addition energy is more than 100 kT away from the chemical potential. *)
Definition unclipped (es : espace RRing) (beta m : R) : Prop := forall id id' x y, nstate_energy es id x -> nstate_energy es id' y ->
  nelectrons id' = nelectrons id + 1 -> Rabs (beta * (y - x - m)) <= 100.
