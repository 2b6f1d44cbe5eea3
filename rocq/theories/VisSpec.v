(** Which eigenstates of a partially filled dictionary the Lanczos Green's
    function averages over. *)
From Coq Require Import Reals List Arith NArith ZArith Bool.
From Verif Require Import Base RBase RLin CBase OperatorsSpec FockSpec SectorModel LocalModel MatvecModel EspaceModel ProjModel ProjSpec LanczosSpec CfSpec GfSpec GflSpec.
Import ListNotations.
Local Open Scope R_scope.

(** The keys reached from a key by adding or removing one electron. *)
Definition targets (n : nat) (ispin : Z) (key : qnums) : list qnums :=
  match key with
  | [p; q] => flat_map (fun op => match moved n op ispin p q with Some (p', q') => [[p'; q']] | None => [] end) [OpCdg; OpC]
  | _ => []
  end.
Definition dim_of (n : nat) (key : qnums) : nat := match key with [p; q] => dimn n p q | _ => 0%nat end.
Definition listed (key : qnums) (hits : list qnums) : bool := existsb (fun k => if list_eq_dec Nat.eq_dec key k then true else false) hits.

Section Visits.
Variable solve : states_t -> res (list R * list (list R)).
Variables (n : nat) (ispin : Z).
(** The sector with all its eigenpairs. *)
Definition renewed (s : sct RRing) : sct RRing :=
  match solve (s_states RRing s) with Ok (w, U) => mksct RRing (s_states RRing s) w (Cols RRing U) | Err _ => s end.
(** A sector of dimension at most 10 is completed once it has been reached. *)
Definition refreshed (hits : list qnums) (e : qnums * sct RRing) : qnums * sct RRing :=
  if (dim_of n (fst e) <=? 10)%nat && listed (fst e) hits then (fst e, renewed (snd e)) else e.
(** The sectors as they are when the loop comes to them, and at the end. *)
Fixpoint visits (hits : list qnums) (es : espace RRing) : espace RRing :=
  match es with
  | [] => []
  | e :: es => refreshed hits e :: visits (hits ++ targets n ispin (fst e)) es
  end.
Definition finally (es : espace RRing) : espace RRing := map (refreshed (flat_map (targets n ispin) (map fst es))) es.
End Visits.

(** The sum over the visited sectors, divided by the partition function of another dictionary. *)
Definition green_over (n : nat) (beta egs : R) (ispin : Z) (vis es : espace RRing) (pos' : nat) (X : fop -> qnums -> nat -> nat -> cx) (ops : list fop) : cx :=
  cxdiv (csuml (map (fun op => csuml (map (contribution n beta egs ispin pos' X op) vis)) ops)) (rcx (Zof beta egs es)).

(** Every stored sector holds orthonormal eigenstates of its Hamiltonian, not necessarily all. *)
Definition eigenstates (n : nat) (M : nat -> nat -> nat -> nat -> R) (es : espace RRing) : Prop :=
  forall p q s, In ([p; q], s) es ->
    orthonormal (dimn n p q) (nvals s) (fun i a => nth a (vec RRing s i) 0) /\
    forall i a, (i < nvals s)%nat -> (a < dimn n p q)%nat -> rsum (dimn n p q) (fun b => M p q a b * nth b (vec RRing s i) 0) = energy s i * nth a (vec RRing s i) 0.
