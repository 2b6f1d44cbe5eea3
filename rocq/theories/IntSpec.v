(** The cotunnelling integrals as sums of direct and interference terms. *)
From Coq Require Import Reals List.
From Verif Require Import Base RBase CBase.
Import ListNotations.
Local Open Scope R_scope.

Section Spec.
Variable psi : nat -> cx -> cx.
Variables (mu : R * R) (beta : R).
(** The difference of potentials in units of the temperature. *)
Definition bias : R := (snd mu - fst mu) * beta.
Definition occupation : R := / (exp bias - 1).
Definition scaled (e : R) : R := beta / (2 * PI) * e.
(** A pole of unit amplitude at [e]. *)
Definition direct (e : R) : R :=
  beta / (2 * PI) * occupation * (im (psi 1 (1 / 2, scaled (snd mu - e))) - im (psi 1 (1 / 2, scaled (fst mu - e)))).
(** Near equal potentials: the first terms of the series of the occupation. *)
Definition bose_series (t : R) : R := / t - / 2 + t / 12 - t ^ 3 / 720.
Definition direct_near (e : R) : R :=
  beta / (2 * PI) * bose_series bias * (im (psi 1 (1 / 2, scaled (snd mu - e))) - im (psi 1 (1 / 2, scaled (fst mu - e)))).
(** The primitive whose difference quotient is the interference of two poles. *)
Definition mixed (e : R) : R := re (psi 0 (1 / 2, scaled (e - snd mu))) - re (psi 0 (1 / 2, scaled (e - fst mu))).
Definition interference (e e' : R) : R := occupation * ((mixed e - mixed e') / (e - e')).

(** Sum over the poles and over the pairs of poles; a pole is (amplitude, energy). *)
Fixpoint directs (l : list (R * R)) : R := match l with [] => 0 | p :: l => fst p ^ 2 * direct (snd p) + directs l end.
Fixpoint with_each (p : R * R) (l : list (R * R)) : R := match l with [] => 0 | q :: l => fst p * fst q * interference (snd p) (snd q) + with_each p l end.
Fixpoint pairs (l : list (R * R)) : R := match l with [] => 0 | p :: l => with_each p l + pairs l end.
End Spec.

(** What is used of the polygamma functions on the line 1/2 + i t: the first is
    the derivative of the zeroth, is continuous, and takes conjugate values at
    conjugate points. *)
Definition polygamma_line (psi : nat -> cx -> cx) : Prop :=
  (forall t, derivable_pt_lim (fun t => re (psi 0%nat (1 / 2, t))) t (- im (psi 1%nat (1 / 2, t)))) /\
  (forall t, continuity_pt (fun t => im (psi 1%nat (1 / 2, t))) t) /\
  (forall t, im (psi 1%nat (1 / 2, - t)) = - im (psi 1%nat (1 / 2, t))).
