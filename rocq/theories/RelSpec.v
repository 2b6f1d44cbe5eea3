(** Models that differ by a renumbering of the sites, an exchange of the spins, signs of the
    orbitals and an exchange of electrons and holes. *)
From Coq Require Import Reals List Arith NArith ZArith Bool.
From Verif Require Import Base RBase RLin CBase OperatorsSpec FockSpec LocalModel LocalSpec HoppingModel CsrSpec NonLocalSpec MatvecModel MbModel MbSpec EspaceModel ProjSpec GfSpec GmSpec SymSpec.
Import ListNotations.
Local Open Scope R_scope.

(** What the Hamiltonian depends on: levels, interaction, charges, the mode, hoppings and couplings. *)
Record params := mkparams { P_e : nat -> nat -> R; P_U : nat -> nat -> R; P_z : nat -> R; P_hf : bool; P_T : nat -> nat -> nat -> R; P_Jx : nat -> nat -> R; P_Jp : nat -> nat -> R }.
Definition params_of (big : R -> bool) (h : hmat RRing) (V : inter RRing) (hf : bool) (mu : R) (z : option (nat -> R)) (U : nat -> nat -> R) : params :=
  mkparams (fun s i => hspin RRing h s i i + mu) U (zfun RRing hf z) hf (fun s => offdiag RRing big (hspin RRing h s))
    (opt_offdiag RRing big (inter_Jx RRing V)) (opt_offdiag RRing big (inter_Jp RRing V)).

(** Level of site [i] measured from the point of particle-hole symmetry, and the energy of that point. *)
Definition p_shift (P : params) : R := / 2 - (if P_hf P then / 2 else 0).
Definition centred (n : nat) (P : params) (s i : nat) : R :=
  P_e P s i + P_U P i i * p_shift P + / 2 * rsum n (fun j => if (i =? j)%nat then 0 else (P_U P i j + P_U P j i) * (1 - P_z P j)).
Definition offset (n : nat) (P : params) : R :=
  rsum n (fun i => / 2 * (P_e P 0%nat i + P_e P 1%nat i) + P_U P i i * (p_shift P * p_shift P)) +
  / 2 * rsum n (fun i => rsum n (fun j => if (i =? j)%nat then 0 else P_U P i j * ((1 - P_z P i) * (1 - P_z P j)))).

Definition pm (b : bool) : R := if b then -1 else 1.
Definition spin' (sw : bool) (s : nat) : nat := if sw then (1 - s)%nat else s.
(** [P'] is [P] with site [x] renamed [rho x] and its orbitals multiplied by the sign [sg x], the spins
    exchanged if [sw], electrons and holes exchanged if [hole]. *)
Record related (n : nat) (hole sw : bool) (rho : nat -> nat) (sg : nat -> bool) (P P' : params) : Prop := mkrelated {
  rel_rho : renumbering n rho;
  rel_T : forall s x y, (s < 2)%nat -> (x < n)%nat -> (y < n)%nat -> P_T P' (spin' sw s) (rho x) (rho y) = pm hole * (pm (sg x) * pm (sg y)) * P_T P s x y;
  rel_U : forall x y, (x < n)%nat -> (y < n)%nat -> P_U P' (rho x) (rho y) = P_U P x y;
  rel_e : forall s x, (s < 2)%nat -> (x < n)%nat -> centred n P' (spin' sw s) (rho x) = pm hole * centred n P s x;
  rel_Jx : forall x y, (x < n)%nat -> (y < n)%nat -> P_Jx P' (rho x) (rho y) = P_Jx P x y /\ (hole = true -> P_Jx P x y = 0);
  rel_Jp : forall x y, (x < n)%nat -> (y < n)%nat -> P_Jp P' (rho x) (rho y) = P_Jp P x y /\ (hole = true -> P_Jp P x y = 0) }.

(** Particle numbers in the second model. *)
Definition image_up (n : nat) (hole sw : bool) (p q : nat) : nat := let r := if sw then q else p in if hole then (n - r)%nat else r.
Definition image_dw (n : nat) (hole sw : bool) (p q : nat) : nat := let r := if sw then p else q in if hole then (n - r)%nat else r.
(** Frequency, and occupation. *)
Definition image_z (hole : bool) (z : cx) : cx := if hole then cxopp z else z.
Definition image_occ (hole : bool) (x : R) : R := if hole then 1 - x else x.
(** Occupations of spin [s] in the pair (up, down) of [get_occupation]. *)
Definition pick (s : nat) (ud : list R * list R) : list R := match s with O => fst ud | _ => snd ud end.

(** The same one-body matrix for both spins. *)
Definition spin_free (n : nat) (h : hmat RRing) : Prop := forall x y, (x < n)%nat -> (y < n)%nat -> hspin RRing h 1 x y = hspin RRing h 0 x y.
(** Two classes of sites, told apart by [sg], with hopping between the classes only, the levels at the
    point of particle-hole symmetry, and no exchange. *)
Definition half_filled (n : nat) (big : R -> bool) (h : hmat RRing) (V : inter RRing) (hf : bool) (mu : R) (z : option (nat -> R)) (U : nat -> nat -> R) (sg : nat -> bool) : Prop :=
  (forall s x y, (s < 2)%nat -> (x < n)%nat -> (y < n)%nat -> x <> y -> sg x = sg y -> hspin RRing h s x y = 0) /\
  (forall s x, (s < 2)%nat -> (x < n)%nat -> centred n (params_of big h V hf mu z U) s x = 0) /\ inter_Jx RRing V = None.
(** Half of the interaction with the other electrons of a filled shell. *)
Definition lowered (n : nat) (U : nat -> nat -> R) (i : nat) : R := / 2 * U i i + / 2 * rsum n (fun j => if (i =? j)%nat then 0 else U i j + U j i).
