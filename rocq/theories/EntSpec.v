(** Thermal quantities of a list of levels, independently of the code. *)
From Coq Require Import Reals List Arith.
From Verif Require Import Base RBase RLin DedSpec.
Import ListNotations.
Local Open Scope R_scope.

(** Gibbs entropy (in units of kB) and mean energy of levels [l] at inverse temperature [beta]. *)
Definition level_entropy (beta : R) (l : list R) : R := shannon (length l) (gibbs beta (length l) (fun i => nth i l 0)).
Definition level_energy (beta : R) (l : list R) : R := rsum (length l) (fun i => gibbs beta (length l) (fun i => nth i l 0) i * nth i l 0).
(** Fermi function, and the entropy of one level that is filled with probability [f]. *)
Definition fermi (beta e : R) : R := / (1 + exp (beta * e)).
Definition mode_entropy (f : R) : R := - (f * ln f + (1 - f) * ln (1 - f)).
