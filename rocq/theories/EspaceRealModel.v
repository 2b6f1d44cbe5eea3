(** The screening criterion of edpyt/espace.py over the reals. *)
From Coq Require Import Reals.
From Verif Require Import Base RBase.
Local Open Scope R_scope.

(** [np.exp(-beta*(e-egs)) > cutoff] (espace.py:211). *)
Definition boltzmann (beta egs cutoff e : R) : bool := Rltb cutoff (exp (- beta * (e - egs))).
