(** Model of the density of states in the script edpyt/ded.py. *)
From Coq Require Import Reals.
From Verif Require Import Base RBase CBase.
Local Open Scope R_scope.

(** ded.py:24-29 [lorentzian_function]: the value of [inner] at [z]; [np.pi] is PI and
    0.5 is exact.  Simplification: gamma = 0 at z = z0 (NaN with a warning) divides by 0. *)
Definition lorentzian (gamma z0 z : R) : R := 1 / PI * (/ 2 * gamma) / ((z - z0) * (z - z0) + (/ 2 * gamma) * (/ 2 * gamma)).
(** ded.py:97 [dos = lorentzian_function(2*0.3, ed+sigma0)]; [delta] is 0.3. *)
Definition script_dos (delta ed sigma0 z : R) : R := lorentzian (2 * delta) (ed + sigma0) z.
(** ded.py:125-126 [gf = 1 / (w -ed -sigma -sigma0 + 0.3j)] and [-1/np.pi * gf.imag]. *)
Definition script_gf (delta ed sigma0 : R) (sigma w : cx) : cx := cxinv (cxadd (cxsub (cxsub (cxsub w (rcx ed)) sigma) (rcx sigma0)) (0, delta)).
Definition script_plot (delta ed sigma0 : R) (sigma w : cx) : R := - 1 / PI * im (script_gf delta ed sigma0 sigma w).
