(** The documented energy of a Fock state (ham_local.py:20-23, and the
    half-filling variant), independent of the model. *)
From Coq Require Import List Arith NArith ZArith Bool.
From Verif Require Import Base OperatorsSpec.
Import ListNotations.

Section LocalSpec.
Variable K : CRing.
Variable half : K.
Local Open Scope cr_scope.

(** Occupation number of orbital [i]. *)
Definition num (s : N) (i : nat) : K := if occ s i then 1 else 0.

(** sum_i eup_i nup_i + edw_i ndw_i + sum_i V_ii nup_i ndw_i
    + 1/2 sum_{i<>j} V_ij (n_i - z_i)(n_j - z_j); in half-filling mode
    (nup_i-1/2)(ndw_i-1/2) replaces nup_i ndw_i. *)
Definition fock_energy (n : nat) (eup edw : nat -> K) (V : nat -> nat -> K) (z : nat -> K)
    (hf : bool) (sup sdw : N) : K :=
  let shift := if hf then half else 0 in
  let ntot i := num sup i + num sdw i - z i in
  nsum n (fun i => eup i * num sup i + edw i * num sdw i)
  + nsum n (fun i => V i i * ((num sup i - shift) * (num sdw i - shift)))
  + half * nsum n (fun i => nsum n (fun j => if i =? j then 0 else V i j * (ntot i * ntot j))).

End LocalSpec.
