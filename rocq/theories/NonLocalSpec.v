(** The documented exchange and pair-hopping operators, as sums of words of
    four ladder operators in the 2n-orbital Fock space (up orbitals 0..n-1,
    down orbitals n..2n-1). *)
From Coq Require Import List Arith NArith ZArith Bool.
From Verif Require Import Base OperatorsSpec FockSpec HoppingModel CsrSpec.
Import ListNotations.

(** c+_{i,s} c+_{j,s'} c_{i,s'} c_{j,s} *)
Definition exch_word (n i j s s' : nat) : list ladder_op :=
  [Cr (i + s * n); Cr (j + s' * n); An (i + s' * n); An (j + s * n)].
(** c+_{i,s} c+_{i,-s} c_{j,-s} c_{j,s} *)
Definition pair_word (n i j s : nat) : list ladder_op :=
  [Cr (i + s * n); Cr (i + (1 - s) * n); An (j + (1 - s) * n); An (j + s * n)].

Section Spec.
Variable K : CRing.
Variable half : K.
Local Open Scope cr_scope.

(** sum_ij J_ij <t| W_ij |s> *)
Definition coupling (n : nat) (J : nat -> nat -> K) (W : nat -> nat -> list ladder_op) (t s : N) : K :=
  nsum n (fun i => nsum n (fun j => J i j * z2k (elem (2 * n) (W i j) t s))).

(** 1/2 sum_ij sum_ss' Jx_ij c+_is c+_js' c_is' c_js, equal and opposite spins. *)
Definition exch_same (n : nat) (J : nat -> nat -> K) (t s : N) : K :=
  half * (coupling n J (fun i j => exch_word n i j 0 0) t s +
          coupling n J (fun i j => exch_word n i j 1 1) t s).
Definition exch_opp (n : nat) (J : nat -> nat -> K) (t s : N) : K :=
  half * (coupling n J (fun i j => exch_word n i j 0 1) t s +
          coupling n J (fun i j => exch_word n i j 1 0) t s).
(** 1/2 sum_ij sum_s Jp_ij c+_is c+_i-s c_j-s c_js *)
Definition pair_hop (n : nat) (J : nat -> nat -> K) (t s : N) : K :=
  half * (coupling n J (fun i j => pair_word n i j 0) t s +
          coupling n J (fun i j => pair_word n i j 1) t s).

(** The matrix element <t| . |s> of the documented operator (ham_non_local.py:62-67,
    without the assisted hopping, which is not implemented). *)
Definition documented (n : nat) (Jx Jp : nat -> nat -> K) (t s : N) : K :=
  exch_same n Jx t s + exch_opp n Jx t s + pair_hop n Jp t s.

End Spec.

(** Off-diagonal part above the threshold of an optional coupling matrix. *)
Definition opt_offdiag (K : CRing) (big : K -> bool) (J : option (nat -> nat -> K)) : nat -> nat -> K :=
  match J with Some J => offdiag K big J | None => fun _ _ => c0 K end.
