(** What numpy.linalg.eigh guarantees, and energies in the complete Fock space. *)
From Coq Require Import Reals List Arith NArith ZArith Bool.
From Verif Require Import Base RBase RLin MatvecModel CsrSpec NonLocalSpec MbModel MbSpec.
Import ListNotations.
Local Open Scope R_scope.

(** For every symmetric matrix: as many eigenvalues as rows, in ascending order,
    and an orthonormal basis of eigenvectors. *)
Definition eigh_contract (eigh : dense RRing -> res (list R * list (list R))) : Prop := forall D, let d := d_rows RRing D in
  d_cols RRing D = d -> (forall a b, (a < d)%nat -> (b < d)%nat -> d_at RRing D a b = d_at RRing D b a) ->
  exists vals cols, eigh D = Ok (vals, cols) /\ length vals = d /\ length cols = d /\ (forall k, (k < d)%nat -> length (nth k cols []) = d) /\
    orthonormal d d (fun k i => nth i (nth k cols []) 0) /\
    (forall k a, (k < d)%nat -> (a < d)%nat -> rsum d (fun b => d_at RRing D a b * nth b (nth k cols []) 0) = nth k vals 0 * nth a (nth k cols []) 0) /\
    forall j k, (j <= k)%nat -> (k < d)%nat -> nth j vals 0 <= nth k vals 0.

(** Sum over all occupations of [n] sites by one spin. *)
Definition over_states (n : nat) (f : N -> R) : R := rsum (2 ^ n) (fun s => f (N.of_nat s)).
(** Norm and energy of a state of both spins with amplitudes [psi]. *)
Definition norm2 (n : nat) (psi : N -> N -> R) : R := over_states n (fun u => over_states n (fun d => psi u d * psi u d)).
Definition energy_of (n : nat) (H : N -> N -> N -> N -> R) (psi : N -> N -> R) : R :=
  over_states n (fun u => over_states n (fun d => over_states n (fun u' => over_states n (fun d' => psi u' d' * H u' d' u d * psi u d)))).

(** Parameters for which the Hamiltonian is a symmetric matrix and the code can
    run: 2 to 32 sites, an interaction matrix, pair hopping only with exchange (the
    code requires Jx for Jp), symmetric one-body matrix and couplings, and a
    diagonal that can be written to. *)
Definition model_ok (half : R) (n : nat) (h : hmat RRing) (fl : hflags) (V : inter RRing) (U : nat -> nat -> R) : Prop :=
  ((1 < n)%nat /\ (n <= 32)%nat /\ half + half = 1) /\ inter_U RRing V = Some U /\ (inter_Jx RRing V = None -> inter_Jp RRing V = None) /\
  (osymm RRing n (inter_Jx RRing V) /\ osymm RRing n (inter_Jp RRing V)) /\ (forall sp, symm RRing n (hspin RRing h sp)) /\ settable RRing h fl = true.

(** <ub db| H |ua da> of the model, for the thresholds [big] of the code and with the
    sign of the opposite-spin exchange as coded. *)
Definition many_body (big : R -> bool) (half : R) (n : nat) (h : hmat RRing) (V : inter RRing) (hf : bool) (mu : R) (z : option (nat -> R)) (U : nat -> nat -> R)
    (ub db ua da : N) : R :=
  hamiltonian RRing half (- 1) n (fun s i => hspin RRing h s i i + mu) U (zfun RRing hf z) hf (fun s => offdiag RRing big (hspin RRing h s))
    (opt_offdiag RRing big (inter_Jx RRing V)) (opt_offdiag RRing big (inter_Jp RRing V)) ub db ua da.
