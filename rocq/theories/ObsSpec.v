(** Occupations as expectation values. *)
From Coq Require Import Reals List Arith NArith ZArith Bool.
From Verif Require Import Base RBase RLin OperatorsSpec FockSpec SectorModel LocalModel ObsModel.
Import ListNotations.

Section Spec.
Variable K : CRing.
Local Open Scope cr_scope.
(** Entry of row [i], column [j] of a two-dimensional array with [d] rows. *)
Definition entry (a : arr K) (d nev i j : nat) : K :=
  nth (if a_f K a then i + j * d else i * nev + j)%nat (a_buf K a) 0.
Definition matrix_arr (a : arr K) (d nev : nat) : Prop := a_shape K a = [d; nev] /\ length (a_buf K a) = (d * nev)%nat.

(** Fock state at position [a], down states outermost. *)
Definition fock_at (n : nat) (up dw : list N) (a : nat) : N :=
  combine n (nth (a mod length up) up 0%N) (nth (a / length up) dw 0%N).
(** <v| n_orb |v> for v given by its components. *)
Definition expect (n : nat) (up dw : list N) (v : nat -> K) (orb : nat) : K :=
  nsum (length dw * length up) (fun a => if occ (fock_at n up dw a) orb then v a * v a else 0).
Definition weight_of (coeffs : option (list K)) (j : nat) : K := match coeffs with Some c => nth j c 0 | None => 1 end.
End Spec.

(** Two-dimensional result with [nr] rows of length [nc]. *)
Definition shaped {A} (v : list (list A)) (nr nc : nat) : Prop := length v = nr /\ forall x, In x v -> length x = nc.

Local Open Scope R_scope.
(** Every column has norm one. *)
Definition unit_columns (a : arr RRing) (d nev : nat) : Prop :=
  forall j, (j < nev)%nat -> rsum d (fun i => entry RRing a d nev i j * entry RRing a d nev i j) = 1.

(** A solved sector: all states with fixed electron numbers, one normalised vector per eigenvalue. *)
Definition sector_ok (n : nat) (s : osct) : Prop :=
  exists p q up dw, (p <= n)%nat /\ (q <= n)%nat /\ (n <= 32)%nat /\ o_states s = StSz up dw /\
    generate_states n p = Ok up /\ generate_states n q = Ok dw /\
    matrix_arr RRing (o_vecs s) (length up * length dw) (length (o_vals s)) /\
    unit_columns (o_vecs s) (length up * length dw) (length (o_vals s)).
(** <n_orb> in eigenvector [j] of a sector. *)
Definition sector_expect (n : nat) (s : osct) (orb j : nat) : R :=
  match o_states s with
  | StSz up dw => expect RRing n up dw (fun i => entry RRing (o_vecs s) (length up * length dw) (length (o_vals s)) i j) orb
  | StN _ => 0
  end.
Definition boltzmann (beta egs : R) (s : osct) (j : nat) : R := exp (- beta * (nth j (o_vals s) 0 - egs)).
Definition thermal_Z (scts : list osct) (egs beta : R) : R :=
  bsum (K := RRing) (fun s => rsum (length (o_vals s)) (boltzmann beta egs s)) scts.
Definition thermal (scts : list osct) (egs beta : R) (n orb : nat) : R :=
  bsum (K := RRing) (fun s => rsum (length (o_vals s)) (fun j => boltzmann beta egs s j * sector_expect n s orb j)) scts / thermal_Z scts egs beta.
