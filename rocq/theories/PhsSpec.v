(** Impurity models and lattices with particle-hole symmetry. *)
From Coq Require Import String Reals List Arith ZArith Bool.
From Verif Require Import Base RBase RLin CBase SectorModel LocalModel HoppingModel MatvecModel MbModel EspaceModel EspaceRealModel ProjModel GfModel GfSpec GflSpec AgrModel MbSpec FitModel DmftModel DmftSpec SymSpec SiamModel ScrSpec.
Import ListNotations.
Local Open Scope R_scope.

(** The bath read from the other end; site 0 stays.  Orbitals of the bath change sign. *)
Definition flip (n k : nat) : nat := match k with O => O | _ => (n - k)%nat end.
Definition bath_site (k : nat) : bool := negb (k =? 0)%nat.
(** The value of the self-energy that empties and fills the site equally. *)
Definition centre (hf : bool) (U : R) : R := if hf then 0 else U / 2.
(** Site 0 coupled to pairs of levels of opposite energy. *)
Definition half_star (n : nat) (H : list R) (c : R) : Prop :=
  symmetric n H /\ arrow n H /\ ent n H 0 0 = - c /\ forall k, (0 < k < n)%nat -> ent n H (n - k) (n - k) = - ent n H k k /\ ent n H 0 (n - k) = ent n H 0 k.
Definition imaginary (l : list cx) : Prop := forall d, In d l -> re d = 0.
(** Points on the imaginary axis, without zero. *)
Definition frequencies (l : list cx) : Prop := forall z, In z l -> re z = 0 /\ im z <> 0.

(** What the solver needs of the Hamiltonian: storable entries, screening that leaves small sectors
    alone ([undisturbed]), Krylov spaces that run out within the steps allowed. *)
Definition workable (big : R -> bool) (half : R) (eigh : dense RRing -> res (list R * list (list R))) (eigsh : nat -> Z -> (list R -> res (list R)) -> res (list R * list (list R)))
    (tridiag : (list R -> res (list R)) -> list R -> res (list R * list R)) (fl : hflags) (hf : bool) (n s : nat) (H : list R) (U : R) : Prop :=
  settable RRing (array_of n H) fl = true /\
  forall es e sc, build_espace RRing Rleb big half eigh eigsh n (array_of n H) fl (VArray RRing (on_site U)) hf 0 None None "sz" = Ok (es, Some e) ->
    screen_espace RRing (boltzmann 1000000 e (/ 1000000000)) es = (Ok tt, sc) ->
    undisturbed n (Z.of_nat s) sc /\
    krylov n (product_of big half n (array_of n H) fl (VArray RRing (on_site U)) hf 0 None) tridiag (Z.of_nat s) sc (fun op p' q' t i a => exc n op (Z.of_nat s) 0 p' q' t i a) 11.

(** Fits that keep pairs of levels when the data have no real part. *)
Definition keeps_pairs (n nm : nat) (fitter : list R -> list cx -> list R) : Prop :=
  forall x d, length x = (2 * (n - 1))%nat -> length d = nm -> length (fitter x d) = (2 * (n - 1))%nat /\ (mirror_symmetric (n - 1) x -> imaginary d -> mirror_symmetric (n - 1) (fitter x d)).
(** Lattices that send the imaginary axis to itself. *)
Definition balanced_lattice (k : lattice) (ed : R) : Prop :=
  match k with LHybrid hyb => forall w, re (hyb (0, w)) = 0 | LHilbert h => ed = 0 /\ forall w, re (h (0, w)) = 0 end.
(** Sizes and zeros of an impurity object. *)
Definition shaped (n : nat) (U : R) (g : gfimp) : Prop :=
  imp_n g = n /\ imp_U g = U /\ length (imp_H g) = (n * n)%nat /\ length (imp_x g) = (2 * (n - 1))%nat /\ arrow n (imp_H g).
(** The state of the loop: an impurity with pairs of levels, the potential at half filling, and a
    self-energy with the right real part on the imaginary axis. *)
Definition balanced (n : nat) (U mu ed : R) (hf : bool) (gl : gfimp * gfloc) : Prop :=
  let '(g, l) := gl in
  (imp_n g = n /\ imp_U g = U /\ length (imp_H g) = (n * n)%nat /\ length (imp_x g) = (2 * (n - 1))%nat /\ arrow n (imp_H g) /\ mirror_symmetric (n - 1) (imp_x g)) /\
  loc_mu l = Some mu /\ loc_ed l = Some ed /\ balanced_lattice (loc_kind l) ed /\
  exists sg, loc_Sigma l = Some sg /\ forall w, w <> 0 -> exists v, eval_Sigma g sg (0, w) = Ok v /\ re v = centre hf U.
(** Linear mixing of two arrays with a real factor. *)
Definition blend (a : R) (old new : list cx) : list cx := map (fun q : cx * cx => cxadd (fst q) (cxmul (rcx a) (cxsub (snd q) (fst q)))) (combine old new).
