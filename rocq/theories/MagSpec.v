(** Pairs of spins, and runs of the loop that correspond to each other. *)
From Coq Require Import String Reals List Arith ZArith Bool.
From Verif Require Import Base RBase RLin CBase SectorModel LocalModel HoppingModel MatvecModel MbModel MbSpec EspaceModel EspaceRealModel ProjModel GfModel GfSpec GflSpec AgrModel DmftModel DmftSpec SiamModel ScrSpec PhsSpec MagModel.
Import ListNotations.
Local Open Scope R_scope.

Definition swap {A} (p : A * A) : A * A := (snd p, fst p).
Definition twice {A} (a : A) : A * A := (a, a).
(** Functions that agree off the real axis. *)
Definition alike (f g : cx -> cx) : Prop := forall z, im z <> 0 -> f z = g z.
Definition off_axis (zs : list cx) : Prop := forall z, In z zs -> im z <> 0.
(** Impurities with the same numbers and the same function off the real axis. *)
Definition twin (g g' : gfimp) : Prop :=
  imp_n g = imp_n g' /\ imp_x g = imp_x g' /\ imp_H g = imp_H g' /\ imp_U g = imp_U g' /\
  match imp_gf g, imp_gf g' with Some f, Some f' => alike f f' | None, None => True | _, _ => False end.
(** What the solver needs of the two layers (compare [workable]). *)
Definition workable2 (big : R -> bool) (half : R) (eigh : dense RRing -> res (list R * list (list R))) (eigsh : nat -> Z -> (list R -> res (list R)) -> res (list R * list (list R)))
    (tridiag : (list R -> res (list R)) -> list R -> res (list R * list R)) (fl : hflags) (hf : bool) (n : nat) (Hu Hd : list R) (U : R) : Prop :=
  settable RRing (layers n Hu Hd) fl = true /\
  forall es e sc, build_espace RRing Rleb big half eigh eigsh n (layers n Hu Hd) fl (VArray RRing (on_site U)) hf 0 None None "sz" = Ok (es, Some e) ->
    screen_espace RRing (boltzmann 1000000 e (/ 1000000000)) es = (Ok tt, sc) ->
    forall s, (s <= 1)%nat -> undisturbed n (Z.of_nat s) sc /\
      krylov n (product_of big half n (layers n Hu Hd) fl (VArray RRing (on_site U)) hf 0 None) tridiag (Z.of_nat s) sc (fun op p' q' t i a => exc n op (Z.of_nat s) 0 p' q' t i a) 11.

(** [P] holds of every state and trial the driver meets. *)
Fixpoint along {S D} (dstep : S -> D -> res (S * D)) (dist : D -> D -> R) (tol : R) (max_iter : nat) (mix : list (D * D) -> option D) (P : S -> D -> Prop)
    (fuel : nat) (hist : list (D * D)) (st : S * nat) : Prop :=
  match mix hist, fuel with
  | Some delta, Datatypes.S fuel => P (fst st) delta /\
      match dmft_call S D dstep dist tol max_iter st delta with (st', Ok new) => along dstep dist tol max_iter mix P fuel ((delta, new) :: hist) st' | _ => True end
  | _, _ => True
  end.
(** The Hamiltonian of a trial. *)
Definition trial_H (fitter : list R -> list cx -> list R) (mu : R) (g : gfimp) (delta : list cx) : list R := imp_H (imp_fit_update fitter g delta mu).

(** Runs with the spins exchanged, and the run of a pair beside the run of one impurity. *)
Section Runs.
Variables (big : R -> bool) (half : R) (eigh : dense RRing -> res (list R * list (list R))) (eigsh : nat -> Z -> (list R -> res (list R)) -> res (list R * list (list R)))
  (tridiag : (list R -> res (list R)) -> list R -> res (list R * list R)) (fl : hflags) (hf : bool) (n : nat) (U : R) (fitter : list R -> list cx -> list R) (mu ed : R).
Definition mirrored (a b : spins * gfloc) : Prop :=
  twin (fst (fst a)) (snd (fst b)) /\ twin (snd (fst a)) (fst (fst b)) /\ snd b = snd a /\ shaped n U (fst (fst a)) /\ shaped n U (snd (fst a)) /\ loc_mu (snd a) = Some mu /\ loc_ed (snd a) = Some ed.
Definition doubled (a : gfimp * gfloc) (b : spins * gfloc) : Prop :=
  twin (fst a) (fst (fst b)) /\ twin (fst a) (snd (fst b)) /\ snd b = snd a /\ shaped n U (fst a) /\ loc_mu (snd a) = Some mu /\ loc_ed (snd a) = Some ed.
(** The fit returns a bath of the right size, and the solver works for what [dmft_step] makes of it. *)
Definition fitted (g : gfimp) (d : list cx) : Prop := length (fitter (imp_x g) d) = (2 * (n - 1))%nat.
Definition both_workable (a : spins * gfloc) (delta : both) : Prop :=
  let Hu := trial_H fitter (mu - ed) (fst (fst a)) (fst delta) in let Hd := trial_H fitter (mu - ed) (snd (fst a)) (snd delta) in
  fitted (fst (fst a)) (fst delta) /\ fitted (snd (fst a)) (snd delta) /\
  workable2 big half eigh eigsh tridiag fl hf n Hu Hd U /\ workable2 big half eigh eigsh tridiag fl hf n Hd Hu U.
Definition one_workable (s : nat) (a : gfimp * gfloc) (delta : list cx) : Prop :=
  let H := trial_H fitter (mu - ed) (fst a) delta in
  fitted (fst a) delta /\ workable big half eigh eigsh tridiag fl hf n s H U /\ workable2 big half eigh eigsh tridiag fl hf n H H U.
End Runs.
