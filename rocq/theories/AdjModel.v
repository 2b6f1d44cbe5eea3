(** Model of the adjustment of the chemical potential and of the occupation of the
    impurity: edpyt/dmft.py:14-24, 166-168, 255-257, 357-362, 430-438, 444-460.
    Exact arithmetic. *)
From Coq Require Import Reals List Arith ZArith Bool.
From Verif Require Import Base RBase RLin CBase EspaceModel FitModel DmftModel FermiModel.
Import ListNotations.
Local Open Scope R_scope.

(** [a.sum()] *)
Definition total (l : list R) : R := fold_left Rplus l 0.

Section Adjust.
Variable fitter : list R -> list cx -> list R.
Variable solver : list R -> R -> res (cx -> cx).
(** [root_scalar(f, bracket=(a, b), method="brentq").root] *)
Variable root : (R -> res R) -> R -> R -> res R.
(** The method [integrate] of the lattice object: a function of the impurity (which
    holds the self-energy), of the object and of the potential; [None] if the class has
    none, as the classes Gfhybrid and Gfhilbert of dmft.py:297-346. *)
Variable integ : option (gfimp -> gfloc -> R -> res (list R)).

(** dmft.py:22-24; an occupancy goal that is not an array has no [sum] *)
Definition distance_mu (goal : option (list R)) (g : gfimp) (l : gfloc) (mu : R) : res R :=
  do f <- attr integ;
  do o <- f g l mu;
  do goal <- attr goal;
  Ok (total o - total goal).
Definition adjust_mu (goal : option (list R)) (g : gfimp) (l : gfloc) : res R :=
  root (distance_mu goal g l) (- 20) 20.
(** dmft.py:357-362 [dmft_step_adjust] *)
Definition dmft_step_adjust (delta : list cx) (g : gfimp) (l : gfloc) (goal : option (list R)) : res (gfimp * gfloc) :=
  do gl <- dmft_step fitter solver delta g l;
  do mu <- adjust_mu goal (fst gl) (snd gl);
  Ok (fst gl, loc_update (snd gl) mu).
(** dmft.py:430-438 [step]; [np.sum(None)] is [None] *)
Definition step_adjust (zs : list cx) (adjust : bool) (goal : option (list R)) (gl : gfimp * gfloc) (delta : list cx) : res ((gfimp * gfloc) * (option R * list cx)) :=
  do r <- (if adjust then
             do gl <- dmft_step_adjust delta (fst gl) (snd gl) goal;
             do f <- attr integ; do mu <- attr (loc_mu (snd gl)); do o <- f (fst gl) (snd gl) mu;
             Ok (gl, Some (total o))
           else
             do gl <- dmft_step fitter solver delta (fst gl) (snd gl);
             Ok (gl, option_map total goal));
  do d <- loc_Delta_grid (fst (fst r)) (snd (fst r)) zs;
  Ok (fst r, (snd r, d)).
(** dmft.py:444-460 [__call__]: the line printed after the step formats the occupation
    with [:.5f], which fails for [None].  [dist] is the norm of the difference. *)
Definition call_adjust (dist : list cx -> list cx -> R) (tol : R) (max_iter : nat) (zs : list cx) (adjust : bool) (goal : option (list R))
    (st : (gfimp * gfloc) * nat) (delta : list cx) : ((gfimp * gfloc) * nat) * res (list cx) :=
  let '(gl, it) := st in
  match step_adjust zs adjust goal gl delta with
  | Err e => ((gl, it), Err e)
  | Ok (gl', (occp, new)) =>
    match occp with
    | None => ((gl', it), Err TypeError)
    | Some _ =>
      if Rltb (dist new delta) tol then ((gl', it), Err ConvergedExc)
      else if (max_iter <? it + 1)%nat then ((gl', (it + 1)%nat), Err FailedToConvergeExc)
      else ((gl', (it + 1)%nat), Ok new)
    end
  end.
End Adjust.

Section Occupation.
Variable geigh : nat -> (nat -> nat -> R) -> (nat -> nat -> R) -> res (list R * list (list R)).
(** The impurity as a callable; unsolved it has no attribute [gf]. *)
Definition imp_fun (g : gfimp) : res (cx -> cx) :=
  do _ <- attr (imp_gf g); Ok (fun z => match imp_call g z with Ok w => w | Err _ => rcx 0 end).
(** dmft.py:166-168 [Gfimp.integrate] with the defaults of integrate_gf.py:65 *)
Definition imp_spin_integrate (kB : R) (g : gfimp) (mu : R) : res R :=
  do f <- imp_fun g; integrate_gf geigh kB f mu 300 100 radius.
Definition imp_integrate (kB : R) (g : gfimp) (mu : R) : res R :=
  do x <- imp_spin_integrate kB g mu; Ok (2 * x).
(** dmft.py:255-257 [SpinGfimp.integrate]; the default potential [None] has no shape
    (integrate_gf.py:81-84) *)
Definition spin_integrate (kB : R) (ud : gfimp * gfimp) (mu : option R) : res R :=
  match mu with
  | None => Err AttributeError
  | Some mu => do u <- imp_spin_integrate kB (fst ud) mu; do d <- imp_spin_integrate kB (snd ud) mu; Ok (0 + u + d)
  end.
End Occupation.
