(** Model of the diagonalisation of tridiagonal matrices and of the second Lanczos
    pass with its options: edpyt/tridiag.py:10-53, edpyt/lanczos.py:135-182.  Exact
    real arithmetic; the LAPACK routines are arguments. *)
From Coq Require Import Reals List Arith ZArith Bool.
From Verif Require Import Base RBase LanczosModel.
Import ListNotations.
Local Open Scope R_scope.

(** What is returned: eigenvalues alone, or with the rows of the matrix of
    eigenvectors; lanczos.py:172 may return a single number. *)
Inductive tri_out : Type := Vals (w : list R) | Pairs (w : list R) (U : list (list R)).
Inductive sl_out : Type := Number (x : R) | Vectors (w : list R) (X : list (list R)).

Section Tri.
(** [m, w, iblock, isplit, info = stebz(a, b, 2, 0., 1., il, iu, 0., order)]; the last
    argument is [true] for order 'B'.  [info] is never looked at. *)
Variable stebz : list R -> list R -> Z -> Z -> bool -> nat * list R * list nat * list nat.
(** [v, info = stein(a, b, w, iblock, isplit)], rows of [v]. *)
Variable stein : list R -> list R -> list R -> list nat -> list nat -> list (list R).
(** [m, w, v, info = stemr(a, b_, 0, ...)]; the last argument is [compute_v]. *)
Variable stemr : list R -> list R -> bool -> list R * list (list R).
(** The content of the last entry of [np.empty] at tridiag.py:26. *)
Variable garbage : R.

(** tridiag.py:13-22 [_solve_partial] *)
Definition solve_partial (a b : list R) (range : Z * Z) (only : bool) : list R * option (list (list R)) :=
  let il := (fst range + 1)%Z in
  let iu := (snd range + 1)%Z in
  let '(m, w, iblock, isplit) := stebz a b il iu (negb only) in
  let w := firstn m w in
  if only then (w, None) else (w, Some (map (firstn m) (stein a b w iblock isplit))).

(** tridiag.py:25-31 [_solve_full] *)
Definition solve_full (a b : list R) (only : bool) : list R * option (list (list R)) :=
  let '(w, v) := stemr a (b ++ [garbage]) (negb only) in (w, Some v).

(** tridiag.py:10-11 *)
Definition egs_tridiag (a b : list R) : res R :=
  match fst (solve_partial a b (0, 0)%Z true) with [] => Err IndexError | x :: _ => Ok x end.
Definition gs_tridiag (a b : list R) : list R * option (list (list R)) := solve_partial a b (0, 0)%Z false.

(** tridiag.py:34-53 [eigh_tridiagonal] *)
Definition eigh_tridiagonal (a b : list R) (select : Z) (range : Z * Z) (only : bool) : res tri_out :=
  if negb ((select =? 0) || (select =? 2))%Z then Err AssertionError else
  let wv := if (select =? 0)%Z then solve_full a b only else solve_partial a b range only in
  if only then Ok (Vals (fst wv)) else Ok (Pairs (fst wv) (match snd wv with Some v => v | None => [] end)).

(** lanczos.py:135-182 [sl_solve].  Line 170 unpacks whatever [eigh_tridiagonal]
    returns into two names: an array of eigenvalues must have exactly two entries, and
    the first is then returned. *)
Definition sl_solve_options (matvec : list R -> res (list R)) (a b : list R) (v0 : option (list R)) (select : Z) (range : Z * Z) (only : bool) : res sl_out :=
  if negb ((select =? 0) || (select =? 2))%Z then Err AssertionError else
  do out <- eigh_tridiagonal a (skipn 1 b) select range only;
  match out with
  | Vals w => match w with [x; _] => Ok (Number x) | _ => Err ValueError end
  | Pairs w U =>
      match v0 with
      | None => Err AssertionError
      | Some v0 => do (w, X) <- sl_solve RField sqrt (fun _ _ => Ok (w, U)) matvec a b v0; Ok (Vectors w X)
      end
  end.
End Tri.
