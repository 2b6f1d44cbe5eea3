(** Model of edpyt/lanczos.py: Lanczos steps, the driver of the first pass and
    the second pass. *)
From Coq Require Import List Arith Bool.
From Verif Require Import Base.
Import ListNotations.

(** [x[i] = v] on a numpy array; a negative index does not occur. *)
Definition npset {A} (x : list A) (i : nat) (v : A) : res (list A) :=
  match upd x i v with Some x => Ok x | None => Err IndexError end.

(** ** The driver *)
Section Driver.
(** Vectors, coefficients and energies of any kind (float64 with NaN included);
    the step, the comparison [abs(b) < delta], the energy of the tridiagonal
    matrix and the comparison [abs(egs - egs_prev) < tol] are parameters;
    [egs_prev = inf] is [None]. *)
Variables V F E : Type.
Variable step : V -> V -> res (F * F * V * V).
Variable tiny : F -> bool.
Variable egs : list F -> list F -> res E.
Variable close : option E -> E -> bool.

(** The loop variables; [steps] counts the calls of the step and is not part of
    the program. *)
Record lst := mklst { l_n : nat; l_a : list F; l_b : list F; l_l : V; l_v : V; l_steps : nat }.

(** lanczos.py:106-113, [k] iterations of the inner loop; the flag is
    [converged]. *)
Fixpoint sl_inner (maxn k : nat) (s : lst) : res (lst * bool) :=
  match k with
  | O => Ok (s, false)
  | S k =>
      do (an, bn, l, v) <- step (l_v s) (l_l s);
      do a <- npset (l_a s) (l_n s) an;
      do b <- npset (l_b s) (l_n s) bn;
      if tiny bn || (maxn - 1 <=? l_n s) then
        if l_n s =? 0 then Err ZeroNormInitialVector
        else Ok (mklst (l_n s) a b l v (S (l_steps s)), true)
      else sl_inner maxn k (mklst (S (l_n s)) a b l v (S (l_steps s)))
  end.

(** lanczos.py:105-121, with fuel. *)
Fixpoint sl_outer (maxn ND fuel : nat) (prev : option E) (s : lst) : res lst :=
  match fuel with
  | O => Err OutOfFuel
  | S fuel =>
      do (s, converged) <- sl_inner maxn ND s;
      if l_n s =? 1 then Ok s
      else
        do e <- egs (firstn (l_n s) (l_a s)) (skipn 1 (firstn (l_n s) (l_b s)));
        if converged || close prev e then Ok s else sl_outer maxn ND fuel (Some e) s
  end.

(** lanczos.py:73-123 [build_sl_tridiag]; [ga] and [gb] are the contents
    of the two [np.empty(maxn)], [zero] is [np.zeros_like(phi0)].  The result is the final
    state; the program returns [a[:n], b[:n]].  A negative [maxn] (ValueError in
    numpy) is not modelled. *)
Definition build_sl_tridiag (zero phi0 : V) (ga gb : nat -> F) (maxn ND : nat) : res lst :=
  sl_outer maxn ND (S maxn) None (mklst 0 (map ga (seq 0 maxn)) (map gb (seq 0 maxn)) zero phi0 0).
Definition ret_a (s : lst) : list F := firstn (l_n s) (l_a s).
Definition ret_b (s : lst) : list F := firstn (l_n s) (l_b s).
End Driver.

(** ** Steps, exact scalars *)
Section Steps.
Variable K : CField.
Let R := fring K.
Local Open Scope cr_scope.

(** [v.dot(w)]. *)
Definition vdot (v w : list R) : R := bsum (fun p => fst p * snd p) (combine v w).
Definition dot (v w : list R) : res R :=
  if length v =? length w then Ok (vdot v w) else Err ValueError.
(** BLAS [scal(c, x)] and [axpy(x, y, x.size, c)] (in place in the program; the
    arrays are float64 and contiguous, otherwise scipy works on copies). *)
Definition scal (c : R) (x : list R) : list R := map (fun t => c * t) x.
Definition axpy (x y : list R) (c : R) : res (list R) :=
  if length x =? length y then Ok (map (fun p => c * fst p + snd p) (combine x y)) else Err ValueError.

(** [sq] is the square root; [np.linalg.norm(v)] is [sqrt(v.dot(v))]. *)
Variable sq : R -> R.
Definition norm (v : list R) : R := sq (vdot v v).

(** lanczos.py:30-50 [_sl_step].  The third component is also the new contents
    of the argument [v], which is scaled in place. *)
Definition sl_step (matvec : list R -> res (list R)) (v l : list R) : res (R * R * list R * list R) :=
  let b := norm v in
  let v := scal (cdiv K 1 b) v in
  do w <- matvec v;
  do a <- dot v w;
  do w <- axpy v w (- a);
  do w <- axpy l w (- b);
  Ok (a, b, v, w).

(** [comm.allreduce(x, op=SUM)]. *)
Definition allreduce (xs : list R) : R := bsum (fun x => x) xs.

(** lanczos.py:53-70 [_sl_step_mpi], all ranks in lock step: entry [r] of every
    list is the data of rank [r]; [matvec] is the collective product.  Every
    rank returns the same [a] and [b]. *)
Definition sl_step_mpi (matvec : list (list R) -> res (list (list R))) (v l : list (list R))
    : res (R * R * list (list R) * list (list R)) :=
  do b2 <- mapM (fun v => dot v v) v;
  let b := sq (allreduce b2) in
  let v := map (scal (cdiv K 1 b)) v in
  do w <- matvec v;
  if negb (length w =? length v) then Err ValueError else
  do al <- mapM (fun p => dot (fst p) (snd p)) (combine v w);
  let a := allreduce al in
  do w <- mapM (fun p => axpy (fst p) (snd p) (- a)) (combine v w);
  do w <- mapM (fun p => axpy (fst p) (snd p) (- b)) (combine l w);
  Ok (a, b, v, w).

(** lanczos.py:126-132 [_kron]: [r[i,k] += u_row[i] * l[k]]. *)
Definition kron (u_row l : list R) (r : list (list R)) : list (list R) :=
  map (fun ur => map (fun p => snd p + fst ur * fst p) (combine l (snd ur))) (combine u_row r).

(** lanczos.py:179-181, the loop of the second pass over the rows of [U]. *)
Fixpoint sl_pass2 (matvec : list R -> res (list R)) (U : list (list R)) (v l : list R) (r : list (list R))
    : res (list (list R)) :=
  match U with
  | [] => Ok r
  | u :: U =>
      do (_, _, l, v) <- sl_step matvec v l;
      sl_pass2 matvec U v l (kron u l r)
  end.

(** lanczos.py:135-182 [sl_solve] with [v0] given; [eigh a b1] stands for
    [eigh_tridiagonal(a, b[1:], ...)] and returns the eigenvalues and the rows of
    [U].  The result holds the eigenvectors as the columns of [r.T], i.e. as the
    entries of the second component. *)
Definition sl_solve (eigh : list R -> list R -> res (list R * list (list R))) (matvec : list R -> res (list R))
    (a b v0 : list R) : res (list R * list (list R)) :=
  do (w, U) <- eigh a (skipn 1 b);
  let m := match U with u :: _ => length u | [] => O end in
  if length a <=? length U then
    do r <- sl_pass2 matvec (firstn (length a) U) v0 (map (fun _ => 0) v0) (repeat (map (fun _ => 0) v0) m);
    Ok (w, r)
  else Err IndexError.
End Steps.
