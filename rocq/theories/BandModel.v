(** Model of edpyt/lanczos.py: gram_schmidt_rows and the band Lanczos method
    build_bd_tridiag. *)
From Coq Require Import List Arith ZArith Bool.
From Verif Require Import Base LanczosModel.
Import ListNotations.

Section Band.
Variable K : CField.
Let R := fring K.
Local Open Scope cr_scope.
(** The square root of np.linalg.norm, and the test [x == 0]. *)
Variable sq : R -> R.
Variable is0 : R -> bool.

(** [x - c*u] elementwise; arrays of one element, which numpy would broadcast, are
    not treated specially. *)
Definition vsub (x : list R) (c : R) (u : list R) : res (list R) :=
  if length x =? length u then Ok (map (fun p => fst p - c * snd p) (combine x u)) else Err ValueError.
(** [x / y]; numpy returns inf or NaN for y = 0, which is reported as an exception here. *)
Definition ratio (x y : R) : res R := if is0 y then Err ZeroDivisionError else Ok (x / y).

(** ** gram_schmidt_rows *)
(** lanczos.py:193-194: [X[i,:].dot(Y.T)/np.linalg.norm(Y,axis=1)**2] as the diagonal of a
    matrix times Y, summed over the rows and subtracted from [x = X[i,:]]. *)
Fixpoint subtract_rows (x r : list R) (Y : list (list R)) : res (list R) :=
  match Y with
  | [] => Ok r
  | y :: Y =>
      do t <- dot K x y;
      do c <- ratio t (norm K sq y * norm K sq y);
      do r <- vsub r c y;
      subtract_rows x r Y
  end.
(** lanczos.py:191-194; the rows of Y in order. *)
Fixpoint gs_loop (X Y : list (list R)) : res (list (list R)) :=
  match X with
  | [] => Ok Y
  | x :: X => do y <- subtract_rows x x Y; gs_loop X (Y ++ [y])
  end.
Definition gs_norm (Y : list (list R)) : res (list (list R)) :=
  mapM (fun y => do c <- ratio 1 (norm K sq y); Ok (map (fun t => c * t) y)) Y.
(** [X.T] of a matrix with [nc] columns. *)
Definition mtrans (nc : nat) (X : list (list R)) : list (list R) := map (fun j => map (fun r => nth j r 0) X) (seq 0 nc).
(** lanczos.py:185-200 [gram_schmidt_rows] on a matrix with [nc] columns. *)
Definition gram_schmidt_rows (nc : nat) (X : list (list R)) (row_vecs nrm : bool) : res (list (list R)) :=
  let X' := if row_vecs then X else mtrans nc X in
  do Y <- gs_loop (skipn 1 X') (firstn 1 X');
  do Y <- (if nrm then gs_norm Y else Ok Y);
  Ok (if row_vecs then Y else mtrans (length X) Y).

(** ** build_bd_tridiag *)
Variable E : Type.
Variable tiny : R -> bool.                                       (* abs(b) < delta *)
Variable egs : list (list R) -> res E.                           (* np.linalg.eigvalsh(T[:n,:n])[0] *)
Variable close : option E -> E -> bool.                          (* abs(egs - egs_prev) < tol, inf is None *)
Variable matvec : list R -> res (list R).
Variables maxn ND : nat.

(** The [maxn] x [maxn] array T as a function; positions are checked on writing.
    [col]: an index of numpy, negative ones count from the end. *)
Definition col (k : Z) : res nat :=
  if ((0 <=? k) && (k <? Z.of_nat maxn))%Z then Ok (Z.to_nat k)
  else if ((k <? 0) && (- Z.of_nat maxn <=? k))%Z then Ok (Z.to_nat (k + Z.of_nat maxn))
  else Err IndexError.
Definition put (T : nat -> nat -> R) (i j : nat) (x : R) : nat -> nat -> R :=
  fun a b => if ((a =? i) && (b =? j))%nat then x else T a b.
Definition sub_T (T : nat -> nat -> R) (n : nat) : list (list R) := map (fun i => map (T i) (seq 0 n)) (seq 0 n).

Record bst := mkbst { b_n : nat; b_Lc : nat; b_T : nat -> nat -> R; b_I : list nat; b_vk : list (list R); b_vl : list (list R); b_vd : list (list R); b_prev : option E }.

(** lanczos.py:257-259: the remaining candidates against v; [ks] is [range(n+1,n+Lc)]. *)
Fixpoint next_loop (n Lc : nat) (v : list R) (ks : list nat) (T : nat -> nat -> R) (vk : list (list R)) : res ((nat -> nat -> R) * list (list R)) :=
  match ks with
  | [] => Ok (T, vk)
  | k :: ks =>
      match vk with
      | [] => Err IndexError
      | x :: vk =>
          do t <- dot K v x;
          do c <- col (Z.of_nat k - Z.of_nat Lc);
          do x <- vsub x t v;
          do (T, vk) <- next_loop n Lc v ks (put T n c t) vk;
          Ok (T, x :: vk)
      end
  end.
(** lanczos.py:261-263: w against the previous vectors; [ks] is [range(max(0,n-Lc),n)]. *)
Fixpoint prev_loop (n : nat) (ks : list nat) (vl : list (list R)) (T : nat -> nat -> R) (w : list R) : res ((nat -> nat -> R) * list R) :=
  match ks with
  | [] => Ok (T, w)
  | k :: ks =>
      match vl with
      | [] => Err IndexError
      | u :: vl => do w <- vsub w (T n k) u; prev_loop n ks vl (put T k n (T n k)) w
      end
  end.
(** lanczos.py:264-266: w against the deflated vectors. *)
Fixpoint defl_loop (n : nat) (Is : list nat) (vd : list (list R)) (T : nat -> nat -> R) (w : list R) : res ((nat -> nat -> R) * list R) :=
  match Is with
  | [] => Ok (T, w)
  | k :: Is =>
      match vd with
      | [] => Err IndexError
      | u :: vd => do t <- dot K u w; do w <- vsub w t u; defl_loop n Is vd (put T k n t) w
      end
  end.
(** lanczos.py:269-270. *)
Definition mirror (n : nat) (Is : list nat) (T : nat -> nat -> R) : nat -> nat -> R := fold_left (fun T k => put T n k (T k n)) Is T.

(** lanczos.py:240-281, one pass of the while loop; the flag is [converged]. *)
Definition bd_body (s : bst) : res (bst * bool) :=
  let n := b_n s in let Lc := b_Lc s in
  match b_vk s with
  | [] => Err IndexError
  | v :: vk =>
      let b := norm K sq v in
      if tiny b then
        do (Is, vd) <- (if Lc <=? n then match b_vl s with u :: _ => Ok (b_I s ++ [n - Lc]%nat, b_vd s ++ [u]) | [] => Err IndexError end else Ok (b_I s, b_vd s));
        let Lc := (Lc - 1)%nat in
        if Lc =? 0 then Ok (mkbst n Lc (b_T s) Is (v :: vk) (b_vl s) vd (b_prev s), true)
        else Ok (mkbst n Lc (b_T s) Is vk (if Lc <? length (b_vl s) then tl (b_vl s) else b_vl s) vd (b_prev s), false)
      else
        do c <- col (Z.of_nat n - Z.of_nat Lc);
        let T := put (b_T s) n c b in
        let v := map (fun t => t / b) v in
        do (T, vk) <- next_loop n Lc v (seq (S n) (Lc - 1)) T vk;
        do w <- matvec v;
        do (T, w) <- prev_loop n (seq (n - Lc) (n - (n - Lc))) (b_vl s) T w;
        do (T, w) <- defl_loop n (b_I s) (b_vd s) T w;
        do t <- dot K v w;
        do w <- vsub w t v;
        let T := mirror n (b_I s) (put T n n t) in
        let vl := (if length (b_vl s) =? Lc then tl (b_vl s) else b_vl s) ++ [v] in
        let n := S n in
        let s' := mkbst n Lc T (b_I s) (vk ++ [w]) vl (b_vd s) in
        if ND =? 0 then Err ZeroDivisionError
        else if n mod ND =? 0 then
          do e <- egs (sub_T T n);
          if close (b_prev s) e then Ok (s' (b_prev s), true) else Ok (s' (Some e), false)
        else Ok (s' (b_prev s), false)
  end.
(** The while loop, with fuel: every pass increases n or decreases Lc. *)
Fixpoint bd_loop (fuel : nat) (s : bst) : res bst :=
  match fuel with
  | O => Err OutOfFuel
  | S fuel =>
      if b_n s <? maxn - b_Lc s then
        do (s, converged) <- bd_body s;
        if (converged : bool) then Ok s else bd_loop fuel s
      else Ok s
  end.
(** lanczos.py:210-283 [build_bd_tridiag].  The arrays of [phi0] must be distinct
    objects (they are modified in place) and [matvec] must return a new array.  The
    result is the final state; the program returns [T[:n,:n]] and leaves [b_vk] in the
    list of the caller. *)
Definition build_bd_tridiag (phi0 : list (list R)) : res bst :=
  bd_loop (S (maxn + length phi0)) (mkbst 0 (length phi0) (fun _ _ => 0) [] phi0 [] [] None).
Definition ret_T (s : bst) : list (list R) := sub_T (b_T s) (b_n s).
End Band.
