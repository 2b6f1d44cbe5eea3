(** Model of edpyt/continued_fraction.pyx and of the kernels and coefficients of
    edpyt/gf_lanczos.py, with exact real and complex numbers. *)
From Coq Require Import List Arith Reals.
From Verif Require Import Base RBase RLin CBase LanczosModel.
Import ListNotations.
Local Open Scope R_scope.

(** Read through an unchecked pointer. *)
Definition ptr {A} (l : list A) (i : nat) : res A :=
  match nth_error l i with Some a => Ok a | None => Err OutOfBounds end.

(** continued_fraction.pyx:8-20 [calc]: [for i in range(n-1,-1,-1)].  Division by
    zero (NaN or infinity in C) is a field division here; the theorems show that
    it does not happen off the real axis. *)
Definition calc (z : cx) (n : nat) (a b : list cx) : res cx :=
  foldM (fun r i => do ai <- ptr a i; do bi <- ptr b i; Ok (cxdiv bi (cxsub (cxsub z ai) r))) (rev (seq 0 n)) (rcx 0).

(** continued_fraction.pyx:23-36, one entry of [z]; [&_a[0]] needs an entry. *)
Definition cf_pyx (z : cx) (a b : list R) : res cx :=
  match a, b with
  | _ :: _, _ :: _ => calc z (length a) (map rcx a) (map rcx b)
  | _, _ => Err IndexError
  end.

(** [e + 1.j*eta]. *)
Definition zpoint (e : cx) (eta : R) : cx := cxadd e (cxmul ci (rcx eta)).

(** gf_lanczos.py:17-28 [continued_fraction] and 31-36 [spectral]: the function
    returned, at one energy. *)
Definition k_cf (a b : list R) (e : cx) (eta : R) : res cx := cf_pyx (zpoint e eta) a b.
Definition k_sp (l q : list R) (e : cx) (eta : R) : res cx :=
  if (length l =? length q)%nat
  then Ok (csum (length l) (fun i => cxmul (cxinv (cxsub (zpoint e eta) (rcx (nth i l 0)))) (rcx (nth i q 0))))
  else Err ValueError.

(** gf_lanczos.py:96-110 [build_gf_coeff_sp]; [eigh] is [eigh_tridiagonal], the
    second component holds the rows of [Un]. *)
Definition build_gf_coeff_sp (eigh : list R -> list R -> res (list R * list (list R)))
    (a b : list R) (Ei exponent : R) (sign : R) : res (list R * list R) :=
  do (En, Un) <- eigh a (skipn 1 b);
  match Un, b with
  | u0 :: _, b0 :: _ =>
      let q := map (fun u => (u * b0) * (u * b0) * exponent) u0 in
      let En := map (fun e => e - Ei) En in
      Ok (if Rltb sign 0 then map (fun e => e * (-1)) En else En, q)
  | _, _ => Err IndexError
  end.

(** gf_lanczos.py:113-129 [build_gf_coeff_cf]; the arguments are overwritten and
    returned. *)
Definition build_gf_coeff_cf (a b : list R) (Ei exponent : R) (sign : R) : res (list R * list R) :=
  match map (fun x => x * x) b with
  | b0 :: b =>
      let a := map (fun x => x - Ei) a in
      Ok (if Rltb sign 0 then map (fun x => x * (-1)) a else a, b0 * exponent :: b)
  | [] => Err IndexError
  end.

(** lanczos.py:73-123 with the steps of 30-50 over the real numbers, as called by
    gf_lanczos.py: [matvec] any product, [np.zeros_like(phi0)] as the second vector. *)
Definition real_sl_tridiag {E : Type} (tiny : R -> bool) (egs : list R -> list R -> res E) (close : option E -> E -> bool)
    (mv : list R -> res (list R)) (phi0 : list R) (ga gb : nat -> R) (maxn ND : nat) : res (lst (list R) R) :=
  build_sl_tridiag (list R) R E (sl_step RField sqrt mv) tiny egs close (map (fun _ => 0) phi0) phi0 ga gb maxn ND.
