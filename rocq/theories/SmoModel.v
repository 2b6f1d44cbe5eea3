(** Model of the smoothing of self-energies: edpyt/dedlib.py:401-427 (the same code is
    in dedlib_dev.py:446-472).  Exact real arithmetic; sums and roots of unity stand
    for the FFT. *)
From Coq Require Import Reals List Arith ZArith Bool.
From Verif Require Import Base RBase RLin CBase.
Import ListNotations.
Local Open Scope R_scope.

Definition cis (t : R) : cx := (cos t, sin t).
(** [fftpack.fft] of a real array and [fftpack.ifft] *)
Definition fft (x : list R) : list cx :=
  let n := length x in map (fun k => csum n (fun j => cxmul (rcx (nth j x 0)) (cis (- (2 * PI / INR n * INR k * INR j))))) (seq 0 n).
Definition ifft (X : list cx) : list cx :=
  let n := length X in map (fun j => cxmul (rcx (/ INR n)) (csum n (fun k => cxmul (nth k X (rcx 0)) (cis (2 * PI / INR n * INR k * INR j))))) (seq 0 n).
(** [fftpack.fftfreq(n, d)]: 0 .. (n-1)//2, then -(n//2) .. -1, divided by n d *)
Definition fftfreq (n : nat) (d : R) : list R :=
  let N := ((n - 1) / 2 + 1)%nat in map (fun k => (if (k <? N)%nat then INR k else - INR (n / 2) + INR (k - N)) / (INR n * d)) (seq 0 n).
(** dedlib.py:417-419 and 421-423 *)
Definition band (freq : list R) (cutoff : R) (x : list R) : list R :=
  map re (ifft (map (fun fX => if Rltb cutoff (Rabs (fst fX)) then rcx 0 else snd fX) (combine freq (fft x)))).

(** [scipy.interpolate.interp1d] for abscissae in ascending order (others are sorted
    first, not modelled): np.searchsorted from the left, clipped, then the straight line. *)
Definition searchsorted (xs : list R) (x : R) : nat := length (filter (fun y => Rltb y x) xs).
Definition line (xs : list R) (ys : list cx) (x : R) : cx :=
  let hi := Nat.min (Nat.max (searchsorted xs x) 1) (length xs - 1) in
  let lo := (hi - 1)%nat in
  let slope := cxmul (cxsub (nth hi ys (rcx 0)) (nth lo ys (rcx 0))) (rcx (/ (nth hi xs 0 - nth lo xs 0))) in
  cxadd (cxmul slope (rcx (x - nth lo xs 0))) (nth lo ys (rcx 0)).
Definition outside (xs : list R) (x : R) : bool := Rltb x (nth 0 xs 0) || Rltb (nth (length xs - 1) xs 0) x.
(** with [bounds_error] (the default) and with [bounds_error=False, fill_value=0.] *)
Definition interp_strict (xs : list R) (ys : list cx) (x : R) : res cx := if outside xs x then Err ValueError else Ok (line xs ys x).
Definition interp_zero (xs : list R) (ys : list cx) (x : R) : cx := if outside xs x then rcx 0 else line xs ys x.

Definition arrmax (l : list R) : res R := match l with [] => Err ValueError | x :: l => Ok (fold_left Rmax l x) end.
Definition arrmin (l : list R) : res R := match l with [] => Err ValueError | x :: l => Ok (fold_left Rmin l x) end.
(** [np.linspace(a, b, n, endpoint=True)] *)
Definition linspace (a b : R) (n : nat) : list R := map (fun j => a + INR j * ((b - a) / INR (n - 1))) (seq 0 n).

(** dedlib.py:401-427 [smooth]; the function returned *)
Definition smooth (energies : list R) (sigma : list cx) (cutoff : R) : res (R -> cx) :=
  if negb (length energies =? length sigma)%nat then Err ValueError else
  do a <- arrmin energies; do b <- arrmax energies;
  let n := Z.to_nat (Int_part ((b - a) / (1 / 100) + 1)) in
  let grid := linspace a b n in
  do sig <- mapM (interp_strict energies sigma) grid;
  do e1 <- match nth_error grid 1 with Some e => Ok e | None => Err IndexError end;
  do e0 <- match nth_error grid 0 with Some e => Ok e | None => Err IndexError end;
  let freq := fftfreq (length sig) (e1 - e0) in
  let fim := band freq cutoff (map im sig) in
  let fre := band freq cutoff (map re sig) in
  Ok (interp_zero grid (map (fun p => cxadd (rcx (fst p)) (cxmul ci (rcx (snd p)))) (combine fre fim))).
