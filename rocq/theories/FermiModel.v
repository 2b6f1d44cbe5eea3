(** Model of edpyt/integrate_gf.py, with exact real arithmetic.
    Arrays of numpy.zeros are functions that are 0 until written; reading an index
    that was never written therefore gives 0, as in the code.  [geigh] stands for
    scipy.linalg.eigh(a, b); eigenvectors are a list of columns. *)
From Coq Require Import Reals List Arith ZArith Bool.
From Verif Require Import Base RBase RLin CBase.
Import ListNotations.
Local Open Scope R_scope.

Definition set1 (a : nat -> R) (i : nat) (x : R) : nat -> R := fun k => if (k =? i)%nat then x else a k.
Definition set2 (A : nat -> nat -> R) (i j : nat) (x : R) : nat -> nat -> R := fun k l => if ((k =? i) && (l =? j))%nat then x else A k l.

Section Fermi.
Variable geigh : nat -> (nat -> nat -> R) -> (nat -> nat -> R) -> res (list R * list (list R)).

(** integrate_gf.py:27-28 *)
Definition fermi_B (M : nat) : nat -> nat -> R :=
  fold_left (fun B i => set2 B i i (2 * INR i - 1)) (seq 1 M) (fun _ _ => 0).
(** integrate_gf.py:30-32 *)
Definition fermi_A (M : nat) : nat -> nat -> R :=
  fold_left (fun A i => set2 (set2 A i (S i) (- (1 / 2))) (S i) i (- (1 / 2))) (seq 1 (M - 1)) (fun _ _ => 0).
(** integrate_gf.py:37-43: [a[j*M+i] = A[i+1,j+1]], then reshaped. *)
Definition packed (A : nat -> nat -> R) (j i : nat) : R := A (S i) (S j).

(** integrate_gf.py:16-62 [zero_fermi]. *)
Definition zero_fermi (nzp : nat) : res (list R * list R) :=
  let N := nzp in let M := (2 * N)%nat in
  do ev <- geigh M (packed (fermi_A M)) (packed (fermi_B M));
  let vals := fst ev in let vecs := snd ev in
  let zp := fun k => if (k <? M)%nat then nth k vals 0 else 0 in                        (* zp[:M] = eigvals *)
  let zp := fold_left (fun zp i => set1 zp i (zp (i - 1)%nat)) (rev (seq 1 M)) zp in     (* for i in range(M,0,-1) *)
  let zp := fold_left (fun zp i => set1 zp i (1 / zp i)) (seq 1 M) zp in
  let a := fun i => nth 0 (nth i vecs []) 0 in                                           (* eigvecs.T.flatten()[i*M] *)
  let Rp := fold_left (fun Rp i => set1 Rp (S i) (- a i * a i * zp (S i) * zp (S i) * (1 / 4))) (seq 0 M) (fun _ => 0) in
  Ok (map (fun i => - zp i) (seq 1 N), map Rp (seq 1 N)).

(** The radius 1e10 of integrate_gf.py:87, which replaces the argument R. *)
Definition radius : R := 10000000000.

(** integrate_gf.py:65-97 [integrate_gf] for a scalar mu; [kB] is k/e. *)
Definition integrate_gf (kB : R) (gf : cx -> cx) (mu T : R) (nzp : nat) (Rarg : R) : res R :=
  do zr <- zero_fermi nzp;
  let zp := fst zr in let Rp := snd zr in
  let beta := 1 / (kB * T) in
  let a_p := fun i => cxadd (rcx mu) (cxdiv (cxmul ci (rcx (nth i zp 0))) (rcx beta)) in
  let R := radius in
  let mu_0 := cxmul (cxmul ci (rcx R)) (gf (cxmul ci (rcx R))) in
  let mu_1 := fold_left (fun acc i => cxadd acc (cxmul (gf (a_p i)) (rcx (nth i Rp 0)))) (seq 0 nzp) (rcx 0) in
  let mu_1 := cxmul mu_1 (cxdiv (cxmul (cxopp ci) (rcx 4)) (rcx beta)) in
  let rho := re mu_0 + im mu_1 in
  Ok (rho / 2).

(** The same for a one-dimensional array of chemical potentials: [np.resize] repeats
    the poles in row-major order, integrate_gf.py:82-85. *)
Definition integrate_gf_array (kB : R) (gf : cx -> cx) (mus : list R) (T : R) (nzp : nat) (Rarg : R) : res (list R) :=
  do zr <- zero_fermi nzp;
  let zp := fst zr in let Rp := snd zr in
  let beta := 1 / (kB * T) in
  let m := length mus in
  let zp2 := fun i j => nth ((i * m + j) mod nzp) zp 0 in
  let a_p := fun i j => cxadd (rcx (nth j mus 0)) (cxdiv (cxmul ci (rcx (zp2 i j))) (rcx beta)) in
  let R := radius in
  let mu_0 := cxmul (cxmul ci (rcx R)) (gf (cxmul ci (rcx R))) in
  let mu_1 := fun j => fold_left (fun acc i => cxadd acc (cxmul (gf (a_p i j)) (rcx (nth i Rp 0)))) (seq 0 nzp) (rcx 0) in
  let mu_1 := fun j => cxmul (mu_1 j) (cxdiv (cxmul (cxopp ci) (rcx 4)) (rcx beta)) in
  Ok (map (fun j => (re mu_0 + im (mu_1 j)) / 2) (seq 0 m)).
End Fermi.

(** Sequence element, IndexError beyond the end; the last one for index -1. *)
Definition elem_at {A} (l : list A) (i : nat) : res A := match nth_error l i with Some x => Ok x | None => Err IndexError end.
Definition last_of {A} (l : list A) : res A := match l with [] => Err IndexError | x :: _ => Ok (last l x) end.

(** integrate_gf.py:113-137 [matsum_gf] for a Green's function with scalar values:
    [call m] evaluates the object while its attribute mu is [m].  The second
    component is the attribute mu afterwards: an exception skips line 135. *)
Definition matsum_body (call : R -> list cx -> res (list cx)) (mu : R) (nmats : nat) (beta : R) : res R :=
  let z := map (fun i => cxdiv (cxmul (cxmul ci (rcx (2 * INR i + 1))) (rcx PI)) (rcx beta)) (seq 0 nmats) in
  let w2 := map (fun zi => im zi * im zi) z in
  do gf_z <- call mu z;
  do g_last <- last_of gf_z;
  do w_last <- last_of w2;
  let mu := - re g_last * w_last in
  let mu2 := mu * mu in
  do s <- foldM (fun s i =>
            do g <- elem_at gf_z i; do zi <- elem_at z i; do wi <- elem_at w2 i;
            let tail := cxdiv (cxopp (cxadd (rcx mu) zi)) (rcx (mu2 + wi)) in
            Ok (s + re (cxsub g tail))) (seq 0 (length z)) 0;
  let At := - 1 / (1 + exp (- beta * mu)) in
  Ok (s * 2 / beta + At + 1).
Definition matsum_gf (call : R -> list cx -> res (list cx)) (mu_old mu : R) (nmats : nat) (beta : R) : res R * R :=
  match matsum_body call mu nmats beta with
  | Ok n => (Ok n, mu_old)
  | Err e => (Err e, mu)
  end.
