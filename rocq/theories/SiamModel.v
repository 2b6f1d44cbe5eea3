(** [Gfimp.solve] of edpyt/dmft.py with the library's own routines: complete
    diagonalisation, screening, Lanczos Green's function.  The parameters of
    shared.py are those of the file (mu = 0., z = None) except for hfmode, which
    is left open. *)
From Coq Require Import Reals String List Arith NArith ZArith Bool.
From Verif Require Import Base RBase RLin CBase SectorModel LocalModel HoppingModel NonLocalModel MatvecModel MbModel EspaceModel EspaceRealModel ProjModel CfModel GfModel GflModel AgrModel.
Import ListNotations.
Local Open Scope R_scope.

Section Solve.
Variables (big : R -> bool) (half : R).
Variable eigh : dense RRing -> res (list R * list (list R)).
Variable eigsh : nat -> Z -> (list R -> res (list R)) -> res (list R * list (list R)).
Variable tridiag : (list R -> res (list R)) -> list R -> res (list R * list R).
Variable eight : list R -> list R -> res (list R * list (list R)).
Variables (fl : hflags) (hf : bool).
(** dmft.py:83-96: sites, inverse temperature, spin, [neig] and [adjust_neig]. *)
Variables (n : nat) (beta : R) (spin : Z) (neig : option (list Z)) (adjust : bool).
(** [self.H], an n x n array stored by rows, and [self.V] (dmft.py:89-91). *)
Definition array_of (H : list R) : hmat RRing := H2 RRing (fun i j => nth (i * n + j) H 0).
Definition on_site (U : R) (i j : nat) : R := if ((i =? 0) && (j =? 0))%nat then U else 0.
(** dmft.py:152-164 [Gfimp.solve]: the function, the dictionary, the ground state
    energy and the requests.  [screen_espace] is called without [beta], so with
    beta=1e6 and cutoff=1e-9 (espace.py:202).  With [neig=None] the adjustment
    subscripts None.  The ground state energy is a number whenever some sector
    has been solved. *)
Definition solve_impurity (H : list R) (U : R) : res (gl_t * espace RRing * R * option (list Z)) :=
  let h := array_of H in let V := VArray RRing (on_site U) in
  do r <- build_espace RRing Rleb big half eigh eigsh n h fl V hf 0 None neig "sz";
  match snd r with
  | None => Err ValueError
  | Some egs =>
    let (o, es) := screen_espace RRing (boltzmann 1000000 egs (/ 1000000000)) (fst r) in
    do _ <- o;
    do neig <- (if adjust then match neig with None => Err TypeError | Some l => do l <- adjust_neigsector RRing n es l; Ok (Some l) end else Ok neig);
    do g <- gf_lanczos_of big half eigh eigsh n h fl V hf 0 None tridiag eight es beta egs 0 "sp" spin false;
    Ok (snd (fst g), fst (fst g), egs, neig)
  end.
(** [self.gf(z.real, z.imag)] (dmft.py:150).  A call that raises is given the
    value zero; the theorems show that none does off the real axis. *)
Definition value_at (g : gl_t) (z : cx) : cx := match gl_call g (rcx (re z)) (im z) with Ok v => v | Err _ => rcx 0 end.
Definition impurity_solver (H : list R) (U : R) : res (cx -> cx) := do r <- solve_impurity H U; Ok (value_at (fst (fst (fst r)))).
End Solve.
