(** [SpinGfimp] of edpyt/dmft.py: an impurity with one Hamiltonian per spin, and
    the loop started with a field.  As in SiamModel the parameters of shared.py
    are those of the file except for hfmode.  When a call raises, what it has
    already written is not modelled. *)
From Coq Require Import Reals String List Arith NArith ZArith Bool.
From Verif Require Import Base RBase RLin CBase SectorModel LocalModel HoppingModel NonLocalModel MatvecModel MbModel EspaceModel EspaceRealModel ProjModel CfModel GfModel GflModel AgrModel FitModel DmftModel SiamModel.
Import ListNotations.
Local Open Scope R_scope.

Section Solve.
Variables (big : R -> bool) (half : R).
Variable eigh : dense RRing -> res (list R * list (list R)).
Variable eigsh : nat -> Z -> (list R -> res (list R)) -> res (list R * list (list R)).
Variable tridiag : (list R -> res (list R)) -> list R -> res (list R * list R).
Variable eight : list R -> list R -> res (list R * list (list R)).
Variables (fl : hflags) (hf : bool).
Variables (n : nat) (beta : R) (neig : option (list Z)) (adjust : bool).
(** dmft.py:188 [self.H], of shape (2,n,n): layer 0 is up, layer 1 down. *)
Definition layers (Hu Hd : list R) : hmat RRing := H3 RRing (fun s i j => nth (i * n + j) (match s with O => Hu | _ => Hd end) 0).
(** dmft.py:237-248 [SpinGfimp.solve] (the second definition in the class; the
    first is overwritten): the two functions, the dictionary, the ground state
    energy and the requests.  Both functions are built from one dictionary, the
    second from what the first call has left of it. *)
Definition solve_spins (Hu Hd : list R) (U : R) : res ((gl_t * gl_t) * espace RRing * R * option (list Z)) :=
  let h := layers Hu Hd in let V := VArray RRing (on_site U) in
  do r <- build_espace RRing Rleb big half eigh eigsh n h fl V hf 0 None neig "sz";
  match snd r with
  | None => Err ValueError
  | Some egs =>
    let (o, es) := screen_espace RRing (boltzmann 1000000 egs (/ 1000000000)) (fst r) in
    do _ <- o;
    do neig <- (if adjust then match neig with None => Err TypeError | Some l => do l <- adjust_neigsector RRing n es l; Ok (Some l) end else Ok neig);
    do u <- gf_lanczos_of big half eigh eigsh n h fl V hf 0 None tridiag eight es beta egs 0 "sp" 0 false;
    do d <- gf_lanczos_of big half eigh eigsh n h fl V hf 0 None tridiag eight (fst (fst u)) beta egs 0 "sp" 1 false;
    Ok ((snd (fst u), snd (fst d)), fst (fst d), egs, neig)
  end.
Definition spin_solver (Hu Hd : list R) (U : R) : res ((cx -> cx) * (cx -> cx)) :=
  do r <- solve_spins Hu Hd U; let ud := fst (fst (fst r)) in Ok (value_at (fst ud), value_at (snd ud)).
End Solve.

(** ** The object: a pair (up, down), see DmftModel *)
Section Spins.
Variable fitter : list R -> list cx -> list R.
Variable solver2 : list R -> list R -> R -> res ((cx -> cx) * (cx -> cx)).
Definition spins := (gfimp * gfimp)%type.
Definition both := (list cx * list cx)%type.
(** dmft.py:204-206 [reset_bath], 212-214 [fit]; [update] is [spin_update]. *)
Definition spin_reset (ud : spins) : res spins := do u <- imp_reset_bath (fst ud); do d <- imp_reset_bath (snd ud); Ok (u, d).
Definition spin_fit (ud : spins) (delta : both) : spins := (imp_fit fitter (fst ud) (fst delta), imp_fit fitter (snd ud) (snd delta)).
(** dmft.py:237-248; [V] is looked up in the up function (200-202). *)
Definition spin_solve (ud : spins) : res spins :=
  do f <- solver2 (imp_H (fst ud)) (imp_H (snd ud)) (imp_U (fst ud)); Ok (set_gf (fst ud) (fst f), set_gf (snd ud) (snd f)).
(** dmft.py:230-231 [Sigma], at one point *)
Definition spin_Sigma (ud : spins) (z : cx) : res (cx * cx) := do u <- imp_Sigma (fst ud) z; do d <- imp_Sigma (snd ud) z; Ok (u, d).
(** dmft.py:278-283 on the stacked self-energy: numpy works row by row. *)
Definition spin_Delta_grid (ud : spins) (l : gfloc) (zs : list cx) : res both := do u <- loc_Delta_grid (fst ud) l zs; do d <- loc_Delta_grid (snd ud) l zs; Ok (u, d).
(** dmft.py:349-354 [dmft_step] *)
Definition spin_dmft_step (delta : both) (ud : spins) (l : gfloc) : res (spins * gfloc) :=
  let ud := spin_fit ud delta in
  do mu <- attr (loc_mu l); do ed <- attr (loc_ed l);
  do ud <- spin_solve (spin_update ud (mu - ed));
  Ok (ud, loc_set_local l SImp).
(** dmft.py:365-371 [dmft_step_magnetic]; [delta] has one row *)
Definition magnetic_step (delta : list cx) (ud : spins) (l : gfloc) (sign field : R) : res (spins * gfloc) :=
  do mu <- attr (loc_mu l); do ed <- attr (loc_ed l);
  do ud <- spin_solve (magnetic_setup fitter delta ud mu ed sign field);
  Ok (ud, loc_set_local l SImp).
(** dmft.py:415-423 [initialize] with a self-energy of one row *)
Definition spin_initialize (zs : list cx) (ud : spins) (l : gfloc) (U : R) (Sigma : cx -> cx) (mu : option R) : res (spins * gfloc * list cx) :=
  let mu := match mu with None => U / 2 | Some mu => mu end in
  let l := loc_update (loc_set_local l (SFun Sigma)) mu in
  do ed <- attr (loc_ed l);
  do ud <- spin_reset (spin_update ud (mu - ed));
  do d <- loc_Delta_grid (fst ud) l zs;
  Ok (ud, l, d).
(** dmft.py:425-428 [initialize_magnetic] *)
Definition initialize_magnetic (zs : list cx) (ud : spins) (l : gfloc) (U : R) (Sigma : cx -> cx) (sign field : R) (mu : option R) : res (spins * gfloc * both) :=
  do i <- spin_initialize zs ud l U Sigma mu;
  let '(ud, l, d) := i in
  do r <- magnetic_step d ud l sign field;
  do d <- spin_Delta_grid (fst r) (snd r) zs;
  Ok (fst r, snd r, d).
(** dmft.py:430-438 [DMFT.step] without adjustment of the potential *)
Definition spin_step (zs : list cx) (udl : spins * gfloc) (delta : both) : res ((spins * gfloc) * both) :=
  do r <- spin_dmft_step delta (fst udl) (snd udl);
  do d <- spin_Delta_grid (fst r) (snd r) zs;
  Ok (r, d).
End Spins.
