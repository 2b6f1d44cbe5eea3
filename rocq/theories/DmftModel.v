(** Model of edpyt/dmft.py (and the hybridisation of edpyt/nano_dmft.py) with
    exact complex arithmetic.  [np.reciprocal] of zero is not modelled specially
    (theorems ask for non-zero arguments); printing is left out. *)
From Coq Require Import Reals List Arith ZArith Bool.
From Verif Require Import Base RBase RLin CBase EspaceModel FitModel.
Import ListNotations.
Local Open Scope R_scope.

(** ** The impurity Green's function *)
(** dmft.py:62-96 [Gfimp.__init__]: [n] sites, bath parameters [Delta.x], [H] flat
    in row order, [V[0,0]], and the interacting function [gf] set by [solve]
    (absent before). *)
Record gfimp := mkImp { imp_n : nat; imp_x : list R; imp_H : list R; imp_U : R; imp_gf : option (cx -> cx) }.
Definition set_x g x := mkImp (imp_n g) x (imp_H g) (imp_U g) (imp_gf g).
Definition set_H g H := mkImp (imp_n g) (imp_x g) H (imp_U g) (imp_gf g).
Definition set_gf g f := mkImp (imp_n g) (imp_x g) (imp_H g) (imp_U g) (Some f).

(** Entries all written, as numbers. *)
Fixpoint unopt (p : list (option R)) : list R := match p with [] => [] | Some x :: p => x :: unopt p | None :: p => 0 :: unopt p end.
(** dmft.py:45-46 [Delta.reset_bath] *)
Definition reset_x (x : list R) : res (list R) := do p <- get_initial_bath (Some (map Some x)) None 2; Ok (unopt p).
Definition imp_reset_bath (g : gfimp) : res gfimp := do x <- reset_x (imp_x g); Ok (set_x g x).
(** dmft.py:37-43, 83-91: [np.empty] memory [mem] of [2*(n-1)] entries *)
Definition imp_init (n : nat) (U : R) (mem : list R) : res gfimp :=
  do x <- reset_x mem; Ok (mkImp n x (repeat 0 (n * n)) U None).
(** dmft.py:102-105 [mu] *)
Definition imp_mu (g : gfimp) : R := - nth 0 (imp_H g) 0.

(** Assignment of a vector to a strided slice: positions [i0, i0+s, ...] *)
Definition put (H : list R) (i0 s : nat) (v : list R) : list R :=
  fold_left (fun H k => upd_tot H (i0 + s * k) (nth k v 0)) (seq 0 (length v)) H.
Section Imp.
(** fit_cg.py:67-73 [fit_hybrid]: [p[:] = fmin_cg(chi2, p, dchi2)]; the optimiser
    is any function of its starting point and the data. *)
Variable fitter : list R -> list cx -> list R.
(** gf of the solved model, from [H] and [V] (espace and gf_lanczos) *)
Variable solver : list R -> R -> res (cx -> cx).

(** dmft.py:107-117 [Gfimp.fit].  [nbath] is [n-1]. *)
Definition imp_fit (g : gfimp) (delta : list cx) : gfimp :=
  let x := fitter (imp_x g) delta in
  let n := imp_n g in
  let ek := firstn (n - 1) x in let vk := skipn (n - 1) x in
  let H := put (imp_H g) n n vk in            (* H[1:, 0] *)
  let H := put H 1 1 vk in                    (* H[0, 1:] *)
  let H := put H (n + 1) (n + 1) ek in        (* H.flat[(n+1)::(n+1)] *)
  set_H (set_x g x) H.
(** dmft.py:119-121 [update] *)
Definition imp_update (g : gfimp) (mu : R) : gfimp := set_H g (upd_tot (imp_H g) 0 (- mu)).
(** dmft.py:123-126 *)
Definition imp_fit_update (g : gfimp) (delta : list cx) (mu : R) : gfimp := imp_update (imp_fit g delta) mu.
(** dmft.py:128-136 [free] *)
Definition imp_free_inv (g : gfimp) (z : cx) : cx := cxsub (cxsub z (rcx (nth 0 (imp_H g) 0))) (delta1 (imp_x g) z).
Definition imp_free (g : gfimp) (z : cx) : cx := cxinv (imp_free_inv g z).
(** dmft.py:145-150 [Sigma]; before [solve] the attribute [gf] is looked up in
    [Delta] and missing *)
Definition imp_Sigma (g : gfimp) (z : cx) : res cx :=
  match imp_gf g with None => Err AttributeError | Some gf => Ok (cxsub (imp_free_inv g z) (cxinv (gf z))) end.
(** dmft.py:138-143 [__call__] *)
Definition imp_call (g : gfimp) (z : cx) : res cx :=
  do s <- imp_Sigma g z;
  Ok (cxinv (cxsub (cxsub (cxsub z (rcx (nth 0 (imp_H g) 0))) (delta1 (imp_x g) z)) s)).
(** dmft.py:152-164 [solve] *)
Definition imp_solve (g : gfimp) : res gfimp := do f <- solver (imp_H g) (imp_U g); Ok (set_gf g f).

(** A caller's program on one impurity. *)
Inductive imp_op := OpFit (delta : list cx) | OpUpdate (mu : R) | OpReset | OpSolve.
Definition imp_do (g : gfimp) (op : imp_op) : res gfimp :=
  match op with
  | OpFit delta => Ok (imp_fit g delta)
  | OpUpdate mu => Ok (imp_update g mu)
  | OpReset => imp_reset_bath g
  | OpSolve => imp_solve g
  end.

(** ** The local Green's function, dmft.py:266-346 *)
(** [Sigma] is a function, or the bound method [gfimp.Sigma] (evaluated on the
    impurity as it is at the time of the call). *)
Inductive selfe := SFun (f : cx -> cx) | SImp.
Inductive lattice := LHybrid (hyb : cx -> cx) | LHilbert (h : cx -> cx).
(** Attributes [mu], [Sigma] and [ed] may be missing. *)
Record gfloc := mkLoc { loc_kind : lattice; loc_mu : option R; loc_Sigma : option selfe; loc_ed : option R }.
Definition attr {A} (x : option A) : res A := match x with Some a => Ok a | None => Err AttributeError end.
(** dmft.py:270-276 *)
Definition loc_update (l : gfloc) (mu : R) := mkLoc (loc_kind l) (Some mu) (loc_Sigma l) (loc_ed l).
Definition loc_set_local (l : gfloc) (s : selfe) := mkLoc (loc_kind l) (loc_mu l) (Some s) (loc_ed l).
Definition eval_Sigma (g : gfimp) (s : selfe) (z : cx) : res cx := match s with SFun f => Ok (f z) | SImp => imp_Sigma g z end.
(** dmft.py:314-320 and 341-346 [free(z, inverse=True)] *)
Definition loc_free_inv (l : gfloc) (z : cx) : res cx :=
  do mu <- attr (loc_mu l);
  Ok (match loc_kind l with
      | LHybrid hyb => cxsub (cxadd z (rcx mu)) (hyb z)
      | LHilbert h => cxinv (h (cxadd z (rcx mu)))
      end).
(** dmft.py:307-312 and 334-339 [__call__] *)
Definition loc_call (g : gfimp) (l : gfloc) (z : cx) : res cx :=
  match loc_kind l with
  | LHybrid _ => do f <- loc_free_inv l z; do s <- attr (loc_Sigma l); do s <- eval_Sigma g s z; Ok (cxinv (cxsub f s))
  | LHilbert h => do mu <- attr (loc_mu l); do s <- attr (loc_Sigma l); do s <- eval_Sigma g s z; Ok (h (cxsub (cxadd z (rcx mu)) s))
  end.
(** [inverse=True] *)
Definition loc_call_inv (g : gfimp) (l : gfloc) (z : cx) : res cx :=
  match loc_kind l with
  | LHybrid _ => do f <- loc_free_inv l z; do s <- attr (loc_Sigma l); do s <- eval_Sigma g s z; Ok (cxsub f s)
  | LHilbert _ => do x <- loc_call g l z; Ok (cxinv x)
  end.
(** dmft.py:285-288 [Weiss], 278-283 [Delta] *)
Definition loc_Weiss (g : gfimp) (l : gfloc) (z : cx) : res cx :=
  do gi <- loc_call_inv g l z; do s <- attr (loc_Sigma l); do s <- eval_Sigma g s z; Ok (cxadd s gi).
Definition loc_Delta (g : gfimp) (l : gfloc) (z : cx) : res cx :=
  do mu <- attr (loc_mu l); do w <- loc_Weiss g l z; Ok (cxsub (cxadd z (rcx mu)) w).
Definition loc_Delta_grid (g : gfimp) (l : gfloc) (zs : list cx) : res (list cx) := mapM (loc_Delta g l) zs.
(** nano_dmft.py:100-116 [Gfloc.Delta], one site: [z+mu-ed-weiss] *)
Definition nano_Delta (g : gfimp) (l : gfloc) (z : cx) : res cx :=
  do mu <- attr (loc_mu l); do ed <- attr (loc_ed l); do w <- loc_Weiss g l z; Ok (cxsub (cxsub (cxadd z (rcx mu)) (rcx ed)) w).

(** ** One step: dmft.py:349-354 [dmft_step] *)
Definition dmft_step (delta : list cx) (g : gfimp) (l : gfloc) : res (gfimp * gfloc) :=
  let g := imp_fit g delta in
  do mu <- attr (loc_mu l); do ed <- attr (loc_ed l);
  let g := imp_update g (mu - ed) in
  do g <- imp_solve g;
  Ok (g, loc_set_local l SImp).
(** dmft.py:415-423 [DMFT.initialize] *)
Definition initialize (zs : list cx) (g : gfimp) (l : gfloc) (U : R) (Sigma : selfe) (mu : option R) : res (gfimp * gfloc * list cx) :=
  let mu := match mu with None => U / 2 | Some mu => mu end in
  let l := loc_update (loc_set_local l Sigma) mu in
  do ed <- attr (loc_ed l);
  let g := imp_update g (mu - ed) in
  do g <- imp_reset_bath g;
  do d <- loc_Delta_grid g l zs;
  Ok (g, l, d).
(** dmft.py:430-438 [DMFT.step] without adjustment of the potential *)
Definition step (zs : list cx) (gl : gfimp * gfloc) (delta : list cx) : res ((gfimp * gfloc) * list cx) :=
  do gl <- dmft_step delta (fst gl) (snd gl);
  do d <- loc_Delta_grid (fst gl) (snd gl) zs;
  Ok (gl, d).

(** ** Two spins: dmft.py:174-263 [SpinGfimp] as a pair (up, down) whose [H] are the
    two layers of one array *)
(** dmft.py:244-246 [spin_symmetrize] *)
Definition spin_symmetrize (ud : gfimp * gfimp) : gfimp * gfimp :=
  (fst ud, set_H (set_x (snd ud) (imp_x (fst ud))) (imp_H (fst ud))).
(** dmft.py:211-212 *)
Definition spin_update (ud : gfimp * gfimp) (mu : R) : gfimp * gfimp := (imp_update (fst ud) mu, imp_update (snd ud) mu).
(** dmft.py:365-371 [dmft_step_magnetic], up to [solve] *)
Definition magnetic_setup (delta : list cx) (ud : gfimp * gfimp) (mu ed sign field : R) : gfimp * gfimp :=
  let ud := (imp_fit (fst ud) delta, snd ud) in
  let ud := spin_symmetrize ud in
  (imp_update (fst ud) (mu + sign * field - ed), imp_update (snd ud) (mu - sign * field - ed)).
End Imp.

(** ** The driver: dmft.py:444-460 [DMFT.__call__], 440-442 [distance] *)
Section Driver.
(** [S] everything the step reads and writes; [D] hybridisation arrays; [step] may
    raise. *)
Variables (S D : Type) (dstep : S -> D -> res (S * D)) (dist : D -> D -> R).
Variables (tol : R) (max_iter : nat).
Definition dmft_call (st : S * nat) (delta : D) : (S * nat) * res D :=
  let '(s, it) := st in
  match dstep s delta with
  | Err e => ((s, it), Err e)
  | Ok (s', new) =>
    if Rltb (dist new delta) tol then ((s', it), Err ConvergedExc)
    else if (max_iter <? it + 1)%nat then ((s', (it + 1)%nat), Err FailedToConvergeExc)
    else ((s', (it + 1)%nat), Ok new)
  end.
(** [solve]: a mixing scheme (broyden1, linearmixing) is any rule choosing the next
    trial from all earlier trials and results, or stopping ([None]).  The history
    is kept newest first. *)
Fixpoint drive (mix : list (D * D) -> option D) (fuel : nat) (hist : list (D * D)) (st : S * nat) : (S * nat) * list D * res unit :=
  match mix hist with
  | None => (st, [], Ok tt)
  | Some delta =>
    match fuel with
    | O => (st, [], Err OutOfFuel)
    | Datatypes.S fuel =>
      match dmft_call st delta with
      | (st', Err e) => (st', [delta], Err e)
      | (st', Ok new) => let '(st'', ev, r) := drive mix fuel ((delta, new) :: hist) st' in (st'', delta :: ev, r)
      end
    end
  end.
End Driver.

(** ** dmft.py:447-448: the causality safeguard, on a heap of arrays.
    [delta[mask]] with a boolean mask allocates a new array; [.imag = x] writes to
    the array it is applied to. *)
Definition heap := list (list cx).
Definition fancy (h : heap) (r : nat) (mask : list bool) : heap * nat :=
  (h ++ [map fst (filter (fun q : cx * bool => snd q) (combine (nth r h []) mask))], length h).
Definition set_imag (h : heap) (r : nat) (x : R) : heap := upd_tot h r (map (fun w => (re w, x)) (nth r h [])).
Definition safeguard (h : heap) (r : nat) : heap :=
  let mask := map (fun w => Rltb 0 (im w)) (nth r h []) in
  let '(h, r') := fancy h r mask in
  set_imag h r' (- (1 / 10 ^ 20)).

(** ** dmft.py:291-294: Bethe lattice; [csqrt] is the complex square root *)
Section Bethe.
Variable csqrt : cx -> cx.
Definition rsign (x : R) : R := if Rltb 0 x then 1 else if Rltb x 0 then -1 else 0.
Definition _ht (z : cx) : cx := cxmul (rcx 2) (cxsub z (cxmul (cxmul ci (rcx (rsign (im z)))) (csqrt (cxsub (rcx 1) (cxmul z z))))).
Definition ht_eps : R := 1 / 10 ^ 20.
Definition ht (z : cx) : cx := _ht (re z, if Rltb 0 (im z) then im z else ht_eps).
End Bethe.
