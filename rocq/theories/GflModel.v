(** Model of the Lanczos Green's function builders of edpyt/gf_lanczos.py and
    edpyt/gf2_lanczos.py, with exact real and complex arithmetic.  Functions of
    the energy are modelled at one energy. *)
From Coq Require Import Reals String List Arith NArith ZArith Bool.
From Verif Require Import Base RBase RLin CBase SectorModel LocalModel MatvecModel EspaceModel ProjModel CfModel GfModel.
Import ListNotations.
Local Open Scope R_scope.

(** gf_lanczos.py:39 [_reprs.index(repr)]. *)
Inductive kern := KCf | KSp.
Definition repr_of (s : string) : res kern :=
  if String.eqb s "cf" then Ok KCf else if String.eqb s "sp" then Ok KSp else Err ValueError.
(** A closure made by [continued_fraction] or [spectral]. *)
Inductive func := Func (k : kern) (a b : list R).
Definition func_call (f : func) (e : cx) (eta : R) : res cx :=
  match f with Func KCf a b => k_cf a b e eta | Func KSp l q => k_sp l q e eta end.
(** gf_lanczos.py:42-52 [class Gf]. *)
Record gl_t := mkgl { gl_funcs : list func; gl_Z : R }.
Definition gl_call (g : gl_t) (e : cx) (eta : R) : res cx :=
  do xs <- mapM (fun f => func_call f e eta) (gl_funcs g);
  Ok (cxdiv (fold_left cxadd xs (rcx 0)) (rcx (gl_Z g))).

(** [espace[key] = s] for an existing key. *)
Definition es_put (es : espace RRing) (q : qnums) (s : sct RRing) : espace RRing :=
  map (fun e => if list_eq_dec Nat.eq_dec (fst e) q then (fst e, s) else e) es.

Section Build.
(** [solve_sector(H, V, sct)], [matvec_operator( *build_mb_ham(H, V, sct))],
    [build_sl_tridiag] and [eigh_tridiagonal]. *)
Variable solve : states_t -> res (list R * list (list R)).
Variable mvop : states_t -> res (list R -> res (list R)).
Variable tridiag : (list R -> res (list R)) -> list R -> res (list R * list R).
Variable eigh : list R -> list R -> res (list R * list (list R)).
Variable n : nat.

Definition coeff (k : kern) : list R -> list R -> R -> R -> R -> res (list R * list R) :=
  match k with KCf => build_gf_coeff_cf | KSp => build_gf_coeff_sp eigh end.

(** [espace.get(key) or build_empty_sector(n, nup, ndw)]. *)
Definition arrive (es : espace RRing) (q : qnums) : res (sct RRing) :=
  match es_find es q with
  | Some s => Ok s
  | None => do st <- qns_states n q; Ok (mksct RRing st [] (NoVecs RRing))
  end.

(** [get_cdg_sector] / [get_c_sector] with [except OutOfHilbertError: pass]. *)
Definition target (op : fop) (nup ndw : nat) (ispin : Z) : res (option qnums) :=
  match (match op with
         | OpCdg => get_cdg_sector (Z.of_nat n) (Z.of_nat nup) (Z.of_nat ndw) ispin
         | OpC => get_c_sector (Z.of_nat nup) (Z.of_nat ndw) ispin
         end) with
  | Ok (nupJ, ndwJ) => Ok (Some [Z.to_nat nupJ; Z.to_nat ndwJ])
  | Err OutOfHilbertError => Ok None
  | Err e => Err e
  end.
Definition op_sign (op : fop) : R := match op with OpCdg => 1 | OpC => -1 end.
(** [EJ - EI] and [- EJ + EI]. *)
Definition gap (op : fop) (ej ei : R) : R := match op with OpCdg => ej - ei | OpC => - ej + ei end.

(** gf_lanczos.py:178-193 and 216-231: the arrival sector is diagonalised and
    stored (when it is an entry of the dictionary). *)
Definition small_side (op : fop) (pos : nat) (ispin : Z) (es : espace RRing) (sI : sct RRing) (exps : list R) (q : qnums) (sJ : sct RRing)
    : res (espace RRing * list func) :=
  do (w, U) <- solve (s_states RRing sJ);
  let sJ := mksct RRing (s_states RRing sJ) w (Cols RRing U) in
  do project <- pick ispin (project_exact_up RRing) (project_exact_dw RRing);
  do b <- project pos n op sI sJ;
  Ok (es_put es q sJ,
      [Func KSp (flat_map (fun ej => map (gap op ej) (s_vals RRing sI)) w)
                (flat_map (fun row => map (fun p : R * R => fst p ^ 2 * snd p) (combine row exps)) b)]).
(** gf_lanczos.py:195-208 and 233-246; [catch] says whether
    [ZeroNormInitialVector] is caught. *)
Definition lanczos_side (catch : bool) (k : kern) (op : fop) (v0 : list (list R)) (sI : sct RRing) (exps : list R) (sJ : sct RRing) : res (list func) :=
  do mv <- mvop (s_states RRing sJ);
  foldM (fun acc iL =>
      match tridiag mv (nth iL v0 []) with
      | Ok (a, b) =>
          do (a, b) <- coeff k a b (nth iL (s_vals RRing sI) 0) (nth iL exps 0) (op_sign op);
          Ok (acc ++ [Func k a b])
      | Err ZeroNormInitialVector => if catch then Ok acc else Err ZeroNormInitialVector
      | Err e => Err e
      end) (seq 0 (length (s_vals RRing sI))) [].
(** One [try] block of gf_lanczos.py:171-208 / 209-246. *)
Definition gl_side (k : kern) (op : fop) (pos : nat) (ispin : Z) (es : espace RRing) (nup ndw : nat) (sI : sct RRing) (exps : list R)
    : res (espace RRing * list func) :=
  do t <- target op nup ndw ispin;
  match t with
  | None => Ok (es, [])
  | Some q =>
      do sJ <- arrive es q;
      if (s_d RRing sJ <=? 10)%nat then small_side op pos ispin es sI exps q sJ
      else
        do project <- pick ispin (project_up RRing) (project_dw RRing);
        do v0 <- project pos n op sI sJ;
        do fs <- lanczos_side true k op v0 sI exps sJ;
        Ok (es, fs)
  end.
Definition exponents (beta egs : R) (s : sct RRing) : list R := map (boltz beta egs) (s_vals RRing s).
(** The loop over the sectors; the three components are the dictionary and the
    functions added to [gfe] and [gfh], one object unless [separate]. *)
Definition gl_step (k : kern) (beta egs : R) (pos : nat) (ispin : Z) (separate : bool) (acc : espace RRing * list func * list func) (key : qnums)
    : res (espace RRing * list func * list func) :=
  let '(es, fe, fh) := acc in
  match key with
  | [nup; ndw] =>
      do sI <- es_get es key;
      let exps := exponents beta egs sI in
      do (es, f1) <- gl_side k OpCdg pos ispin es nup ndw sI exps;
      do (es, f2) <- gl_side k OpC pos ispin es nup ndw sI exps;
      Ok (if separate then (es, fe ++ f1, fh ++ f2) else (es, fe ++ f1 ++ f2, fh))
  | _ => Err ValueError
  end.
(** gf_lanczos.py:132-254 [build_gf_lanczos]: the dictionary afterwards, [gfe]
    and [gfh]. *)
Definition build_gf_lanczos (es : espace RRing) (beta egs : R) (pos : nat) (repr : string) (ispin : Z) (separate : bool)
    : res (espace RRing * gl_t * gl_t) :=
  do k <- repr_of repr;
  do _ <- pick ispin tt tt;
  do (r, fh) <- foldM (gl_step k beta egs pos ispin separate) (map fst es) (es, [], []);
  let (es, fe) := (r : espace RRing * list func) in
  let Z := partition beta egs es in
  Ok (es, mkgl fe Z, if separate then mkgl fh Z else mkgl fe Z).

(** ** gf2_lanczos.py *)
Definition vsum (u v : list (list R)) : list (list R) :=
  map (fun p : list R * list R => map (fun q : R * R => fst q + snd q) (combine (fst p) (snd p))) (combine u v).
(** gf2_lanczos.py:78-96 and 98-118 *)
Definition off_side (k : kern) (op : fop) (ipos jpos : nat) (ispin : Z) (es : espace RRing) (nup ndw : nat) (sI : sct RRing) (exps : list R) : res (list func) :=
  do t <- target op nup ndw ispin;
  match t with
  | None => Ok []
  | Some q =>
      do sJ <- arrive es q;
      do project <- pick ispin (project_up RRing) (project_dw RRing);
      do vi <- project ipos n op sI sJ;
      do vj <- project jpos n op sI sJ;
      lanczos_side false k op (vsum vi vj) sI exps sJ
  end.
Definition off_step (k : kern) (beta egs : R) (ipos jpos : nat) (ispin : Z) (separate : bool) (es : espace RRing) (acc : list func * list func) (key : qnums)
    : res (list func * list func) :=
  let '(fe, fh) := acc in
  match key with
  | [nup; ndw] =>
      do sI <- es_get es key;
      let exps := exponents beta egs sI in
      do f1 <- off_side k OpCdg ipos jpos ispin es nup ndw sI exps;
      do f2 <- off_side k OpC ipos jpos ispin es nup ndw sI exps;
      Ok (if separate then (fe ++ f1, fh ++ f2) else (fe ++ f1 ++ f2, fh))
  | _ => Err ValueError
  end.
(** gf2_lanczos.py:59-127 [build_gf_offdiag] *)
Definition build_gf_offdiag (es : espace RRing) (beta : R) (ipos jpos : nat) (ispin : Z) (egs : R) (repr : string) (separate : bool) : res (gl_t * gl_t) :=
  do k <- repr_of repr;
  do _ <- pick ispin tt tt;
  do (fe, fh) <- foldM (off_step k beta egs ipos jpos ispin separate es) (map fst es) ([], []);
  let Z := partition beta egs es in
  Ok (mkgl fe Z, if separate then mkgl fh Z else mkgl fe Z).

(** gf2_lanczos.py:8-38 [_Gf2]: an array of Green's functions, [None] where
    nothing has been stored. *)
Definition gtab := list (list (option gl_t)).
Definition tab_at (t : gtab) (i j : nat) : option gl_t := nth j (nth i t []) None.
Definition ocall (g : option gl_t) (e : cx) (eta : R) : res cx := match g with Some g => gl_call g e eta | None => Err TypeError end.
Definition set2 {A} (m : list (list A)) (i j : nat) (x : A) : list (list A) := upd_tot m i (upd_tot (nth i m []) j x).
Definition half_of (x : cx) : cx := cxmul (rcx (1 / 2)) x.
(** gf2_lanczos.py:14-27; [mem] is the content of [np.empty((n,n))]. *)
Definition gf2_evaluate (t : gtab) (mem : list (list cx)) (e : cx) (eta : R) : res (list (list cx)) :=
  let m := length t in
  do G <- foldM (fun G i => do g <- ocall (tab_at t i i) e eta; Ok (set2 G i i g)) (seq 0 m) mem;
  foldM (fun G i => foldM (fun G j =>
      do g <- ocall (tab_at t i j) e eta;
      let x := half_of (cxsub (cxsub g (nth i (nth i G []) (rcx 0))) (nth j (nth j G []) (rcx 0))) in
      Ok (set2 (set2 G i j x) j i x)) (seq (S i) (m - S i)) G) (seq 0 m) G.
(** gf2_lanczos.py:29-35: element [i, j], then called *)
Definition gf2_item (t : gtab) (i j : nat) (e : cx) (eta : R) : res cx :=
  if (i =? j)%nat then ocall (tab_at t i j) e eta
  else
    do g <- ocall (tab_at t i j) e eta;
    do gi <- ocall (tab_at t i i) e eta;
    do gj <- ocall (tab_at t j j) e eta;
    Ok (half_of (cxsub (cxsub g gi) gj)).
(** gf2_lanczos.py:40-56 [Gf2]: one table, or one for each part *)
Inductive gf2_t := Gf2one (t : gtab) | Gf2two (te th : gtab).
Definition gf2_call (g : gf2_t) (mem : list (list cx)) (e : cx) (eta : R) : res (list (list (list cx))) :=
  match g with
  | Gf2one t => do x <- gf2_evaluate t mem e eta; Ok [x]
  | Gf2two te th => do x <- gf2_evaluate te mem e eta; do y <- gf2_evaluate th mem e eta; Ok [x; y]
  end.
Definition gf2_get (g : gf2_t) (i j : nat) (e : cx) (eta : R) : res cx :=
  match g with
  | Gf2one t => gf2_item t i j e eta
  | Gf2two te th => do x <- gf2_item te i j e eta; do y <- gf2_item th i j e eta; Ok (cxadd x y)
  end.
(** gf2_lanczos.py:130-161 [build_gf2_lanczos]; also the dictionary afterwards *)
Definition build_gf2_lanczos (es : espace RRing) (beta egs : R) (ispin : Z) (repr : string) (separate : bool) : res (espace RRing * gf2_t) :=
  let empty := repeat (repeat (@None gl_t) n) n in
  do (es, te, th) <- foldM (fun acc i =>
      let '(es, te, th) := (acc : espace RRing * gtab * gtab) in
      do (es, ge, gh) <- build_gf_lanczos es beta egs i repr ispin separate;
      Ok (es, set2 te i i (Some ge), set2 th i i (Some gh))) (seq 0 n) (es, empty, empty);
  do (te, th) <- foldM (fun acc i => foldM (fun acc j =>
      let '(te, th) := (acc : gtab * gtab) in
      do (ge, gh) <- build_gf_offdiag es beta i j ispin egs repr separate;
      Ok (set2 te i j (Some ge), set2 th i j (Some gh))) (seq (S i) (n - S i)) acc) (seq 0 n) (te, th);
  Ok (es, if separate then Gf2two te th else Gf2one te).
End Build.

(** [build_sl_tridiag] in real arithmetic, and with its default arguments. *)
Definition tridiag_with {E} (maxn ND : nat) (tiny : R -> bool) (egs : list R -> list R -> res E) (close : option E -> E -> bool) (ga gb : nat -> R)
    (mv : list R -> res (list R)) (phi : list R) : res (list R * list R) :=
  do s <- real_sl_tridiag tiny egs close mv phi ga gb maxn ND;
  Ok (LanczosModel.ret_a _ _ s, LanczosModel.ret_b _ _ s).
Definition default_tridiag {E} (tiny : R -> bool) (egs : list R -> list R -> res E) (close : option E -> E -> bool) (ga gb : nat -> R) :=
  tridiag_with 500 10 tiny egs close ga gb.
