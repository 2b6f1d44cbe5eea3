(** Model of edpyt/cotunneling.py lines 28-184, 187-307, 310-343 and 369-373: the matrix elements of
    elastic and inelastic cotunnelling, with exact real arithmetic. *)
From Coq Require Import Reals List Arith ZArith Bool.
From Verif Require Import Base RBase RLin SectorModel MatvecModel EspaceModel ProjModel GfModel RateModel TransModel.
Import ListNotations.
Local Open Scope R_scope.

(** cotunneling.py:202-210 [Gf2]; [c_vF], [c_vI]: one row per intermediate state. *)
Record gf2 := mkgf2 { c_F : label; c_I : label; c_vF : list (list R); c_vI : list (list R); c_E : list R; c_dE : R; c_nsJ : nat * nat }.

(** [sgn * v] *)
Definition scaled (s : R) (v : list (list R)) : list (list R) := map (map (Rmult s)) v.
(** [v[...,j] = sgn * proj(j, n, op, sctI, sctJ)] for all sites *)
Definition signed_project (ispin : Z) (sgn : R) (n : nat) (op : fop) (I J : sct RRing) : res (list (list (list R))) :=
  mapM (fun j => do v <- project_exact ispin j n op I J; Ok (scaled sgn v)) (seq 0 n).
(** cotunneling.py:65-66, 101-102 *)
Definition sgn_of (ispin : Z) (ndw : nat) : R := if Z.eqb ispin 0 then (-1) ^ ndw else 1.
(** [v[f]] and [v[:,i]]: sites last *)
Definition row_of (v : list (list (list R))) (f nJ : nat) : list (list R) := map (fun j => map (fun m : list (list R) => nth j (nth f m []) 0) v) (seq 0 nJ).
Definition col_of (v : list (list (list R))) (i nJ : nat) : list (list R) := map (fun j => map (fun m : list (list R) => nth i (nth j m []) 0) v) (seq 0 nJ).

(** cotunneling.py:34-78 [project_add] *)
Definition project_add (ispin_i ispin_j : Z) (n nupI ndwI : nat) (es : espace RRing) : res (list gf2) :=
  do J <- get_cdg_sector (Z.of_nat n) (Z.of_nat nupI) (Z.of_nat ndwI) ispin_j;
  do F <- get_c_sector (fst J) (snd J) ispin_i;
  let nupJ := Z.to_nat (fst J) in let ndwJ := Z.to_nat (snd J) in
  let nupF := Z.to_nat (fst F) in let ndwF := Z.to_nat (snd F) in
  do sctI <- es_get es [nupI; ndwI];
  do sctJ <- es_get es [nupJ; ndwJ];
  do sctF <- es_get es [nupF; ndwF];
  do v_JI <- signed_project ispin_j (sgn_of ispin_j ndwI) n OpCdg sctI sctJ;
  do v_FJ <- signed_project ispin_i (sgn_of ispin_i ndwJ) n OpC sctJ sctF;
  let EI := s_vals RRing sctI in let EJ := s_vals RRing sctJ in let EF := s_vals RRing sctF in
  Ok (map (fun fi : nat * nat => let '(f, i) := fi in
    mkgf2 [nupF; ndwF; f] [nupI; ndwI; i] (row_of v_FJ f (length EJ)) (col_of v_JI i (length EJ))
      (map (fun e => e - nth i EI 0) EJ) (nth f EF 0 - nth i EI 0) (nupJ, ndwJ)) (ndindex (length EF) (length EI))).

(** cotunneling.py:81-114 [project_sub] *)
Definition project_sub (ispin_i ispin_j : Z) (n nupI ndwI : nat) (es : espace RRing) : res (list gf2) :=
  do J <- get_c_sector (Z.of_nat nupI) (Z.of_nat ndwI) ispin_j;
  do F <- get_cdg_sector (Z.of_nat n) (fst J) (snd J) ispin_i;
  let nupJ := Z.to_nat (fst J) in let ndwJ := Z.to_nat (snd J) in
  let nupF := Z.to_nat (fst F) in let ndwF := Z.to_nat (snd F) in
  do sctI <- es_get es [nupI; ndwI];
  do sctJ <- es_get es [nupJ; ndwJ];
  do sctF <- es_get es [nupF; ndwF];
  do v_JI <- signed_project ispin_j (sgn_of ispin_j ndwI) n OpC sctI sctJ;
  do v_FJ <- signed_project ispin_i (sgn_of ispin_i ndwJ) n OpCdg sctJ sctF;
  let EI := s_vals RRing sctI in let EJ := s_vals RRing sctJ in let EF := s_vals RRing sctF in
  Ok (map (fun fi : nat * nat => let '(f, i) := fi in
    mkgf2 [nupF; ndwF; f] [nupI; ndwI; i] (row_of v_FJ f (length EJ)) (col_of v_JI i (length EJ))
      (map (fun e => - e + nth i EI 0) EJ) (nth f EF 0 - nth i EI 0) (nupJ, ndwJ)) (ndindex (length EF) (length EI))).

(** cotunneling.py:243-295: [_Sigmae], [_Sigmah] and [Sigma]. *)
Inductive sigma := SE (e : gf2) | SH (h : gf2) | SEH (e h : gf2).
(** cotunneling.py:281-295.  Without both parts the object exists, but asking for
    its labels (line 157) raises.  [np.allclose] of two labels is equality. *)
Definition mk_sigma (e h : option gf2) : res sigma :=
  match e, h with
  | Some e, None => Ok (SE e)
  | None, Some h => Ok (SH h)
  | None, None => Err AttributeError
  | Some e, Some h => if label_eqb (c_F e) (c_F h) && label_eqb (c_I e) (c_I h) then Ok (SEH e h) else Err AssertionError
  end.
(** cotunneling.py:224-227 *)
Definition base (s : sigma) : gf2 := match s with SE e => e | SH h => h | SEH e _ => e end.
Definition skey (s : sigma) : key2 := (c_F (base s), c_I (base s)).

(** [zip_longest] *)
Fixpoint zip_longest {A} (l m : list (option A)) : list (option A * option A) :=
  match l, m with
  | [], [] => []
  | a :: l, [] => (a, None) :: zip_longest l []
  | [], b :: m => (None, b) :: (fix go m := match m with [] => [] | b :: m => (None, b) :: go m end) m
  | a :: l, b :: m => (a, b) :: zip_longest l m
  end.
(** [except OutOfHilbertError: (None,)] *)
Definition or_none (r : res (list gf2)) : res (list (option gf2)) :=
  match r with Ok l => Ok (map Some l) | Err OutOfHilbertError => Ok [None] | Err e => Err e end.
(** [sigmadict[k].append(s)] on [defaultdict(list)] *)
Fixpoint dappend {V} (d : list (key2 * list V)) (k : key2) (v : V) : list (key2 * list V) :=
  match d with
  | [] => [(k, [v])]
  | (k', l) :: d => if key_eqb k' k then (k', l ++ [v]) :: d else (k', l) :: dappend d k v
  end.

(** cotunneling.py:144-155: the sigmas of one pair of spins *)
Definition channel (n nupI ndwI : nat) (es : espace RRing) (sp : Z * Z) : res (list sigma) :=
  let '(ispin_i, ispin_j) := sp in
  do gf2elist <- or_none (project_add ispin_i ispin_j n nupI ndwI es);
  do gf2hlist <- or_none (project_sub ispin_j ispin_i n nupI ndwI es);
  mapM (fun eh : option gf2 * option gf2 => mk_sigma (fst eh) (snd eh)) (zip_longest gf2elist gf2hlist).
Definition ispin_all : list (Z * Z) := [(0, 0); (0, 1); (1, 0); (1, 1)]%Z.
(** cotunneling.py:117-158 [project_sector]; the updated dictionary is returned. *)
Definition project_sector (n nupI ndwI : nat) (es : espace RRing) (d : list (key2 * list sigma)) (ispin : list (Z * Z)) : res (list (key2 * list sigma)) :=
  do ls <- mapM (channel n nupI ndwI es) ispin;
  Ok (fold_left (fun d s => dappend d (skey s) s) (concat ls) d).

(** cotunneling.py:369-373 [screen_transition_elements] *)
Definition screen (d : list (key2 * list sigma)) (egs : R) (es : espace RRing) (cutoff : R) : res (list (key2 * list sigma)) :=
  foldM (fun acc e =>
    match snd e with
    | [] => Err IndexError
    | s :: _ =>
      if Rltb (Rabs (c_dE (base s))) cutoff then
        do f <- eig_at es (fst (fst e));
        if Rltb (Rabs (f - egs)) cutoff then
          do i <- eig_at es (snd (fst e));
          if Rltb (Rabs (i - egs)) cutoff then Ok (acc ++ [e]) else Ok acc
        else Ok acc
      else Ok acc
    end) d [].
(** cotunneling.py:161-184 [build_transition_elements] *)
Definition dS4 : list (Z * Z) := [(0, 0); (-1, 1); (1, -1); (0, 0)]%Z.
Definition build_transition_elements (n : nat) (egs : R) (es : espace RRing) (cutoff : option R) : res (list (key2 * list sigma)) :=
  do ngs <- ground_sectors egs es;
  let reached := filter (in_range (Z.of_nat n)) (flat_map (fun ns => map (zadd2 ns) dS4) ngs) in
  do d <- foldM (fun d s =>
    match s with
    | [nup; ndw] =>
        let sub := map fst (filter (fun id : (Z * Z) * (Z * Z) => existsb (z2_eqb (zadd2 (Z.of_nat nup, Z.of_nat ndw) (snd id))) reached) (combine ispin_all dS4)) in
        project_sector n nup ndw es d sub
    | _ => Err ValueError
    end) (usort (map (fun s => [Z.to_nat (fst s); Z.to_nat (snd s)]) reached)) [];
  match cutoff with None => Ok d | Some c => screen d egs es c end.

(** cotunneling.py:212-216 [Gf2.__call__] for one number [z]; a vanishing
    denominator (inf in numpy) contributes 0 here. *)
Definition gf2_call (g : gf2) (z : R) (aF aI : list R) : res R :=
  do yF <- mapM (dotv aF) (c_vF g);
  do yI <- mapM (dotv aI) (c_vI g);
  Ok (rsum (length (c_E g)) (fun j => nth j yF 0 * nth j yI 0 * / (z - nth j (c_E g) 0))).
Definition lead {X} (A : list X) (k : nat) : res X := match nth_error A k with Some a => Ok a | None => Err IndexError end.
(** cotunneling.py:255-257, 272-274, 305-307 *)
Definition sigma_call (s : sigma) (z : R) (A : list (list R)) (extract inject : nat) : res R :=
  do ae <- lead A extract; do ai <- lead A inject;
  do r <- match s with
          | SE e => gf2_call e z ai ae
          | SH h => gf2_call h z ae ai
          | SEH e h => do x <- gf2_call e z ai ae; do y <- gf2_call h z ae ai; Ok (x + y)
          end;
  Ok (r ^ 2).
(** cotunneling.py:229-236 *)
Definition Gfun (beta z : R) : R :=
  if Rltb (beta * Rabs z) (1 / 10 ^ 18) then 1 else if Rltb (10 ^ 3) (beta * z) then 0 else z / (exp (beta * z) - 1).
(** cotunneling.py:238-240 [approximate] *)
Definition approximate (s : sigma) (A : list (list R)) (extract inject : nat) (beta : R) (mu : list R) : res R :=
  do me <- lead mu extract; do mi <- lead mu inject;
  let dE := c_dE (base s) in
  do c <- sigma_call s (1 / 2 * (dE + fold_right Rplus 0 mu)) A extract inject;
  Ok (Gfun beta (dE - me + mi) * c).
(** cotunneling.py:310-343 [build_rate_matrix] with [approx_integral=True].
    A missing key of the default dictionary gives the empty sum, like no entry. *)
Definition co_call (A : list (list R)) (beta : R) (mu : list R) (l : list sigma) (ei : nat * nat) : res R :=
  foldM (fun acc s => do x <- approximate s A (fst ei) (snd ei) beta mu; Ok (acc + x)) l 0.
Definition co_rate_matrix (d : list (key2 * list sigma)) (beta : R) (mu : list R) (A : list (list R)) : res (nat * mat) :=
  build_rate_matrix (list sigma) (nat * nat) (co_call A beta mu) [(0, 0); (0, 1); (1, 0); (1, 1)]%nat d.
