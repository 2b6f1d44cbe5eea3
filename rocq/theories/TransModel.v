(** Model of edpyt/sqtunneling.py lines 13-94 and 208-212: the matrix elements of
    sequential tunnelling, with exact real arithmetic. *)
From Coq Require Import Reals List Arith ZArith Bool.
From Verif Require Import Base RBase RLin SectorModel MatvecModel EspaceModel ProjModel GfModel RateModel.
Import ListNotations.
Local Open Scope R_scope.

(** [gfdict[k] = v] *)
Fixpoint dput {V} (d : list (key2 * V)) (k : key2) (v : V) : list (key2 * V) :=
  match d with
  | [] => [(k, v)]
  | (k', v') :: d => if key_eqb k' k then (k', v) :: d else (k', v') :: dput d k v
  end.

(** sqtunneling.py:21, 38 [project_exact_up if ispin==0 else project_exact_dw] *)
Definition project_exact (ispin : Z) : nat -> nat -> fop -> sct RRing -> sct RRing -> res (list (list R)) :=
  if Z.eqb ispin 0 then project_exact_up RRing else project_exact_dw RRing.
(** sqtunneling.py:27, 43; [vs] lists the matrices [v_JI[...,i]]. *)
Definition elements (kind : gkind) (pJ qJ pI qI nJ nI : nat) (vs : list (list (list R))) (E : nat -> nat -> R) : list gfel :=
  map (fun ji : nat * nat => let '(j, i) := ji in
    mkgfel kind [pJ; qJ; j] [pI; qI; i] (map (fun v : list (list R) => nth i (nth j v []) 0) vs) (E j i)) (ndindex nJ nI).

(** sqtunneling.py:13-27 [project_add] *)
Definition project_add (ispin : Z) (n nupI ndwI : nat) (es : espace RRing) : res (list gfel) :=
  do J <- get_cdg_sector (Z.of_nat n) (Z.of_nat nupI) (Z.of_nat ndwI) ispin;
  let nupJ := Z.to_nat (fst J) in let ndwJ := Z.to_nat (snd J) in
  do sctI <- es_get es [nupI; ndwI];
  do sctJ <- es_get es [nupJ; ndwJ];
  do vs <- mapM (fun i => project_exact ispin i n OpCdg sctI sctJ) (seq 0 n);
  Ok (elements Electron nupJ ndwJ nupI ndwI (length (s_vals RRing sctJ)) (length (s_vals RRing sctI)) vs
        (fun j i => nth j (s_vals RRing sctJ) 0 - nth i (s_vals RRing sctI) 0)).

(** sqtunneling.py:30-43 [project_sub] *)
Definition project_sub (ispin : Z) (n nupI ndwI : nat) (es : espace RRing) : res (list gfel) :=
  do J <- get_c_sector (Z.of_nat nupI) (Z.of_nat ndwI) ispin;
  let nupJ := Z.to_nat (fst J) in let ndwJ := Z.to_nat (snd J) in
  do sctI <- es_get es [nupI; ndwI];
  do sctJ <- es_get es [nupJ; ndwJ];
  do vs <- mapM (fun i => project_exact ispin i n OpC sctI sctJ) (seq 0 n);
  Ok (elements Hole nupJ ndwJ nupI ndwI (length (s_vals RRing sctJ)) (length (s_vals RRing sctI)) vs
        (fun j i => - nth j (s_vals RRing sctJ) 0 + nth i (s_vals RRing sctI) 0)).

(** sqtunneling.py:59-76 [project_sector]; the updated dictionary is returned. *)
Definition project_sector (n nupI ndwI : nat) (es : espace RRing) (d : list (key2 * gfel)) (dns : list (Z * Z)) : res (list (key2 * gfel)) :=
  foldM (fun d m =>
    do ds <- getdns (fst m) (snd m);
    let '(dn, spin) := ds in
    let ispin := ((- spin + 1) / 2)%Z in
    match (if (0 <? dn)%Z then project_add ispin n nupI ndwI es else project_sub ispin n nupI ndwI es) with
    | Err OutOfHilbertError => Ok d
    | Err e => Err e
    | Ok gflist => Ok (fold_left (fun d gf => dput d (g_F gf, g_I gf) gf) gflist d)
    end) dns d.

(** [eigvals.min()] *)
Definition rmin (l : list R) : res R := match l with [] => Err ValueError | x :: l => Ok (fold_left Rmin l x) end.
(** sqtunneling.py:84: the sectors of the ground states; unpacking
    [nup, ndw] of line 86 fails for other keys. *)
Definition ground_sectors (egs : R) (es : espace RRing) : res (list (Z * Z)) :=
  foldM (fun acc e =>
    do m <- rmin (s_vals RRing (snd e));
    if Rltb (Rabs (m - egs)) (1 / 1000000000) then
      match fst e with [nup; ndw] => Ok (acc ++ [(Z.of_nat nup, Z.of_nat ndw)]) | _ => Err ValueError end
    else Ok acc) es [].
(** sqtunneling.py:208-212 [screen_transition_elements] *)
Definition eig_at (es : espace RRing) (id : label) : res R :=
  match id with
  | p :: q :: k :: _ => do s <- es_get es [p; q]; match nth_error (s_vals RRing s) k with Some x => Ok x | None => Err IndexError end
  | _ => Err IndexError
  end.
Definition screen (d : list (key2 * gfel)) (egs : R) (es : espace RRing) (cutoff : R) : res (list (key2 * gfel)) :=
  foldM (fun acc e =>
    if Rltb (Rabs (g_E (snd e))) cutoff then
      do f <- eig_at es (fst (fst e));
      if Rltb (Rabs (f - egs)) cutoff then
        do i <- eig_at es (snd (fst e));
        if Rltb (Rabs (i - egs)) cutoff then Ok (acc ++ [e]) else Ok acc
      else Ok acc
    else Ok acc) d [].
(** sqtunneling.py:79-94 [build_transition_elements].  [np.unique(..., axis=0)]
    sorts the rows; negative numbers do not occur in them. *)
Definition build_transition_elements (n : nat) (egs : R) (es : espace RRing) (cutoff : option R) : res (list (key2 * gfel)) :=
  do ngs <- ground_sectors egs es;
  let active := find_active_sectors (Z.of_nat n) ngs in
  do d <- foldM (fun d s =>
    match s with
    | [nup; ndw] =>
        let dns := filter (fun m => existsb (z2_eqb ((Z.of_nat nup + fst m)%Z, (Z.of_nat ndw + snd m)%Z)) active) dns_all in
        project_sector n nup ndw es d dns
    | _ => Err ValueError
    end) (usort (map (fun s => [Z.to_nat (fst s); Z.to_nat (snd s)]) active)) [];
  match cutoff with None => Ok d | Some c => screen d egs es c end.
