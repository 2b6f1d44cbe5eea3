(** Model of edpyt/sqtnl.py:37-89 and edpyt/cotnl.py:24-270, 286-315 and 329-354: the
    matrix elements of sequential and second-order tunnelling for sectors labelled by the
    total number of electrons, with exact real arithmetic.  The particle number is a
    natural number. *)
From Coq Require Import Reals List Arith NArith ZArith Bool.
From Verif Require Import Base RBase RLin LookupModel SectorModel LocalModel MatvecModel EspaceModel ProjModel GfModel RateModel TransModel CotModel.
Import ListNotations.
Local Open Scope R_scope.

(** Row number [eigvecs[j,:]] of an array with [d] rows. *)
Definition row_at (d : nat) (j : Z) : res nat :=
  let k := if (j <? 0)%Z then (j + Z.of_nat d)%Z else j in
  if ((0 <=? k) && (k <? Z.of_nat d))%Z then Ok (Z.to_nat k) else Err IndexError.
(** cotnl.py:24-47 [project].  Sectors labelled by (nup,ndw) have no attribute [size]
    on their states. *)
Definition project (spin pos : nat) (op : fop) (n : nat) (I J : sct RRing) : res (list (list R)) :=
  match s_states RRing I, s_states RRing J with
  | StN lI, StN lJ =>
      let nJ := length (s_vals RRing J) in let nI := length (s_vals RRing I) in
      foldM (fun v p =>
        let '(i, s) := p in
        match apply_op op s (pos + spin * n) (2 * n) with
        | Err _ => Ok v
        | Ok (sg, f) =>
            do j <- binsearch lJ f;
            do cJ <- cols_of RRing J;
            do r <- row_at (length lJ) j;
            do cI <- cols_of RRing I;
            accum RRing nJ nI v sg cJ cI [r] [i]
        end) (enum lI) (repeat (repeat 0 nI) nJ)
  | _, _ => Err AttributeError
  end.

(** sqtnl.py:37-41; the matrices [v_JI[...,j]] of all sites. *)
Definition excite_states (spin : nat) (op : fop) (n : nat) (I J : sct RRing) : res (list (list (list R))) :=
  mapM (fun j => project spin j op n I J) (seq 0 n).
(** sqtnl.py:44-63; the attribute [spin] is only displayed and not kept. *)
Definition nelements (kind : gkind) (NJ NI nJ nI : nat) (vs : list (list (list R))) (E : nat -> nat -> R) : list (key2 * gfel) :=
  map (fun ji : nat * nat => let '(j, i) := ji in
    (([NJ; j], [NI; i]), mkgfel kind [NJ; j] [NI; i] (map (fun v : list (list R) => nth i (nth j v []) 0) vs) (E j i))) (ndindex nJ nI).
Definition excite_electron (spin n N : nat) (es : espace RRing) : res (list (key2 * gfel)) :=
  do sI <- es_get es [N];
  do sJ <- es_get es [N + 1]%nat;
  do vs <- excite_states spin OpCdg n sI sJ;
  Ok (nelements Electron (N + 1) N (length (s_vals RRing sJ)) (length (s_vals RRing sI)) vs (fun j i => nth j (s_vals RRing sJ) 0 - nth i (s_vals RRing sI) 0)).
(** Called with [N] at least 1. *)
Definition excite_hole (spin n N : nat) (es : espace RRing) : res (list (key2 * gfel)) :=
  do sI <- es_get es [N];
  do sJ <- es_get es [N - 1]%nat;
  do vs <- excite_states spin OpC n sI sJ;
  Ok (nelements Hole (N - 1) N (length (s_vals RRing sJ)) (length (s_vals RRing sI)) vs (fun j i => - nth j (s_vals RRing sJ) 0 + nth i (s_vals RRing sI) 0)).

(** sqtnl.py:67-73, cotnl.py:121-127: the sector and, as it is left by the loop, [egs];
    [None] is [np.inf]. *)
Definition below (m : R) (e : option R) : bool := match e with None => true | Some x => Rltb m x end.
Definition choose_step (acc : option nat * option R) (e : qnums * sct RRing) : res (option nat * option R) :=
  do m <- rmin (s_vals RRing (snd e));
  if below m (snd acc) then
    match fst e with q :: _ => Ok (Some q, Some m) | [] => Err IndexError end
  else Ok acc.
Definition choose (es : espace RRing) (N : option nat) (egs : option R) : res (nat * option R) :=
  match N with
  | Some N => Ok (N, egs)
  | None =>
      match egs with
      | None => Err AssertionError
      | Some _ => do r <- foldM choose_step es (None, None); match fst r with Some N => Ok (N, snd r) | None => Err TypeError end
      end
  end.

(** [d.update(d')] *)
Definition dupdate {V} (d d' : list (key2 * V)) : list (key2 * V) := fold_left (fun d e => dput d (fst e) (snd e)) d' d.
(** [for k in d: sigmadict[k].append(d[k])] *)
Definition dappend_all {V} (D : list (key2 * list V)) (d : list (key2 * V)) : list (key2 * list V) := fold_left (fun D e => dappend D (fst e) (snd e)) d D.
(** The dictionary rebuilt in the order [sorted(sigmadict.keys())] *)
Definition klex (a b : key2) : comparison := match lex (fst a) (fst b) with Eq => lex (snd a) (snd b) | c => c end.
Fixpoint kinsert {V} (x : key2 * V) (l : list (key2 * V)) : list (key2 * V) :=
  match l with
  | [] => [x]
  | y :: l => match klex (fst x) (fst y) with Gt => y :: kinsert x l | _ => x :: y :: l end
  end.
Definition ksort {V} (l : list (key2 * V)) : list (key2 * V) := fold_right kinsert [] l.

(** sqtnl.py:76-85, one spin *)
Definition sq_spin (n N : nat) (es : espace RRing) (D : list (key2 * list gfel)) (spin : nat) : res (list (key2 * list gfel)) :=
  do D <- (if (N + 1 <? 2 * n)%nat then
             do g <- excite_electron spin n N es; do g' <- excite_hole spin n (N + 1) es; Ok (dappend_all D (dupdate g g'))
           else Ok D);
  if (1 <? N)%nat then
    do g <- excite_hole spin n N es; do g' <- excite_electron spin n (N - 1) es; Ok (dappend_all D (dupdate g g'))
  else Ok D.
(** sqtnl.py:66-89 [build_transition_elements]; [cutoff] is not used. *)
Definition sq_elements (n : nat) (es : espace RRing) (N : option nat) (egs : option R) : res (list (key2 * list gfel)) :=
  do Ne <- choose es N egs;
  do D <- foldM (sq_spin n (fst Ne) es) [0; 1]%nat [];
  Ok (ksort D).

(** ** cotnl.py *)
(** cotnl.py:150-199: [Gf2e] and [Gf2h]; one row per intermediate state. *)
Record path := mkpath { p_kind : gkind; p_vF : list (list R); p_vI : list (list R); p_E : list R; p_dE : R }.
(** cotnl.py:50-70 *)
Definition excite_pairs (spins : nat * nat) (ops : fop * fop) (n : nat) (I J : sct RRing) : res (list (list (list R)) * list (list (list R))) :=
  do v_JI <- mapM (fun j => project (snd spins) j (snd ops) n I J) (seq 0 n);
  do v_FJ <- mapM (fun i => project (fst spins) i (fst ops) n J I) (seq 0 n);
  Ok (v_FJ, v_JI).
(** cotnl.py:72-90 *)
Definition pair_electron (spins : nat * nat) (n N : nat) (es : espace RRing) : res (list (key2 * path)) :=
  do sI <- es_get es [N];
  do sJ <- es_get es [N + 1]%nat;
  do vv <- excite_pairs spins (OpC, OpCdg) n sI sJ;
  let EI := s_vals RRing sI in let EJ := s_vals RRing sJ in
  Ok (map (fun fi : nat * nat => let '(f, i) := fi in
    (([N; f], [N; i]), mkpath Electron (row_of (fst vv) f (length EJ)) (col_of (snd vv) i (length EJ))
       (map (fun e => e - nth f EI 0) EJ) (nth f EI 0 - nth i EI 0))) (ndindex (length EI) (length EI))).
(** cotnl.py:92-110 *)
Definition pair_hole (spins : nat * nat) (n N : nat) (es : espace RRing) : res (list (key2 * path)) :=
  do sI <- es_get es [N];
  do sJ <- es_get es [N - 1]%nat;
  do vv <- excite_pairs spins (OpCdg, OpC) n sI sJ;
  let EI := s_vals RRing sI in let EJ := s_vals RRing sJ in
  Ok (map (fun fi : nat * nat => let '(f, i) := fi in
    (([N; f], [N; i]), mkpath Hole (row_of (fst vv) f (length EJ)) (col_of (snd vv) i (length EJ))
       (map (fun e => nth i EI 0 - e) EJ) (nth f EI 0 - nth i EI 0))) (ndindex (length EI) (length EI))).

(** cotnl.py:230-235 [Sigma]; without any path the access [self.gf2[0]] fails. *)
Record nsigma := mknsigma { n_spins : nat * nat; n_gf2 : list path; n_dE : R }.
Definition mk_nsigma (spins : nat * nat) (e h : option path) : res nsigma :=
  match (match e with Some p => [p] | None => [] end) ++ (match h with Some p => [p] | None => [] end) with
  | [] => Err IndexError
  | p :: l => Ok (mknsigma spins (p :: l) (p_dE p))
  end.
Definition dpop {V} (d : list (key2 * V)) (k : key2) : option V := match find (fun e => key_eqb (fst e) k) d with Some e => Some (snd e) | None => None end.
(** [set(a).union(b)]; the order is immaterial, every key is used once. *)
Definition kunion {V} (a b : list (key2 * V)) : list key2 :=
  map fst a ++ filter (fun k => negb (existsb (fun e => key_eqb (fst e) k) a)) (map fst b).
(** cotnl.py:130-144, one pair of spins *)
Definition co_spins (n N : nat) (es : espace RRing) (D : list (key2 * list nsigma)) (spins : nat * nat) : res (list (key2 * list nsigma)) :=
  do e <- (if (N + 1 <? 2 * n)%nat then pair_electron spins n N es else Ok []);
  do h <- (if (1 <? N)%nat then pair_hole (snd spins, fst spins) n N es else Ok []);
  do l <- mapM (fun k => do s <- mk_nsigma spins (dpop e k) (dpop h k); Ok (k, s)) (kunion e h);
  Ok (dappend_all D l).

(** [v.dot(a)] for every row: [A[lead].dot(v.T)] *)
Definition amp_rows (a : list R) (v : list (list R)) : res (list R) := mapM (fun r => dotv r a) v.
(** cotnl.py:184-187, 195-198 [y] *)
Definition path_y (p : path) (A : list (list R)) (extract inject : nat) : res (list R) :=
  do ae <- lead A extract; do ai <- lead A inject;
  do yF <- amp_rows (match p_kind p with Electron => ai | Hole => ae end) (p_vF p);
  do yI <- amp_rows (match p_kind p with Electron => ae | Hole => ai end) (p_vI p);
  Ok (map (fun j => nth j yF 0 * nth j yI 0) (seq 0 (length (p_E p)))).
(** cotnl.py:172-176 for one number [z]; a vanishing denominator (inf in numpy)
    contributes 0 here. *)
Definition path_call (p : path) (z : R) (A : list (list R)) (extract inject : nat) : res R :=
  do y <- path_y p A extract inject;
  Ok (rsum (length (p_E p)) (fun j => nth j y 0 * / (nth j (p_E p) 0 - z))).
(** cotnl.py:240-242 *)
Definition nsigma_call (s : nsigma) (z : R) (A : list (list R)) (extract inject : nat) : res R :=
  do r <- foldM (fun acc p => do x <- path_call p z A extract inject; Ok (acc + x)) (n_gf2 s) 0;
  Ok (r ^ 2).
(** cotnl.py:244-247; [G] of cotnl.py:210-216 is [Gfun]. *)
Definition napproximate (s : nsigma) (A : list (list R)) (extract inject : nat) (beta : R) (mu : list R) : res R :=
  do me <- lead mu extract; do mi <- lead mu inject;
  do c <- nsigma_call s (1 / 2 * (n_dE s + fold_right Rplus 0 mu)) A extract inject;
  Ok (Gfun beta (n_dE s - me + mi) * c).
(** cotnl.py:206 *)
Definition nFx (x : R) : R := 1 / (exp x + 1).
(** [np.linspace(lo, hi, 200, endpoint=True)] and [np.trapz] *)
Definition linspace (lo hi : R) (m : nat) : list R := map (fun k => lo + INR k * ((hi - lo) / INR (m - 1))) (seq 0 m).
Definition trapz (y x : list R) : R :=
  rsum (length x - 1) (fun k => (nth (S k) x 0 - nth k x 0) * (nth (S k) y 0 + nth k y 0) / 2).
(** The factor of cotnl.py:268-269, with its parentheses. *)
Definition window_code (beta me mi e : R) : R := nFx (beta * (e - me) * nFx (- beta * (e - mi))).
(** cotnl.py:262-270 *)
Definition nintegrate (s : nsigma) (A : list (list R)) (extract inject : nat) (beta : R) (mu : list R) : res R :=
  do m_e <- lead mu extract; do mi <- lead mu inject;
  let me := m_e - n_dE s in
  let eners := linspace (Rmin me mi - 4 / beta) (Rmax me mi + 4 / beta) 200 in
  do y <- mapM (fun e => do c <- nsigma_call s e A extract inject; Ok (c * window_code beta me mi e)) eners;
  Ok (trapz y eners).

(** cotnl.py:301-304 and 305-310 for one entry, with the integration method [meth]. *)
Definition nmethod := nsigma -> list (list R) -> nat -> nat -> R -> list R -> res R.
Definition co_gamma (meth : nmethod) (A : list (list R)) (beta : R) (mu : list R) (l : list nsigma) (ei : nat * nat) : res R :=
  foldM (fun acc s => do x <- meth s A (fst ei) (snd ei) beta mu; Ok (acc + x)) l 0.
Definition co_total (meth : nmethod) (A : list (list R)) (beta : R) (mu : list R) (l : list nsigma) : res R :=
  foldM (fun acc ei => do x <- co_gamma meth A beta mu l ei; Ok (acc + x)) [(0, 0); (0, 1); (1, 0); (1, 1)]%nat 0.
Definition co_trans (meth : nmethod) (A : list (list R)) (beta : R) (mu : list R) (extract inject : nat) (l : list nsigma) : res R :=
  do x <- co_gamma meth A beta mu l (extract, inject); do y <- co_gamma meth A beta mu l (inject, extract); Ok (x - y).
(** cotnl.py:286-315 [build_rate_and_transition_matrices] *)
Definition cotnl_matrices (meth : nmethod) (d : list (key2 * list nsigma)) (beta : R) (mu : list R) (A : list (list R)) (extract inject : nat) :=
  build_dict_matrices (list nsigma) (co_total meth A beta mu) (co_trans meth A beta mu extract inject) d.

(** cotnl.py:329-333: [eigvals[k]] of a labelled state against [egs] *)
Definition neig_at (es : espace RRing) (id : label) : res R :=
  match id with
  | N :: k :: _ => do s <- es_get es [N]; match nth_error (s_vals RRing s) k with Some x => Ok x | None => Err IndexError end
  | _ => Err IndexError
  end.
Definition close_to (es : espace RRing) (id : label) (egs : option R) (cutoff : R) : res bool :=
  do x <- neig_at es id;
  match egs with None => Err TypeError | Some e => Ok (Rltb (Rabs (x - e)) cutoff) end.
Definition keep_entry (es : espace RRing) (egs : option R) (cutoff : R) (e : key2 * list nsigma) : res bool :=
  match snd e with
  | [] => Err IndexError
  | s :: _ =>
      if Rltb (Rabs (n_dE s)) cutoff then
        do b <- close_to es (fst (fst e)) egs cutoff;
        if (b : bool) then close_to es (snd (fst e)) egs cutoff else Ok false
      else Ok false
  end.
Fixpoint filterM {X} (f : X -> res bool) (l : list X) : res (list X) :=
  match l with [] => Ok [] | x :: l => do b <- f x; do r <- filterM f l; Ok (if (b : bool) then x :: r else r) end.
(** [v[mask,:]] *)
Definition masked {X} (mask : list bool) (l : list X) : list X := map snd (filter fst (combine mask l)).
(** cotnl.py:342-348: the intermediate states of one path that are kept; [None] when
    there is none.  [A] has ones for every site. *)
Definition screen_path (n : nat) (p : path) : res (option path) :=
  do y <- path_y p [repeat 1 n; repeat 1 n] 1 0;
  let mask := map (fun x => Rltb (1 / 10 ^ 10) (Rabs x)) y in
  Ok (if existsb (fun b => b) mask then Some (mkpath (p_kind p) (masked mask (p_vF p)) (masked mask (p_vI p)) (masked mask (p_E p)) (p_dE p)) else None).
Definition somes {X} (l : list (option X)) : list X := flat_map (fun o => match o with Some x => [x] | None => [] end) l.
Definition screen_sigma (n : nat) (s : nsigma) : res (option nsigma) :=
  do g <- mapM (screen_path n) (n_gf2 s);
  Ok (match somes g with [] => None | l => Some (mknsigma (n_spins s) l (n_dE s)) end).
(** cotnl.py:329-354 [screen_transition_elements] *)
Definition nscreen (d : list (key2 * list nsigma)) (egs : option R) (es : espace RRing) (cutoff : R) : res (list (key2 * list nsigma)) :=
  do d <- filterM (keep_entry es egs cutoff) d;
  match d with
  | [] => Err StopIteration
  | (_, []) :: _ => Err IndexError
  | (_, s :: _) :: _ =>
      match n_gf2 s with
      | [] => Err IndexError
      | p :: _ =>
          let n := length (nth 0 (p_vF p) []) in
          do l <- mapM (fun e => do ss <- mapM (screen_sigma n) (snd e); Ok (fst e, somes ss)) d;
          Ok (filter (fun e => match snd e with [] => false | _ => true end) l)
      end
  end.
(** cotnl.py:112-147 [build_transition_elements] *)
Definition spin_pairs : list (nat * nat) := [(0, 0); (0, 1); (1, 0); (1, 1)]%nat.
Definition co_elements (n : nat) (es : espace RRing) (N : option nat) (egs : option R) (cutoff : option R) : res (list (key2 * list nsigma)) :=
  do Ne <- choose es N egs;
  do D <- foldM (co_spins n (fst Ne) es) spin_pairs [];
  match cutoff with None => Ok (ksort D) | Some c => nscreen (ksort D) (snd Ne) es c end.
