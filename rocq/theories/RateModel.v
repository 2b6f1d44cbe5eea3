(** Model of the rate equations: edpyt/sqtunneling.py, edpyt/cotunneling.py,
    edpyt/sqtnl.py, edpyt/cotnl.py (matrices) and edpyt/rates.py, with exact real
    arithmetic. *)
From Coq Require Import Reals List Arith ZArith Bool.
From Verif Require Import Base RBase RLin CBase LookupModel SectorModel MatvecModel EspaceModel.
Import ListNotations.
Local Open Scope R_scope.

(** ** State labels: tuples of integers in Python's (lexicographic) order *)
Notation label := (list nat).
Fixpoint lex (a b : label) : comparison :=
  match a, b with
  | [], [] => Eq
  | [], _ :: _ => Lt
  | _ :: _, [] => Gt
  | x :: a, y :: b => match Nat.compare x y with Eq => lex a b | c => c end
  end.
Definition label_eqb (a b : label) : bool := if list_eq_dec Nat.eq_dec a b then true else false.
Fixpoint insert_u (x : label) (l : list label) : list label :=
  match l with
  | [] => [x]
  | y :: l => match lex x y with Lt => x :: y :: l | Eq => y :: l | Gt => y :: insert_u x l end
  end.
(** [sorted(set(l))] *)
Definition usort (l : list label) : list label := fold_right insert_u [] l.

(** Dictionaries with keys (final label, initial label). *)
Notation key2 := (list nat * list nat)%type.
Definition key_eqb (a b : key2) : bool := label_eqb (fst a) (fst b) && label_eqb (snd a) (snd b).
Definition dget {V} (d : list (key2 * V)) (k : key2) : res V :=
  match find (fun e => key_eqb (fst e) k) d with Some e => Ok (snd e) | None => Err KeyError end.

(** ** Square matrices, given by their entries *)
Definition mat := nat -> nat -> R.
Definition mzero : mat := fun _ _ => 0.
(** [M[r,c] += x] and [M[r,c] = x] *)
Definition add_at (M : mat) (r c : nat) (x : R) : mat := fun a b => if (a =? r)%nat && (b =? c)%nat then M a b + x else M a b.
Definition set_at (M : mat) (r c : nat) (x : R) : mat := fun a b => if (a =? r)%nat && (b =? c)%nat then x else M a b.
(** [np.ndindex(sz, sz)] *)
Definition ndindex (a b : nat) : list (nat * nat) := flat_map (fun i => map (fun f => (i, f)) (seq 0 b)) (seq 0 a).

(** sqtunneling.py:149-153 (also 183-187, cotunneling.py:323-327, 347-351):
    [sz, odd = np.divmod(len(gfdict), 2); assert ~odd]; [~] is the bitwise
    complement and an integer is true unless it is 0. *)
Definition parity_assert (len : nat) : res unit :=
  if (Z.lnot (Z.of_nat len mod 2) =? 0)%Z then Err AssertionError else Ok tt.

Section Rate.
Variables (V L : Type).
(** [gf(A[lead], beta, mu[lead])], which may raise. *)
Variable call : V -> L -> res R.

(** One iteration of sqtunneling.py:158-167, cotunneling.py:332-342. *)
Definition rate_step (d : list (key2 * V)) (ids : list label) (lead : L) (W : mat) (p : nat * nat) : mat :=
  let '(i, f) := p in
  if (i =? f)%nat then W else
  match (do gf <- dget d (nth f ids [], nth i ids []); call gf lead) with
  | Err _ => W
  | Ok gamma => add_at (add_at W i i (- gamma)) f i gamma
  end.
(** sqtunneling.py:137-168 [build_rate_matrix] with [leads] = [[0; 1]];
    cotunneling.py:310-343 with [leads] the four pairs (extract, inject).
    Returns the size and the matrix. *)
Definition build_rate_matrix (leads : list L) (d : list (key2 * V)) : res (nat * mat) :=
  do _ <- parity_assert (length d);
  let ids := usort (map (fun e => fst (fst e)) d) in
  let sz := length ids in
  Ok (sz, fold_left (fun W lead => fold_left (rate_step d ids lead) (ndindex sz sz) W) leads mzero).

(** sqtunneling.py:171-205 [build_transition_matrix]: [signed gf] is the rate
    with its sign; the diagonal is skipped when [skip] (not in
    cotunneling.py:346-366). *)
Variable signed : V -> res R.
Definition build_transition_matrix (skip : bool) (d : list (key2 * V)) : res (nat * mat) :=
  do _ <- parity_assert (length d);
  let ids := usort (map (fun e => fst (fst e)) d) in
  let sz := length ids in
  Ok (sz, fold_left (fun T p =>
    let '(i, f) := p in
    if skip && (i =? f)%nat then T else
    match (do gf <- dget d (nth f ids [], nth i ids []); signed gf) with
    | Err _ => T
    | Ok gamma => set_at T f i gamma
    end) (ndindex sz sz) mzero).
End Rate.

(** ** Sequential elements, sqtunneling.py:97-134 *)
Inductive gkind := Electron | Hole.
Record gfel := mkgfel { g_kind : gkind; g_F : label; g_I : label; g_v : list R; g_E : R }.
(** sqtunneling.py:112-114 *)
Definition nF (E beta : R) : R := 1 / (exp (beta * E) + 1).
(** [v.dot(a)] for vectors *)
Definition dotv (v a : list R) : res R :=
  if (length v =? length a)%nat then Ok (fold_right Rplus 0 (map (fun p : R * R => fst p * snd p) (combine v a))) else Err ValueError.
(** sqtunneling.py:116-134 *)
Definition gf_rate (g : gfel) (a : list R) (beta mu : R) : res R :=
  do y <- dotv (g_v g) a;
  Ok (y ^ 2 * match g_kind g with Electron => nF (g_E g - mu) beta | Hole => nF (- g_E g + mu) beta end).
(** [gf(A[lead], beta, mu[lead])] *)
Definition sq_call (A : list (list R)) (mu : list R) (beta : R) (g : gfel) (lead : nat) : res R :=
  do a <- match nth_error A lead with Some a => Ok a | None => Err IndexError end;
  do m <- match nth_error mu lead with Some m => Ok m | None => Err IndexError end;
  gf_rate g a beta m.
Definition sq_rate_matrix (d : list (key2 * gfel)) (beta : R) (mu : list R) (A : list (list R)) : res (nat * mat) :=
  build_rate_matrix gfel nat (sq_call A mu beta) [0; 1]%nat d.
(** sqtunneling.py:196-199 *)
Definition sq_signed (a : list R) (beta mu : R) (g : gfel) : res R :=
  do x <- gf_rate g a beta mu; Ok (match g_kind g with Electron => x | Hole => - x end).
Definition sq_transition_matrix (d : list (key2 * gfel)) (beta mu : R) (a : list R) : res (nat * mat) :=
  build_transition_matrix gfel (sq_signed a beta mu) true d.

(** ** Dictionary based matrices: sqtnl.py:143-174, cotnl.py:280-326 *)
Section Dict.
Variable V : Type.
(** Rates of one element for the two leads (sqtnl) or four pairs (cotnl), and the
    entry that goes into the transition matrix; both may raise. *)
Variable total : V -> res R.
(** sqtnl.py:166-171 uses the variable left over from the inner loop. *)
Variable trans : V -> res R.

(** cotnl.py:280-282 *)
Definition check_transition_elements (d : list (key2 * V)) : res unit :=
  let F := map (fun e => fst (fst e)) d in
  if forallb (fun e => existsb (label_eqb (snd (fst e))) F) d then Ok tt else Err AssertionError.
(** [W[k] += x] on [defaultdict(lambda: 0.)] *)
Fixpoint dadd (D : list (key2 * R)) (k : key2) (x : R) : list (key2 * R) :=
  match D with
  | [] => [(k, 0 + x)]
  | (k', y) :: D => if key_eqb k' k then (k', y + x) :: D else (k', y) :: dadd D k x
  end.
Definition dict_step (WT : list (key2 * R) * list (key2 * R)) (e : key2 * V) : res (list (key2 * R) * list (key2 * R)) :=
  let '((idF, idI), v) := e in
  do g <- total v;
  do t <- trans v;
  let W := if label_eqb idF idI then fst WT else dadd (dadd (fst WT) (idI, idI) (- g)) (idF, idI) g in
  Ok (W, dadd (snd WT) (idF, idI) t).
(** cotnl.py:318-326 [dict_to_matrix]: labels and matrix *)
Definition index_of (ids : list label) (x : label) : nat :=
  (fix go l k := match l with [] => k | y :: l => if label_eqb x y then k else go l (S k) end) ids 0%nat.
Definition dict_to_matrix (D : list (key2 * R)) : list label * mat :=
  let ids := usort (map (fun e => fst (fst e)) D ++ map (fun e => snd (fst e)) D) in
  (ids, fold_left (fun M e => add_at M (index_of ids (fst (fst e))) (index_of ids (snd (fst e))) (snd e)) D mzero).
Definition build_dict_matrices (d : list (key2 * V)) : res ((list label * mat) * (list label * mat)) :=
  do _ <- check_transition_elements d;
  do WT <- foldM dict_step d ([], []);
  Ok (dict_to_matrix (fst WT), dict_to_matrix (snd WT)).
End Dict.

(** sqtnl.py:96-99 [nF]; sqtnl.py:114-140, the rate of one element. *)
Definition nF_cut (x : R) : R := if Rltb 100 x then 0 else 1 / (exp x + 1).
Definition tnl_rate (g : gfel) (a : list R) (beta mu : R) : res R :=
  do y <- dotv (g_v g) a;
  Ok (y ^ 2 * match g_kind g with Electron => nF_cut (beta * (g_E g - mu)) | Hole => nF_cut (- beta * (g_E g - mu)) end).
(** sqtnl.py:159-162 for one lead, and both leads *)
Definition tnl_gamma (A : list (list R)) (mu : list R) (beta : R) (gfs : list gfel) (lead : nat) : res R :=
  foldM (fun acc g =>
    do a <- match nth_error A lead with Some a => Ok a | None => Err IndexError end;
    do m <- match nth_error mu lead with Some m => Ok m | None => Err IndexError end;
    do x <- tnl_rate g a beta m; Ok (acc + x)) gfs 0.
Definition tnl_total (A : list (list R)) (mu : list R) (beta : R) (gfs : list gfel) : res R :=
  do x <- tnl_gamma A mu beta gfs 0; do y <- tnl_gamma A mu beta gfs 1; Ok (x + y).
(** sqtnl.py:166-171: the kind of the last element decides the sign.  An empty
    list, which the builder never stores, would reuse the last element of the
    previous entry; here it is an error. *)
Definition tnl_trans (A : list (list R)) (mu : list R) (beta : R) (inject : nat) (gfs : list gfel) : res R :=
  do x <- tnl_gamma A mu beta gfs inject;
  match rev gfs with
  | [] => Err UnboundLocalError
  | g :: _ => Ok (match g_kind g with Electron => - x | Hole => x end)
  end.
Definition tnl_matrices (d : list (key2 * list gfel)) (beta : R) (mu : list R) (A : list (list R)) (inject : nat) :=
  build_dict_matrices (list gfel) (tnl_total A mu beta) (tnl_trans A mu beta inject) d.

(** ** rates.py:4-17 [stationary_solution] *)
(** [np.argmin]: first position of the smallest value *)
Fixpoint argmin_from (best : nat) (x : R) (k : nat) (l : list R) : nat :=
  match l with [] => best | y :: l => if Rltb y x then argmin_from k y (S k) l else argmin_from best x (S k) l end.
Definition argmin (l : list R) : res nat := match l with [] => Err ValueError | x :: l => Ok (argmin_from 0 x 1 l) end.
Definition cabs (z : cx) : R := sqrt (cxn2 z).
(** [eig] stands for [np.linalg.eig(W)]: eigenvalues and, as columns, vectors. *)
Definition stationary_solution (eig : list cx * list (list cx)) : res (list R) :=
  let '(w, v) := eig in
  do j <- argmin (map (fun x => cabs (cxsub x (rcx 1))) w);
  let p := map re (nth j v []) in
  let s := fold_right Rplus 0 p in
  Ok (map (fun x => x / s) p).

(** ** Active sectors *)
(** sqtunneling.py:46, 52; [//] is floor division *)
Definition getdns (dnu dnd : Z) : res (Z * Z) :=
  if (dnu + dnd =? 0)%Z then Err ZeroDivisionError else Ok ((dnu + dnd)%Z, ((dnu - dnd) / (dnu + dnd))%Z).
Definition getdud (dn spin : Z) : Z * Z := ((dn * (spin + 1) / 2)%Z, (dn * (- spin + 1) / 2)%Z).
Definition dns_all : list (Z * Z) := flat_map (fun dn => map (fun spin => getdud dn spin) [1; -1]%Z) [-1; 1]%Z.
(** sqtunneling.py:215-220 [find_active_sectors]; also 84-87 *)
Definition in_range (n : Z) (s : Z * Z) : bool := (0 <=? fst s)%Z && (fst s <=? n)%Z && ((0 <=? snd s)%Z && (snd s <=? n)%Z).
Definition find_active_sectors (n : Z) (ngs : list (Z * Z)) : list (Z * Z) :=
  filter (in_range n) (flat_map (fun g => map (fun d => ((fst g + fst d)%Z, (snd g + snd d)%Z)) dns_all) ngs) ++ ngs.
(** sqtunneling.py:223-229 [get_active_neig] *)
Definition get_active_neig (n : nat) (ngs : list (Z * Z)) (val : Z) : res (list Z) :=
  do idx <- mapM (fun s => get_sector_index (Z.of_nat n) (fst s) (snd s)) (find_active_sectors (Z.of_nat n) ngs);
  foldM (fun neig i => pyset neig (Z.to_nat i) val) idx (repeat 0%Z ((n + 1) * (n + 1))).

(** cotunneling.py:376-391 [find_active_sectors], as a list with the elements of
    the returned sorted list (order and repetitions do not matter to the caller). *)
Definition dS3 : list (Z * Z) := [(0, 0); (-1, 1); (1, -1)]%Z.
Definition dN4 : list (Z * Z) := [(0, 1); (0, -1); (1, 0); (-1, 0)]%Z.
Definition zadd2 (a b : Z * Z) : Z * Z := ((fst a + fst b)%Z, (snd a + snd b)%Z).
Definition z2_eqb (a b : Z * Z) : bool := (fst a =? fst b)%Z && (snd a =? snd b)%Z.
Definition co_active_sectors (ngs : list (Z * Z)) : list (Z * Z) :=
  let reached := flat_map (fun g => map (zadd2 g) dS3) ngs in
  reached ++ flat_map (fun s => flat_map (fun ds => if existsb (z2_eqb (zadd2 s ds)) reached then map (zadd2 s) dN4 else []) dS3) reached.
(** cotunneling.py:394-400 *)
Definition co_active_neig (n : nat) (ngs : list (Z * Z)) (val : Z) : res (list Z) :=
  do idx <- mapM (fun s => get_sector_index (Z.of_nat n) (fst s) (snd s)) (co_active_sectors ngs);
  foldM (fun neig i => pyset neig (Z.to_nat i) val) idx (repeat 0%Z ((n + 1) * (n + 1))).
