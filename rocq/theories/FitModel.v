(** Model of the bath fit: edpyt/fit_cg.py and edpyt_backend/bath.c, with exact
    real arithmetic. *)
From Coq Require Import Reals List Arith ZArith Bool.
From Verif Require Import Base RBase RLin CBase MatvecModel EspaceModel.
Import ListNotations.
Local Open Scope R_scope.

(** ** fit_cg.py:9-16 [_delta]: [p[:p.size//2]] are the energies, [p[p.size//2:]]
    the couplings; one output entry. *)
Definition eks (p : list R) : list R := firstn (length p / 2) p.
Definition vks (p : list R) : list R := skipn (length p / 2) p.
Definition delta1 (p : list R) (z : cx) : cx :=
  let ek := eks p in let vk2 := map (fun v => v ^ 2) (vks p) in
  fold_left (fun out j => cxadd out (cxdiv (rcx (nth j vk2 0)) (cxsub z (rcx (nth j ek 0))))) (seq 0 (length ek)) (rcx 0).
Definition delta_fit (p : list R) (z : list cx) : list cx := map (delta1 p) z.
(** fit_cg.py:26-34 [_ddelta], one row, written into the uninitialised row
    [out]. *)
Definition ddelta1 (p : list R) (z : cx) (out : list cx) : list cx :=
  let ek := eks p in let vk := vks p in
  let m := length ek in
  fold_left (fun out j =>
    let d := cxsub z (rcx (nth j ek 0)) in
    upd_tot (upd_tot out j (cxdiv (rcx (nth j vk 0 ^ 2)) (cxmul d d))) (j + m) (cxdiv (rcx (2 * nth j vk 0)) d))
    (seq 0 m) out.
(** fit_cg.py:44-49 [_chi2] *)
Definition chi2_loop (x xt : list cx) : R :=
  fold_left (fun res i => res + ((re (nth i x (rcx 0)) - re (nth i xt (rcx 0))) ^ 2 + (im (nth i x (rcx 0)) - im (nth i xt (rcx 0))) ^ 2))
    (seq 0 (length x)) 0 / INR (length x).
(** fit_cg.py:52-55 [Chi2] *)
Definition chi2 (z vals : list cx) (p : list R) : R := chi2_loop vals (delta_fit p z).
(** fit_cg.py:58-64 [dChi2]; [mem] is the uninitialised output of [ddelta].
    [np.subtract] raises if the lengths differ (broadcasting of a single entry is
    not modelled). *)
Definition dotr (a b : list R) : R := fold_right Rplus 0 (map (fun q : R * R => fst q * snd q) (combine a b)).
Definition dchi2 (z vals : list cx) (mem : list (list cx)) (p : list R) : res (list R) :=
  if (length vals =? length z)%nat then
    let F := map (fun q : cx * cx => cxsub (fst q) (snd q)) (combine vals (delta_fit p z)) in
    let dx := map (fun q : cx * list cx => ddelta1 p (fst q) (snd q)) (combine z mem) in
    Ok (map (fun k => -2 * (dotr (map re F) (map (fun row => re (nth k row (rcx 0))) dx)
                          + dotr (map im F) (map (fun row => im (nth k row (rcx 0))) dx)) / INR (length vals))
            (seq 0 (length p)))
  else Err ValueError.
(** fit_cg.py:68 (also dmft.py:411-412): the Matsubara points *)
Definition matsubara (nmats : nat) (beta : R) : list cx := map (fun i => (0, (2 * INR i + 1) * PI / beta)) (seq 0 nmats).

(** ** bath.c, with [x] of length [2*nbath] *)
(** bath.c:54-69 [eval_delta] *)
Definition c_delta1 (nbath : nat) (x : list R) (z : cx) : cx :=
  fold_left (fun d j => cxadd d (cxdiv (rcx (nth (nbath + j) x 0 ^ 2)) (cxsub z (rcx (nth j x 0))))) (seq 0 nbath) (rcx 0).
(** bath.c:72-88 [eval_ddelta], one row *)
Definition c_ddelta1 (nbath : nat) (x : list R) (z : cx) (row : list cx) : list cx :=
  fold_left (fun row j =>
    let d := cxsub z (rcx (nth j x 0)) in
    upd_tot (upd_tot row j (cxdiv (rcx (nth (nbath + j) x 0 ^ 2)) (cxmul d d))) (j + nbath) (cxdiv (rcx (2 * nth (nbath + j) x 0)) d))
    (seq 0 nbath) row.
(** bath.c:91-99 [eval_chi2] *)
Definition c_chi2 (nbath : nat) (z vals : list cx) (x : list R) : R :=
  fold_left (fun s i => s + sqrt (cxn2 (cxsub (nth i vals (rcx 0)) (c_delta1 nbath x (nth i z (rcx 0))))) ^ 2) (seq 0 (length z)) 0 / INR (length z).
(** bath.c:102-120 [eval_dchi2] *)
Definition c_dchi2 (nbath : nat) (z vals : list cx) (mem : list (list cx)) (x : list R) : list R :=
  let dx := fold_left (fun dx i =>
    let F := cxsub (nth i vals (rcx 0)) (c_delta1 nbath x (nth i z (rcx 0))) in
    let dd := c_ddelta1 nbath x (nth i z (rcx 0)) (nth i mem []) in
    fold_left (fun dx k => modify dx k (fun y => y + (re (nth k dd (rcx 0)) * re F + im (nth k dd (rcx 0)) * im F))) (seq 0 (2 * nbath)) dx)
    (seq 0 (length z)) (repeat 0 (2 * nbath)) in
  map (fun y => -2 * y / INR (length z)) dx.

(** ** fit_cg.py:76-113 [get_initial_bath]; arrays may hold unwritten entries *)
Definition ekset (nbath : nat) (p : list (option R)) (i : nat) (x : R) : res (list (option R)) :=
  if (i <? nbath)%nat then pyset p i (Some x) else Err IndexError.
Definition fill_from (nbath : nat) (p : list (option R)) (x : R) : list (option R) :=
  firstn nbath p ++ map (fun _ => Some x) (skipn nbath p).
Definition init_levels (nbath : nat) (B : R) (p : list (option R)) : res (list (option R)) :=
  let p := fill_from nbath p (Rmax (1 / 10) (1 / sqrt (INR nbath))) in
  do p <- ekset nbath p 0 (- B);
  do p <- (if (nbath =? 0)%nat then Err IndexError else ekset nbath p (nbath - 1) B);
  let nhalf := (nbath / 2)%nat in
  do p <- (if Nat.even nbath && (4 <=? nbath)%nat then
    let de := B / INR (Nat.max (nhalf - 1) 1) in
    do p <- ekset nbath p (nhalf - 1) (- (1 / 10));
    do p <- ekset nbath p nhalf (1 / 10);
    foldM (fun p i => do p <- ekset nbath p i (- B + INR i * de); ekset nbath p (nbath - i - 1) (B - INR i * de)) (seq 1 (nhalf - 2)) p
    else Ok p);
  if Nat.odd nbath && (3 <=? nbath)%nat then
    let de := B / INR nhalf in
    do p <- ekset nbath p nhalf 0;
    foldM (fun p i => do p <- ekset nbath p i (- B + INR i * de); ekset nbath p (nbath - i - 1) (B - INR i * de)) (seq 1 (nhalf - 1)) p
  else Ok p.
Definition get_initial_bath (p : option (list (option R))) (nbath : option nat) (B : R) : res (list (option R)) :=
  match p, nbath with
  | None, None => Err TypeError
  | None, Some nb => init_levels nb B (repeat None (2 * nb))
  | Some p, None => init_levels (length p / 2) B p
  | Some _, Some _ => Err ValueError
  end.

(** bath.c:20-51 [init_bath] on the memory [x] (writes outside it are errors) *)
Definition cset (x : list (option R)) (i : nat) (y : R) : res (list (option R)) :=
  match upd x i (Some y) with Some x => Ok x | None => Err OutOfBounds end.
Definition c_init_bath (nbath : nat) (x : list (option R)) : res (list (option R)) :=
  let B := 2 in
  let nhalf := (nbath / 2)%nat in
  do x <- foldM (fun x j => cset x (nbath + j) (Rmax (1 / 10) (1 / sqrt (INR nbath)))) (seq 0 nbath) x;
  do x <- cset x 0 (- B);
  do x <- (if (nbath =? 0)%nat then Err OutOfBounds else cset x (nbath - 1) B);
  if Nat.even nbath && (4 <=? nbath)%nat then
    let de := B / INR (Nat.max (nhalf - 1) 1) in
    do x <- cset x (nhalf - 1) (- (1 / 10));
    do x <- cset x nhalf (1 / 10);
    foldM (fun x j => do x <- cset x j (- B + INR j * de); cset x (nbath - j - 1) (B - INR j * de)) (seq 1 (nhalf - 2)) x
  else if Nat.odd nbath && (3 <? nbath)%nat then
    let de := B / INR nhalf in
    do x <- cset x nhalf 0;
    foldM (fun x j => do x <- cset x j (- B + INR j * de); cset x (nbath - j - 1) (B - INR j * de)) (seq 1 (nhalf - 1)) x
  else Ok x.
