(** Model of the C optimiser (edpyt_backend/mnbrak.c, dbrent.c, dlinmin.c,
    f1dim.c, df1dim.c, frprmn.c) with exact real arithmetic.  [while] loops take
    fuel; [nrerror] (exit of the process) is [NRError]. *)
From Coq Require Import Reals List Arith ZArith Bool.
From Verif Require Import Base RBase CBase FitModel.
Import ListNotations.
Local Open Scope R_scope.

(** util.h: SIGN, FMAX *)
Definition Reqb (x y : R) : bool := if Req_EM_T x y then true else false.
Definition Sign (a b : R) : R := if Rleb 0 b then Rabs a else - Rabs a.
Definition Fmax (a b : R) : R := if Rltb b a then a else b.

(** ** mnbrak.c:9-59 *)
Definition GOLD : R := 1618034 / 1000000.
Definition GLIMIT : R := 100.
Definition TINY : R := 1 / 10 ^ 20.
Record bracket := mkBr { bax : R; bbx : R; bcx : R; bfa : R; bfb : R; bfc : R }.
Section One.
Variable f : R -> R.
(** mnbrak.c:22-24: the parabolic trial point *)
Definition parabolic (s : bracket) : R :=
  let r := (bbx s - bax s) * (bfb s - bfc s) in
  let q := (bbx s - bcx s) * (bfb s - bfa s) in
  bbx s - ((bbx s - bcx s) * q - (bbx s - bax s) * r) / (2 * Sign (Fmax (Rabs (q - r)) TINY) (q - r)).
(** mnbrak.c:21-57: one round of the loop; [inl] returns *)
Definition mnbrak_round (s : bracket) : bracket + bracket :=
  let '(mkBr ax bx cx fa fb fc) := s in
  let u := parabolic s in
  let ulim := bx + GLIMIT * (cx - bx) in
  if Rltb 0 ((bx - u) * (u - cx)) then
    let fu := f u in
    if Rltb fu fc then inl (mkBr bx u cx fb fu fc)
    else if Rltb fb fu then inl (mkBr ax bx u fa fb fu)
    else let u := cx + GOLD * (cx - bx) in let fu := f u in inr (mkBr bx cx u fb fc fu)
  else if Rltb 0 ((cx - u) * (u - ulim)) then
    let fu := f u in
    if Rltb fu fc then
      let bx := cx in let cx := u in let u := cx + GOLD * (cx - bx) in
      let fb := fc in let fc := fu in let fu := f u in
      inr (mkBr bx cx u fb fc fu)
    else inr (mkBr bx cx u fb fc fu)
  else if Rleb 0 ((u - ulim) * (ulim - cx)) then
    let u := ulim in let fu := f u in inr (mkBr bx cx u fb fc fu)
  else
    let u := cx + GOLD * (cx - bx) in let fu := f u in inr (mkBr bx cx u fb fc fu).
Fixpoint mnbrak_loop (fuel : nat) (s : bracket) : res bracket :=
  if Rltb (bfc s) (bfb s) then
    match fuel with
    | O => Err OutOfFuel
    | S fuel => match mnbrak_round s with inl s => Ok s | inr s => mnbrak_loop fuel s end
    end
  else Ok s.
(** mnbrak.c:14-20 *)
Definition mnbrak_start (ax bx : R) : bracket :=
  let fa := f ax in let fb := f bx in
  let '(ax, bx, fa, fb) := if Rltb fa fb then (bx, ax, fb, fa) else (ax, bx, fa, fb) in
  let cx := bx + GOLD * (bx - ax) in
  mkBr ax bx cx fa fb (f cx).
Definition mnbrak (fuel : nat) (ax bx : R) : res bracket := mnbrak_loop fuel (mnbrak_start ax bx).

(** ** dbrent.c:8-95 *)
Definition ZEPS : R := 1 / 10 ^ 10.
Definition ITMAX : nat := 2000.
Variable df : R -> R.
Variable tol : R.
Record dbs := mkDb { da : R; db : R; dd : R; de : R; dxx : R; dfx : R; ddx : R; dww : R; dfw : R; ddw : R; dvv : R; dfv : R; ddv : R }.
(** dbrent.c:33-63: the next displacement [(d, e)] *)
Definition dstep (s : dbs) : R * R :=
  let '(mkDb a b d e x fx dx w fw dw v fv dv) := s in
  let xm := 1 / 2 * (a + b) in
  let tol1 := tol * Rabs x + ZEPS in
  let tol2 := 2 * tol1 in
  let bisect := let e := if Rleb 0 dx then a - x else b - x in (1 / 2 * e, e) in
  if Rltb tol1 (Rabs e) then
    let d1 := 2 * (b - a) in
    let d2 := d1 in
    let d1 := if Reqb dw dx then d1 else (w - x) * dx / (dx - dw) in
    let d2 := if Reqb dv dx then d2 else (v - x) * dx / (dx - dv) in
    let u1 := x + d1 in
    let u2 := x + d2 in
    let ok1 := Rltb 0 ((a - u1) * (u1 - b)) && Rleb (dx * d1) 0 in
    let ok2 := Rltb 0 ((a - u2) * (u2 - b)) && Rleb (dx * d2) 0 in
    let olde := e in
    let e := d in
    if ok1 || ok2 then
      let d := if ok1 && ok2 then (if Rltb (Rabs d1) (Rabs d2) then d1 else d2) else if ok1 then d1 else d2 in
      if Rleb (Rabs d) (Rabs (1 / 2 * olde)) then
        let u := x + d in
        if Rltb (u - a) tol2 || Rltb (b - u) tol2 then (Sign tol1 (xm - x), e) else (d, e)
      else bisect
    else bisect
  else bisect.
(** dbrent.c:75-90: update of the bracket and of the three best points *)
Definition dupdate (s : dbs) (d e u fu du : R) : dbs :=
  let '(mkDb a b _ _ x fx dx w fw dw v fv dv) := s in
  if Rleb fu fx then
    let '(a, b) := if Rleb x u then (x, b) else (a, x) in
    mkDb a b d e u fu du x fx dx w fw dw
  else
    let '(a, b) := if Rltb u x then (x, b) else (a, u) in
    if Rleb fu fw || Reqb w x then mkDb a b d e x fx dx u fu du w fw dw
    else if Rltb fu fv || Reqb v x || Reqb v w then mkDb a b d e x fx dx w fw dw u fu du
    else mkDb a b d e x fx dx w fw dw v fv dv.
(** dbrent.c:22-91: one round; [inl (xmin, value)] returns *)
Definition dround (s : dbs) : (R * R) + dbs :=
  let x := dxx s in
  let xm := 1 / 2 * (da s + db s) in
  let tol1 := tol * Rabs x + ZEPS in
  let tol2 := 2 * tol1 in
  if Rleb (Rabs (x - xm)) (tol2 - 1 / 2 * (db s - da s)) then inl (x, dfx s)
  else
    let '(d, e) := dstep s in
    if Rleb tol1 (Rabs d) then
      let u := x + d in let fu := f u in
      inr (dupdate s d e u fu (df u))
    else
      let u := x + Sign tol1 d in let fu := f u in
      if Rltb (dfx s) fu then inl (x, dfx s) else inr (dupdate s d e u fu (df u)).
Fixpoint dloop (iters : nat) (s : dbs) : res (R * R) :=
  match iters with
  | O => Err NRError
  | S iters => match dround s with inl r => Ok r | inr s => dloop iters s end
  end.
(** dbrent.c:15-21; [d0] is the uninitialised [d] *)
Definition dbrent (d0 ax bx cx : R) : res (R * R) :=
  let a := if Rltb ax cx then ax else cx in
  let b := if Rltb cx ax then ax else cx in
  let x := bx in
  dloop ITMAX (mkDb a b d0 0 x (f x) (df x) x (f x) (df x) x (f x) (df x)).
End One.

(** ** dlinmin.c:9-34, f1dim.c, df1dim.c *)
Section Many.
Variables (func : list R -> R) (dfunc : list R -> list R).
Definition along (p xi : list R) (x : R) : list R := map (fun q : R * R => fst q + x * snd q) (combine p xi).
Definition f1dim (p xi : list R) (x : R) : R := func (along p xi x).
Definition df1dim (p xi : list R) (x : R) : R :=
  fold_left (fun s q => s + fst q * snd q) (combine (dfunc (along p xi x)) xi) 0.
Definition TOL : R := 2 / 10 ^ 4.
(** result: [(p, xi, fret)] *)
Definition dlinmin (fuel : nat) (d0 : R) (p xi : list R) : res (list R * list R * R) :=
  do br <- mnbrak (f1dim p xi) fuel 0 1;
  do r <- dbrent (f1dim p xi) (df1dim p xi) TOL d0 (bax br) (bbx br) (bcx br);
  let '(xmin, fret) := r in
  let xi := map (fun y => y * xmin) xi in
  Ok (map (fun q : R * R => fst q + snd q) (combine p xi), xi, fret).

(** ** frprmn.c:10-61; result [(p, iter, fret)] *)
Definition EPS : R := 2 / 10 ^ 4.
Definition FTOL : R := 1 / 10 ^ 5.
Definition dot2 (f : R -> R -> R) (xs ys : list R) : R := fold_left (fun s q => s + f (fst q) (snd q)) (combine xs ys) 0.
Fixpoint frprmn_loop (fuel : nat) (d0 : R) (iters its : nat) (p xi g h : list R) (fp : R) : res (list R * nat * R) :=
  match iters with
  | O => Err NRError
  | S iters =>
    do r <- dlinmin fuel d0 p xi;
    let '(p, _, fret) := r in
    if Rleb (2 * Rabs (fret - fp)) (FTOL * (Rabs fret + Rabs fp + EPS)) then Ok (p, its, fret)
    else
      let fp := fret in
      let xi := dfunc p in
      let gg := dot2 (fun a _ => a * a) g g in
      let dgg := dot2 (fun x y => (x + y) * x) xi g in
      if Reqb gg 0 then Ok (p, its, fret)
      else
        let gam := dgg / gg in
        let g := map Ropp xi in
        let h := map (fun q : R * R => fst q + gam * snd q) (combine g h) in
        frprmn_loop fuel d0 iters (S its) p h g h fp
  end.
Definition frprmn_n (iters fuel : nat) (d0 : R) (p : list R) : res (list R * nat * R) :=
  let fp := func p in
  let xi := dfunc p in
  let g := map Ropp xi in
  frprmn_loop fuel d0 iters 1 p g g g fp.
Definition frprmn : nat -> R -> list R -> res (list R * nat * R) := frprmn_n ITMAX.
End Many.

(** ** fit.c:11-34; [mem] is the array of derivatives before it is written.
    The tolerance passed on (1e-10) is overwritten by frprmn.c:36. *)
Definition c_fit_with (opt : (list R -> R) -> (list R -> list R) -> list R -> res (list R * nat * R)) (nbath nmats : nat) (vals : list cx) (beta : R)
    (mem : list (list cx)) (x : list R) : res (list R * nat * R) :=
  let z := matsubara nmats beta in
  opt (c_chi2 nbath z vals) (c_dchi2 nbath z vals mem) x.
Definition c_fit (fuel : nat) (d0 : R) := c_fit_with (fun f df => frprmn f df fuel d0).
