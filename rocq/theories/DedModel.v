(** Model of edpyt/dedlib.py (distributional exact diagonalisation), with exact real
    arithmetic.  Random numbers are read from a list. *)
From Coq Require Import String Reals List Arith NArith ZArith Bool.
From Verif Require Import Base RBase RLin CBase OperatorsModel SectorModel LocalModel MatvecModel MbModel EspaceModel ProjModel CfModel GfModel.
Import ListNotations.
Local Open Scope R_scope.

(** ** dedlib.py:32-66, sampling *)
(** lines 32-35 [cumsum]: [a[i] += a[i-1]]. *)
Fixpoint cumsum_go (prev : R) (l : list R) : list R := match l with [] => [] | x :: l => (x + prev) :: cumsum_go (x + prev) l end.
Definition cumsum (l : list R) : list R := match l with [] => [] | x :: l => x :: cumsum_go x l end.
Definition total (l : list R) : R := fold_left Rplus l 0.
(** [int(x)] *)
Definition pyint (x : R) : Z := if Rleb 0 x then Int_part x else (- Int_part (- x))%Z.
(** [np.linspace(a, b, m, endpoint=True)] *)
Definition linspace (a b : R) (m : Z) : res (list R) :=
  if (m <? 0)%Z then Err ValueError else
  Ok (map (fun i => match Z.to_nat m with S O => a | _ => a + INR i * ((b - a) / (INR (Z.to_nat m) - 1)) end) (seq 0 (Z.to_nat m))).
(** [np.searchsorted(cdf, r)] on an ascending array: the first position whose
    entry is not below [r], otherwise the length. *)
Fixpoint searchsorted (l : list R) (r : R) : nat := match l with [] => 0 | x :: l => if Rltb x r then S (searchsorted l r) else 0 end.

Record sampler := mksampler { rs_eners : list R; rs_cdf : list R; rs_n : nat }.
(** lines 43-60 [RandomSampler.__init__]; [p] acts on arrays. *)
Definition sampler_init (p : list R -> list R) (lo hi : R) (n : nat) (nsamples : R) : res sampler :=
  do eners <- linspace lo hi (pyint ((hi - lo) * nsamples + 1));
  let cdf := p eners in
  Ok (mksampler eners (cumsum (map (fun x => x / total cdf) cdf)) n).
(** lines 62-69 [__call__]; the numbers drawn by [rng.random()] are given. *)
Definition sampler_call (rs : sampler) (rands : list R) : res (list R) :=
  do poles <- mapM (fun r => match nth_error (rs_eners rs) (searchsorted (rs_cdf rs) r) with Some e => Ok e | None => Err IndexError end) (firstn (rs_n rs) rands);
  Ok (sort RRing Rleb poles).

(** ** lines 72-134, the two non-interacting Green's functions *)
(** line 92 [Gf0.__call__] at one complex and at one real point. *)
Definition gf0_call (poles : list R) (z : cx) : cx := cxmul (rcx (1 / INR (length poles))) (csum (length poles) (fun i => cxinv (cxsub z (rcx (nth i poles 0))))).
Definition gf0_real (poles : list R) (x : R) : R := 1 / INR (length poles) * rsum (length poles) (fun i => / (x - nth i poles 0)).
(** lines 94-95 [derivative] *)
Definition gf0_derivative (poles : list R) (x : R) : R := rsum (length poles) (fun i => - 1 / ((x - nth i poles 0) * (x - nth i poles 0))) / INR (length poles).

Record gfimp := mkgfimp { g_ek : list R; g_vk2 : list R; g_e0 : R }.
(** lines 113-124 [Gfimp.fit]; [fsolve] of SciPy is a parameter: the function and
    the starting point, for n arrays of n-1 entries. *)
Definition gfimp_fit (fsolve : (R -> R) -> R -> R) (poles : list R) : gfimp :=
  let n := length poles in
  let ek := map (fun i => fsolve (gf0_real poles) ((nth (S i) poles 0 + nth i poles 0) / 2)) (seq 0 (n - 1)) in
  mkgfimp ek (map (fun e => - 1 / gf0_derivative poles e) ek) (rsum n (fun i => nth i poles 0) / INR n).
(** lines 126-130 [delta], [__call__] at one point. *)
Definition gfimp_delta (g : gfimp) (z : cx) : cx := csum (length (g_ek g)) (fun k => cxmul (rcx (nth k (g_vk2 g) 0)) (cxinv (cxsub z (rcx (nth k (g_ek g) 0))))).
Definition gfimp_call (g : gfimp) (z : cx) : cx := cxinv (cxsub (cxsub z (rcx (g_e0 g))) (gfimp_delta g z)).

(** ** lines 133-155 [get_occupation]: a vector as a (dw, up) array. *)
Definition ded_occupation (vector : list R) (up dw : list N) (pos : nat) : res R :=
  if negb (length vector =? length dw * length up)%nat then Err ValueError else
  let occps := fun idw iup => let x := nth (idw * length up + iup) vector 0 in x * x in
  let N1 := fold_left (fun acc iup => if negb (N.eqb (check_full (nth iup up 0%N) pos) 0) then acc + rsum (length dw) (fun idw => occps idw iup) else acc) (seq 0 (length up)) 0 in
  Ok (fold_left (fun acc idw => if negb (N.eqb (check_full (nth idw dw 0%N) pos) 0) then acc + rsum (length up) (fun iup => occps idw iup) else acc) (seq 0 (length dw)) N1).

(** ** lines 158-192, entropy; spectra as lists of eigenvalues per sector *)
(** lines 180-192 [_get_entropy_params] *)
Definition entropy_params (spectrum : list (list R)) (egs beta : R) : R * R :=
  let '(E, Z) := fold_left (fun acc eigvals =>
      let v := map (fun e => e - egs) eigvals in
      let exps := map (fun e => exp (- beta * e)) v in
      (fst acc + total (map (fun p => fst p * snd p) (List.combine v exps)), snd acc + total exps)) spectrum (0, 0) in
  (E / Z, Z).
(** line 177 [_calc_entropy] *)
Definition calc_entropy (kB Z E T : R) : R := kB * ln Z + E / T.
(** lines 158-175 [get_entropy] on the two spectra. *)
Definition ded_entropy (kB : R) (spectrum bath : list (list R)) (egs egs_bath beta : R) : R :=
  let '(E, Z) := entropy_params spectrum egs beta in
  let '(Eb, Zb) := entropy_params bath egs_bath beta in
  let T := 1 / (kB * beta) in
  calc_entropy kB Z E T - calc_entropy kB Zb Eb T.

(** ** lines 195-205 [build_siam] on n x n arrays; vectors of other lengths do not
    broadcast (one entry would, for n > 2; it is an error here). *)
Definition build_siam (n : nat) (H V : nat -> nat -> R) (U : R) (g : gfimp) : res ((nat -> nat -> R) * (nat -> nat -> R)) :=
  let vk := map sqrt (g_vk2 g) in
  if negb ((length vk =? n - 1)%nat && (length (g_ek g) =? n - 1)%nat) then Err ValueError else
  Ok (fun i j => match i, j with
                 | O, O => g_e0 g
                 | S k, O => - nth k vk 0
                 | O, S k => - nth k vk 0
                 | S a, S b => if (a =? b)%nat then nth a (g_ek g) 0 else H (S a) (S b)
                 end,
      fun i j => match i, j with O, O => U | _, _ => V i j end).

(** ** lines 208-287 [siam_solve] *)
(** [next((k,v) for k,v in espace.items() if abs(v.eigvals[0]-egs)<1e-7)] *)
Fixpoint gs_sector (tol : R) (es : espace RRing) (egs : option R) : res (qnums * sct RRing) :=
  match es with
  | [] => Err StopIteration
  | (k, s) :: es =>
      match s_vals RRing s with
      | [] => Err IndexError
      | e :: _ => match egs with
                  | Some egs0 => if Rltb (Rabs (e - egs0)) tol then Ok (k, s) else gs_sector tol es egs
                  | None => gs_sector tol es egs
                  end
      end
  end.
(** [sct.eigvecs[:,0]] and [get_occupation(evec, sct.states.up, sct.states.dw, pos)] *)
Definition gs_occupation (s : sct RRing) (pos : nat) : res R :=
  match s_vecs RRing s with
  | NoVecs _ => Err AttributeError
  | Vec1 _ => Err IndexError
  | Cols _ c => match c with
                | [] => Err IndexError
                | v :: _ => match s_states RRing s with StSz up dw => ded_occupation v up dw pos | StN _ => Err AttributeError end
                end
  end.

Section Siam.
Variables (big : R -> bool) (half : R).
Variable eigh : dense RRing -> res (list R * list (list R)).
Variable eigsh : nat -> Z -> (list R -> res (list R)) -> res (list R * list (list R)).
Variable fsolve : (R -> R) -> R -> R.
Variable kB : R.
Variable wild : N -> nat -> N.
Variables (n : nat) (U sigma0 beta : R) (zs : list cx).

(** [build_espace(H, V, None)]; the module-level parameters are at their defaults. *)
Definition ded_espace (H V : nat -> nat -> R) : res (espace RRing * option R) :=
  build_espace RRing Rleb big half eigh eigsh n (H2 RRing H) (mkflags true true true) (VArray RRing V) false 0 None None "sz".

(** What a trial that meets the condition adds (lines 268-275). *)
Record increment := mkinc { i_sigma : list cx; i_occ0 : R; i_occ1 : R; i_entropy : R }.
(** Lines 252-275, one pass of the while loop for given poles.  The arrays H and V
    are reused between passes, but every entry that is ever written is rewritten
    by [build_siam], and the others stay 0. *)
Definition siam_trial (poles : list R) : res (option increment) :=
  let g := gfimp_fit fsolve poles in
  do hv <- build_siam n (fun _ _ => 0) (fun _ _ => 0) 0 g;
  do e0 <- ded_espace (fst hv) (snd hv);
  do gs0 <- gs_sector (/ 10000000) (fst e0) (snd e0);
  do occ0 <- gs_occupation (snd gs0) 0;
  let V := fun i j => match i, j with O, O => U | _, _ => snd hv i j end in
  let H := fun i j => match i, j with O, O => fst hv 0%nat 0%nat - sigma0 | _, _ => fst hv i j end in
  do e1 <- ded_espace H V;
  do gs1 <- gs_sector (/ 10000000) (fst e1) (snd e1);
  if list_eq_dec Nat.eq_dec (fst gs1) (fst gs0) then
    match snd e1 with
    | None => Err StopIteration
    | Some egs =>
        do gf <- build_gf_exact n (fst e1) beta egs 0 0%Z;
        do ds <- mapM (fun z => do G <- gf_call gf (rcx (re z)) (im z); Ok (cxsub (cxinv (gf0_call poles z)) (cxinv G))) zs;
        do occ1 <- gs_occupation (snd gs1) 0;
        do b <- build_non_interacting_espace RRing Rleb wild (g_ek g);
        match snd b with
        | None => Err StopIteration
        | Some egs_bath =>
            Ok (Some (mkinc ds occ0 occ1 (ded_entropy kB (map (fun e => s_vals RRing (snd e)) (fst e1)) (map (fun e => s_vals RRing (snd e)) (fst b)) egs egs_bath beta)))
        end
    end
  else Ok None.

Definition vadd (x y : list cx) : list cx := map (fun p => cxadd (fst p) (snd p)) (List.combine x y).
Definition inc_add (a b : increment) : increment := mkinc (vadd (i_sigma a) (i_sigma b)) (i_occ0 a + i_occ0 b) (i_occ1 a + i_occ1 b) (i_entropy a + i_entropy b).
(** Lines 249-275: [N] rounds, each of which repeats until a trial is accepted.  The
    draws of the sampler are the elements of [draws]; the loop does not end by
    itself, so running out of them is an error. *)
Fixpoint siam_loop (rs : sampler) (N : nat) (draws : list (list R)) (acc : increment) : res increment :=
  match N, draws with
  | O, _ => Ok acc
  | S _, [] => Err OutOfFuel
  | S N', d :: draws =>
      do poles <- sampler_call rs d;
      do r <- siam_trial poles;
      match r with
      | None => siam_loop rs N draws acc
      | Some i => siam_loop rs N' draws (inc_add acc i)
      end
  end.
(** Lines 276-284; [sigma], if given, is the caller's array and is overwritten
    by the first component.  [imp_occp0 /= N] divides Python floats. *)
Definition siam_finish (N : nat) (a : increment) : increment :=
  mkinc (map (fun x => cxdiv x (rcx (INR N))) (i_sigma a)) (i_occ0 a / INR N) (i_occ1 a / INR N) (i_entropy a / (INR N * kB)).
Definition siam_solve (dos : list R -> list R) (nsamples : R) (sigma : option (list cx)) (N : nat) (draws : list (list R)) : res increment :=
  let sigma := match sigma with Some s => s | None => map (fun _ => rcx 0) zs end in
  match zs with
  | [] => Err IndexError
  | z0 :: _ =>
      do rs <- sampler_init dos (re z0) (re (last zs z0)) n nsamples;
      do a <- siam_loop rs N draws (mkinc sigma 0 0 0);
      if (N =? 0)%nat then Err ZeroDivisionError else Ok (siam_finish N a)
  end.
End Siam.
(** line 238: [if sigma0 is None: sigma0 = U/2.] *)
Definition default_sigma0 (U : R) (sigma0 : option R) : R := match sigma0 with Some s => s | None => U / 2 end.

(** ** lines 290-310 [build_moam]; the slices must lie inside the array (otherwise
    NumPy cannot assign the vector). *)
Definition moam_step (nimp n : nat) (H : nat -> nat -> R) (ig : nat * gfimp) : res (nat -> nat -> R) :=
  let (i, g) := ig in
  let vk := map sqrt (g_vk2 g) in
  let nbath := length vk in
  let bl := (i * nbath + nimp)%nat in
  let bh := (bl + nbath)%nat in
  if negb ((bh <=? n)%nat && (length (g_ek g) =? nbath)%nat) then Err ValueError else
  Ok (fun r c =>
    if (r =? i)%nat && (c =? i)%nat then g_e0 g
    else if (r =? c)%nat && (bl <=? r)%nat && (r <? bh)%nat then nth (r - bl) (g_ek g) 0
    else if (c =? i)%nat && (bl <=? r)%nat && (r <? bh)%nat then - nth (r - bl) vk 0
    else if (r =? i)%nat && (bl <=? c)%nat && (c <? bh)%nat then - nth (c - bl) vk 0
    else H r c).
Definition build_moam (n : nat) (H : nat -> nat -> R) (gs : list gfimp) : res (nat -> nat -> R) :=
  foldM (moam_step (length gs) n) (List.combine (seq 0 (length gs)) gs) H.

(** ** lines 313-415 [moam_solve], the bookkeeping.  Of one pass of the loop only the
    order matters: [pre] is everything before sigma0 is subtracted (lines 372-384:
    sampling, fits, non-interacting problem), [post] what follows the first reading
    of the interaction V1 (line 386 on); it tells for each impurity whether its
    condition is met and what is then added.  [given]: the caller passed sigma0. *)
Inductive moam_U (A : Type) := UScalar | UArray (a : A) | UDict (a : A).
Arguments UScalar {A}. Arguments UArray {A}. Arguments UDict {A}.
Section Moam.
Context {D P A : Type}.
Variable pre : D -> res P.
Variable post : A -> P -> res (list (option increment)).
(** lines 346-352: only arrays and dictionaries bind V1. *)
Definition moam_V1 (U : moam_U A) : option A := match U with UScalar => None | UArray a => Some a | UDict a => Some a end.
(** lines 372-406: with the default sigma0 = U/2 an array has two axes and cannot be
    subtracted from the nimp diagonal entries (line 385). *)
Definition moam_trial (given : bool) (U : moam_U A) (d : D) : res (list (option increment)) :=
  do x <- pre d;
  do _ <- (match U, given with UArray _, false => Err ValueError | _, _ => Ok tt end);
  match moam_V1 U with None => Err UnboundLocalError | Some v => post v x end.
(** lines 399-406 *)
Definition moam_add (acc : list increment) (r : list (option increment)) : list increment :=
  map (fun p => match snd p with Some i => inc_add (fst p) i | None => fst p end) (List.combine acc r).
Fixpoint moam_loop (given : bool) (U : moam_U A) (N : nat) (draws : list D) (acc : list increment) : res (list increment) :=
  match N, draws with
  | O, _ => Ok acc
  | S _, [] => Err OutOfFuel
  | S N', d :: draws =>
      do r <- moam_trial given U d;
      moam_loop given U (if existsb (fun o => match o with Some _ => true | None => false end) r then N' else N) draws (moam_add acc r)
  end.
(** lines 407-409; arrays, so no exception for N = 0 (the entries are nan). *)
Definition moam_finish (N : nat) (acc : list increment) : list increment :=
  map (fun a => mkinc (map (fun x => cxdiv x (rcx (INR N))) (i_sigma a)) (i_occ0 a / INR N) (i_occ1 a / INR N) 0) acc.
(** line 341: a dictionary cannot be halved. *)
Definition moam_solve (given : bool) (U : moam_U A) (N : nat) (draws : list D) (sigma : list (list cx)) : res (list increment) :=
  do _ <- (match U, given with UDict _, false => Err TypeError | _, _ => Ok tt end);
  do acc <- moam_loop given U N draws (map (fun s => mkinc s 0 0 0) sigma);
  Ok (moam_finish N acc).
End Moam.
