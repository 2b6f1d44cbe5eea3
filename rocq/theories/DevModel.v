(** Model of edpyt/dedlib_dev.py where it differs from edpyt/dedlib.py (DedModel.v): lines
    134-173 (occupations), 230-307 (ded_solve), 343-443 (ded_solve_multi).  The samplers,
    the fits, the entropy, build_siam's assignments to H and build_moam are the same code. *)
From Coq Require Import String Reals List Arith NArith ZArith Bool.
From Verif Require Import Base RBase RLin CBase OperatorsModel SectorModel LocalModel MatvecModel MbModel EspaceModel ProjModel CfModel GfModel DedModel.
Import ListNotations.
Local Open Scope R_scope.

(** ** lines 162-173 [get_occupation] *)
(** A call with [args] positional arguments of a function with [params] parameters. *)
Definition call {A} (params args : nat) (body : res A) : res A := if (params =? args)%nat then body else Err TypeError.
(** lines 134-159: [get_evecs_occupation(evecs, exps, states, pos)].  Line 170 passes five
    arguments, so the body, here [body], never starts. *)
Definition dev_evecs_occupation (args : nat) (body : res R) : res R := call 4 args body.
(** Python floats: 0./0. raises for an empty dictionary. *)
Fixpoint dev_occupation_loop (body : sct RRing -> res R) (es : espace RRing) (egs beta : R) (acc : R * R) : res (R * R) :=
  match es with
  | [] => Ok acc
  | (_, s) :: es =>
      let exps := map (fun e => exp (- beta * (e - egs))) (s_vals RRing s) in
      do _ <- (match s_vecs RRing s with NoVecs _ => Err AttributeError | _ => Ok tt end);
      do _ <- (match s_states RRing s with StSz _ _ => Ok tt | StN _ => Err AttributeError end);
      do x <- dev_evecs_occupation 5 (body s);
      dev_occupation_loop body es egs beta (fst acc + x, snd acc + total exps)
  end.
Definition dev_occupation (body : sct RRing -> res R) (es : espace RRing) (egs beta : R) : res R :=
  do a <- dev_occupation_loop body es egs beta (0, 0);
  match es with [] => Err ZeroDivisionError | _ => Ok (fst a / snd a) end.

(** ** lines 230-307 [ded_solve] *)
(** [espace[N].eigvals.min()] *)
Definition sector_min (es : espace RRing) (q : qnums) : res R :=
  match find (fun e => if list_eq_dec Nat.eq_dec (fst e) q then true else false) es with
  | None => Err KeyError
  | Some e => match list_min RRing Rleb (s_vals RRing (snd e)) with None => Err ValueError | Some m => Ok m end
  end.
Definition inc_scale (w : R) (i : increment) : increment := mkinc (map (fun x => cxmul x (rcx w)) (i_sigma i)) (i_occ0 i * w) (i_occ1 i * w) (i_entropy i * w).
(** The outcome of one pass of the while loop: whether the sectors agree, the weight [qv],
    and what is added, before it is multiplied by the weight. *)
Record trial_t := mktrial { t_found : bool; t_weight : R; t_inc : increment }.

Section Ded.
Variables (big : R -> bool) (half : R).
Variable eigh : dense RRing -> res (list R * list (list R)).
Variable eigsh : nat -> Z -> (list R -> res (list R)) -> res (list R * list (list R)).
Variable fsolve : (R -> R) -> R -> R.
Variable kB : R.
Variable wild : N -> nat -> N.
(** [get_occupation(espace, egs, beta, 0)] *)
Variable occupation : espace RRing -> R -> R -> res R.
Variables (n : nat) (U sigma0 beta : R) (zs : list cx).
(** lines 266, 267, 276, 285: at most three states per sector. *)
Definition dev_espace (H V : nat -> nat -> R) : res (espace RRing * option R) :=
  do neig <- get_espace_dim n (Some 3%Z) "sz";
  build_espace RRing Rleb big half eigh eigsh n (H2 RRing H) (mkflags true true true) (VArray RRing V) false 0 None (Some neig) "sz".
(** lines 271-300, one pass. *)
Definition dev_trial (poles : list R) : res trial_t :=
  let g := gfimp_fit fsolve poles in
  do hv <- build_siam n (fun _ _ => 0) (fun _ _ => 0) 0 g;
  do e0 <- dev_espace (fst hv) (snd hv);
  do gs0 <- gs_sector (/ 10000000) (fst e0) (snd e0);
  match snd e0 with
  | None => Err StopIteration
  | Some egs0 =>
      do occ0 <- occupation (fst e0) egs0 beta;
      let V := fun i j => match i, j with O, O => U | _, _ => snd hv i j end in
      let H := fun i j => match i, j with O, O => fst hv 0%nat 0%nat - sigma0 | _, _ => fst hv i j end in
      do e1 <- dev_espace H V;
      do gs1 <- gs_sector (/ 10000000) (fst e1) (snd e1);
      match snd e1 with
      | None => Err StopIteration
      | Some egs =>
          do occ1 <- occupation (fst e1) egs beta;
          do m1 <- sector_min (fst e1) (fst gs1);
          do m0 <- sector_min (fst e1) (fst gs0);
          do gf <- build_gf_exact n (fst e1) beta egs 0 0%Z;
          do ds <- mapM (fun z => do G <- gf_call gf (rcx (re z)) (im z); Ok (cxsub (cxinv (gf0_call poles z)) (cxinv G))) zs;
          do b <- build_non_interacting_espace RRing Rleb wild (g_ek g);
          match snd b with
          | None => Err StopIteration
          | Some egs_bath =>
              Ok (mktrial (if list_eq_dec Nat.eq_dec (fst gs1) (fst gs0) then true else false) (exp (- beta * Rabs (m1 - m0)))
                    (mkinc ds occ0 occ1 (ded_entropy kB (map (fun e => s_vals RRing (snd e)) (fst e1)) (map (fun e => s_vals RRing (snd e)) (fst b)) egs egs_bath beta)))
          end
      end
  end.
End Ded.
(** lines 269-300: every pass is added, with its weight; only those with equal sectors count
    as one of the [N] rounds.  [trial] maps what the sampler draws to the outcome. *)
Section Loop.
Context {D : Type}.
Variable trial : D -> res trial_t.
Fixpoint dev_loop (N : nat) (draws : list D) (acc : increment * R) : res (increment * R) :=
  match N, draws with
  | O, _ => Ok acc
  | S _, [] => Err OutOfFuel
  | S N', d :: draws =>
      do t <- trial d;
      dev_loop (if t_found t then N' else N) draws (inc_add (fst acc) (inc_scale (t_weight t) (t_inc t)), snd acc + t_weight t)
  end.
(** lines 301-304; Q is the Python float 0. if there was no pass. *)
Definition dev_finish (kB : R) (a : increment) (Q : R) : increment :=
  mkinc (map (fun x => cxdiv x (rcx Q)) (i_sigma a)) (i_occ0 a / Q) (i_occ1 a / Q) (i_entropy a / (Q * kB)).
Definition dev_rounds (kB : R) (sigma : list cx) (N : nat) (draws : list D) : res increment :=
  do a <- dev_loop N draws (mkinc sigma 0 0 0, 0);
  if (N =? 0)%nat then Err ZeroDivisionError else Ok (dev_finish kB (fst a) (snd a)).
End Loop.
Section Solve.
Variables (big : R -> bool) (half : R).
Variable eigh : dense RRing -> res (list R * list (list R)).
Variable eigsh : nat -> Z -> (list R -> res (list R)) -> res (list R * list (list R)).
Variables (fsolve : (R -> R) -> R -> R) (kB : R) (wild : N -> nat -> N) (occupation : espace RRing -> R -> R -> res R).
Variables (n : nat) (U sigma0 beta : R) (zs : list cx).
Definition dev_solve (dos : list R -> list R) (nsamples : R) (sigma : option (list cx)) (N : nat) (draws : list (list R)) : res increment :=
  let sigma := match sigma with Some s => s | None => map (fun _ => rcx 0) zs end in
  match zs with
  | [] => Err IndexError
  | z0 :: _ =>
      do rs <- sampler_init dos (re z0) (re (last zs z0)) n nsamples;
      dev_rounds (fun d => do poles <- sampler_call rs d; dev_trial big half eigh eigsh fsolve kB wild occupation n U sigma0 beta zs poles) kB sigma N draws
  end.
End Solve.

(** ** lines 343-443 [ded_solve_multi], the bookkeeping, as for [moam_solve] of DedModel.v *)
Section Multi.
Context {D P A : Type}.
Variable pre : D -> res P.
Variable post : A -> P -> res (list (option increment)).
(** lines 424-433: with the number of samples [Q[i]] of each impurity. *)
Definition multi_add (acc : list (increment * nat)) (r : list (option increment)) : list (increment * nat) :=
  map (fun p => match snd p with Some i => (inc_add (fst (fst p)) i, S (snd (fst p))) | None => fst p end) (List.combine acc r).
Fixpoint multi_loop (given : bool) (U : moam_U A) (N : nat) (draws : list D) (acc : list (increment * nat)) : res (list (increment * nat)) :=
  match N, draws with
  | O, _ => Ok acc
  | S _, [] => Err OutOfFuel
  | S N', d :: draws =>
      do r <- moam_trial pre post given U d;
      multi_loop given U (if existsb (fun o => match o with Some _ => true | None => false end) r then N' else N) draws (multi_add acc r)
  end.
(** lines 435-439: [Q = np.where(Q > 0, Q, 1)] *)
Definition multi_finish (acc : list (increment * nat)) : list increment :=
  map (fun p => let q := INR (if (0 <? snd p)%nat then snd p else 1%nat) in
    mkinc (map (fun x => cxdiv x (rcx q)) (i_sigma (fst p))) (i_occ0 (fst p) / q) (i_occ1 (fst p) / q) 0) acc.
(** lines 368-372: an array that is passed in is set to zero first. *)
Definition multi_solve (given : bool) (U : moam_U A) (N : nat) (draws : list D) (sigma : list (list cx)) : res (list increment) :=
  do _ <- (match U, given with UDict _, false => Err TypeError | _, _ => Ok tt end);
  do acc <- multi_loop given U N draws (map (fun s => (mkinc (map (fun _ => rcx 0) s) 0 0 0, 0%nat)) sigma);
  Ok (multi_finish acc).
End Multi.
