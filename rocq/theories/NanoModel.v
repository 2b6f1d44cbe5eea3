(** Model of edpyt/nano_dmft.py: the lattice Green's function [Gfloc] of several
    sites, its distribution over processes, and the container [Gfimp] of
    impurities.  Exact complex arithmetic; self-energies with one spin component
    (rows: non-equivalent sites, columns: frequencies); indices are natural
    numbers as returned by np.unique. *)
From Coq Require Import Reals List Arith ZArith Bool.
From Verif Require Import Base RBase RLin CBase ProjModel EspaceModel FitModel DmftModel FermiModel ObsModel.
Import ListNotations.
Local Open Scope R_scope.

Definition mat := nat -> nat -> cx.
Definition rows := list (list cx).

(** Fancy indexing [v[idx]] and assignment [v[idx] = d]. *)
Definition take {A} (v : list A) (idx : list nat) : res (list A) := mapM (elem_at v) idx.
Definition upd_at {A} (v : list A) (i : nat) (x : A) : res (list A) := match upd v i x with Some v => Ok v | None => Err IndexError end.
Definition put_at {A} (v : list A) (idx : list nat) (d : list A) : res (list A) :=
  foldM (fun v p => upd_at v (fst p) (snd p)) (combine idx d) v.
(** Broadcasting to [n] entries. *)
Definition bcast {A} (n : nat) (v : list A) : res (list A) :=
  if (length v =? n)%nat then Ok v else match v with [x] => Ok (repeat x n) | _ => Err ValueError end.

(** ** The lattice *)
(** nano_dmft.py:41-46 [_get_idx_world], applied to a sequence *)
Definition idx_world {A} (comm : option (nat * nat)) (l : list A) : list A :=
  match comm with
  | None => l
  | Some (size, rank) => let stride := (length l / size)%nat in firstn ((rank + 1) * stride - rank * stride) (skipn (rank * stride) l)
  end.
(** nano_dmft.py:60-70 [Gfloc.__init__].  [comm]: (size, rank).  [Sigma] holds the
    functions set by [set_local] on every process (one without [comm]); the
    attributes [mu] and [Sigma] are missing at first. *)
Record nloc := mkNloc { nl_n : nat; nl_H : mat; nl_S : mat; nl_Hyb : cx -> mat; nl_neq : list nat; nl_inv : list nat;
  nl_comm : option (nat * nat); nl_mu : option R; nl_Sigma : option (list (list cx -> res rows)) }.
Definition nl_init (n : nat) (H S : mat) (Hyb : cx -> mat) (neq inv : list nat) (comm : option (nat * nat)) : nloc :=
  mkNloc n H S Hyb (idx_world comm neq) inv comm None None.
(** nano_dmft.py:72-74 [ed] *)
Definition diagonal (n : nat) (x : mat) : list cx := map (fun i => x i i) (seq 0 n).
Definition nl_ed (l : nloc) : res (list cx) := take (diagonal (nl_n l) (nl_H l)) (nl_neq l).
(** nano_dmft.py:90-99 [update], [set_local] *)
Definition nl_update (l : nloc) (mu : R) : nloc :=
  mkNloc (nl_n l) (nl_H l) (nl_S l) (nl_Hyb l) (nl_neq l) (nl_inv l) (nl_comm l) (Some mu) (nl_Sigma l).
Definition nl_set_local (l : nloc) (s : list (list cx -> res rows)) : nloc :=
  mkNloc (nl_n l) (nl_H l) (nl_S l) (nl_Hyb l) (nl_neq l) (nl_inv l) (nl_comm l) (nl_mu l) (Some s).
(** [self.Sigma(z)] on this process *)
Definition nl_rank (l : nloc) : nat := match nl_comm l with None => 0 | Some (_, r) => r end.
Definition nl_Sigma_loc (l : nloc) (zs : list cx) : res rows :=
  do s <- attr (nl_Sigma l); do f <- attr (nth_error s (nl_rank l)); f zs.
(** nano_dmft.py:8-22 [_get_sigma_method]: Allgather joins the rows of all
    processes (equal shapes; other shapes make MPI fail) *)
Definition nl_get_sigma (l : nloc) (zs : list cx) : res rows :=
  do mine <- nl_Sigma_loc l zs;
  match nl_comm l with
  | None => Ok mine
  | Some _ =>
      do s <- attr (nl_Sigma l);
      do parts <- mapM (fun f : list cx -> res rows => f zs) s;
      if forallb (fun p => length p =? length mine)%nat parts then Ok (concat parts) else Err RuntimeError
  end.
(** nano_dmft.py:125-133 [free(z, inverse=True)] *)
Definition nl_free_inv (l : nloc) (z : cx) : res mat :=
  do mu <- attr (nl_mu l);
  Ok (fun i j => cxsub (cxsub (cxmul (cxadd z (rcx mu)) (nl_S l i j)) (nl_H l i j)) (nl_Hyb l z i j)).

Section Loc.
(** np.linalg.inv (LinAlgError, a ValueError, for a singular matrix) *)
Variable inv : nat -> mat -> res mat.

(** nano_dmft.py:83-85, the body of the loop for one chunk *)
Definition loc_chunk (l : nloc) (sigma_ z_ out : list cx) : res (list cx) :=
  do z0 <- elem_at z_ 0;
  do x <- nl_free_inv l z0;
  do s <- take sigma_ (nl_inv l);
  do s <- bcast (nl_n l) s;
  let x := fun i j => if (i =? j)%nat then cxsub (x i j) (nth i s (rcx 0)) else x i j in
  do g <- inv (nl_n l) x;
  do d <- take (diagonal (nl_n l) g) (nl_neq l);
  put_at out (nl_neq l) d.

(** nano_dmft.py:76-88 [__call__].  nditer in order 'F' with external_loop hands
    out one chunk per frequency, of one entry per row; a single row is coalesced
    with the frequency axis into one chunk of all frequencies.  [mem] is the
    content of the allocated output before the loop, by chunk and position.
    Operands without entries and rows of another length than z raise. *)
Definition column (m : rows) (j : nat) : list cx := map (fun r => nth j r (rcx 0)) m.
Definition chunks (sigma : rows) (zs : list cx) : list (list cx * list cx) :=
  match sigma with
  | [r] => [(r, zs)]
  | _ => map (fun j => (column sigma j, repeat (nth j zs (rcx 0)) (length sigma))) (seq 0 (length zs))
  end.
Definition nl_call (mem : nat -> nat -> cx) (l : nloc) (zs : list cx) : res rows :=
  do sigma <- nl_get_sigma l zs;
  if negb (forallb (fun r => length r =? length zs)%nat sigma) || (length zs =? 0)%nat || (length sigma =? 0)%nat then Err ValueError else
  do outs <- mapM (fun p => let '(c, (sigma_, z_)) := p in loc_chunk l sigma_ z_ (map (mem c) (seq 0 (length sigma_)))) (enum (chunks sigma zs));
  let operand := match sigma with [_] => outs | _ => map (fun i => column outs i) (seq 0 (length sigma)) end in
  take operand (nl_neq l).

(** nano_dmft.py:117-123 [Weiss], 101-115 [Delta] *)
Definition map2M {A B C} (f : A -> B -> res C) (x : list A) (y : list B) : res (list C) :=
  if (length x =? length y)%nat then mapM (fun p => f (fst p) (snd p)) (combine x y) else Err ValueError.
Definition nl_Weiss (mem : nat -> nat -> cx) (l : nloc) (zs : list cx) : res rows :=
  do g <- nl_call mem l zs;
  do s <- nl_Sigma_loc l zs;
  map2M (map2M (fun g s => Ok (cxadd (cxinv g) s))) g s.
Definition nl_Delta (mem : nat -> nat -> cx) (l : nloc) (zs : list cx) : res rows :=
  do w <- nl_Weiss mem l zs;
  do ed <- nl_ed l;
  do mu <- attr (nl_mu l);
  map2M (fun e => map2M (fun z w => Ok (cxsub (cxsub (cxadd z (rcx mu)) e) w)) zs) ed w.

(** nano_dmft.py:25-38, 137-151 [get_occps] (without comm) and [integrate]:
    matsum_gf row by row, then one entry per site and the spin factor *)
Definition nl_integrate (mem : nat -> nat -> cx) (l : nloc) (mu : R) (nmats : nat) (beta : R) : res (list R) :=
  do old <- attr (nl_mu l);
  do occ <- mapM (fun a => fst (matsum_gf (fun m zs => do g <- nl_call mem (nl_update l m) zs; elem_at g a) old mu nmats beta)) (seq 0 (length (nl_neq l)));
  do occ <- take occ (nl_inv l);
  Ok (map (fun x => 2 * x) occ).
End Loc.

(** ** The impurities: nano_dmft.py:154-213 [Gfimp] *)
Section Imps.
Variable fitter : list R -> list cx -> list R.
Variable solver : list R -> R -> res (cx -> cx).
(** nano_dmft.py:167-171 [update] *)
Definition imps_update (gs : list gfimp) (mu : list R) : res (list gfimp) :=
  do mu <- bcast (length gs) mu; Ok (map (fun p : gfimp * R => imp_update (fst p) (snd p)) (combine gs mu)).
(** nano_dmft.py:181-184 [fit]: [delta[i]] *)
Definition imps_fit (gs : list gfimp) (delta : rows) : res (list gfimp) :=
  mapM (fun p : nat * gfimp => do d <- elem_at delta (fst p); Ok (imp_fit fitter (snd p) d)) (enum gs).
(** nano_dmft.py:186-188 [Sigma]: np.stack of no arrays raises *)
Definition imps_Sigma (gs : list gfimp) (zs : list cx) : res rows :=
  match gs with [] => Err ValueError | _ => mapM (fun g => mapM (imp_Sigma g) zs) gs end.
(** nano_dmft.py:190-192 [solve] *)
Definition imps_solve (gs : list gfimp) : res (list gfimp) := mapM (imp_solve solver) gs.
(** dmft.py:349-354 [dmft_step] with these two objects on one process *)
Definition nano_step (delta : rows) (gs : list gfimp) (l : nloc) : res (list gfimp * nloc) :=
  do gs <- imps_fit gs delta;
  do mu <- attr (nl_mu l);
  do ed <- nl_ed l;
  do gs <- imps_update gs (map (fun e => mu - re e) ed);
  do gs <- imps_solve gs;
  Ok (gs, nl_set_local l [imps_Sigma gs]).
End Imps.

(** nano_dmft.py:198-204 [get_local_moments]: [self.beta] and [self.n] are looked
    up in the first impurity (lines 159-161). *)
Record oimp := mkOimp { oi_espace : list osct; oi_egs : R; oi_beta : R; oi_n : nat }.
Definition local_moments (imps : list oimp) : res (list R) :=
  mapM (fun g =>
    do first <- elem_at imps 0;
    do o <- fst (get_occupation (oi_espace g) (oi_egs g) (oi_beta first) (oi_n first));
    do u <- elem_at (fst o) 0; do d <- elem_at (snd o) 0; Ok (u - d)) imps.
