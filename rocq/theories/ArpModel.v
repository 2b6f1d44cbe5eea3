(** Model of the sparse eigensolver: edpyt/eigh_arpack.py:48-216.  ARPACK's routines
    are arguments; exact real arithmetic. *)
From Coq Require Import Reals List Arith ZArith Bool.
From Verif Require Import Base RBase.
Import ListNotations.
Local Open Scope R_scope.

(** [workd[p:p+n]] and [workd[p:p+n] = y]; an array of another length does not fit. *)
Definition slice_at (p n : nat) (l : list R) : list R := firstn n (skipn p l).
Definition assign_at (p n : nat) (l y : list R) : res (list R) :=
  if (length (slice_at p n l) =? length y)%nat then Ok (firstn p l ++ y ++ skipn (p + length y) l) else Err ValueError.

(** What [dsaupd] hands back: ido, ipntr[0], ipntr[1], info, iparam[4], its internal
    state (resid, v, workl and saved variables) and [workd]. *)
Record reply (St : Type) := mkreply { r_ido : Z; r_x : nat; r_y : nat; r_info : Z; r_nconv : nat; r_st : St; r_workd : list R }.
Arguments mkreply {St}. Arguments r_ido {St}. Arguments r_x {St}. Arguments r_y {St}. Arguments r_info {St}. Arguments r_nconv {St}. Arguments r_st {St}. Arguments r_workd {St}.

Section Arpack.
Variable St : Type.
(** Contents of the arrays of a new [ArpackParams(maxn, maxncv, ldv, v0)]. *)
Variable fresh : nat -> nat -> option (list R) -> St.
(** [arpack_solver]: dimension (the length of [resid]), nev, number of basis vectors
    (the columns of [v]), maxitr, ido, info, state, workd. *)
Variable saupd : nat -> Z -> nat -> nat -> Z -> Z -> St -> list R -> reply St.
(** [arpack_extract]: eigenvalues, columns of [z], ierr. *)
Variable seupd : nat -> Z -> nat -> St -> list R -> list R * list (list R) * Z.
(** Keys of the tables of messages. *)
Variables known_aupd known_eupd : Z -> bool.

(** eigh_arpack.py:48-67 [ArpackParams]; at line 62 a longer [v0] does not fit *)
Record aparams := mkparams { p_maxn : nat; p_maxncv : nat; p_info : Z; p_st : St; p_workd : list R }.
Definition new_params (maxn maxncv : nat) (v0 : option (list R)) : res aparams :=
  match v0 with
  | None => Ok (mkparams maxn maxncv 0 (fresh maxn maxncv None) (repeat 0 (3 * maxn)))
  | Some v => if (length v <=? maxn)%nat then Ok (mkparams maxn maxncv 1 (fresh maxn maxncv (Some v)) (repeat 0 (3 * maxn))) else Err ValueError
  end.

(** eigh_arpack.py:76 *)
Definition ncv_of (n : nat) (nev : Z) : nat := Z.to_nat (Z.min (Z.max (2 * nev + 1) 20) (Z.of_nat n)).

Section Run.
Variables (n : nat) (nev : Z) (matvec : list R -> res (list R)) (p : aparams).
(** eigh_arpack.py:150-181; every pass asks ARPACK once *)
Fixpoint rc_loop (fuel : nat) (ido info : Z) (st : St) (workd : list R) : res (reply St) :=
  match fuel with
  | O => Err OutOfFuel
  | S fuel =>
    let o := saupd (p_maxn p) nev (p_maxncv p) (n * 10) ido info st workd in
    if ((r_ido o =? 1) || (r_ido o =? - 1))%Z then
      do y <- matvec (slice_at (r_x o - 1) n (r_workd o));
      do w <- assign_at (r_y o - 1) n (r_workd o) y;
      rc_loop fuel (r_ido o) (r_info o) (r_st o) w
    else Ok o
  end.
End Run.

(** eigh_arpack.py:70-216 [eigsh]; the tables are looked up while the message is put
    together, the second one with [info] instead of [ierr] *)
Definition eigsh (fuel : nat) (n : nat) (nev : Z) (matvec : list R -> res (list R)) (v0 : option (list R)) (param : option aparams) : res (list R * list (list R)) :=
  let ncv := ncv_of n nev in
  do p <- match param with None => new_params n ncv v0 | Some p => Ok p end;
  if negb (n <=? p_maxn p)%nat then Err AssertionError else
  if negb (ncv <=? p_maxncv p)%nat then Err AssertionError else
  do o <- rc_loop n nev matvec p fuel 0 (p_info p) (p_st p) (p_workd p);
  if (r_info o <? 0)%Z then Err (if known_aupd (r_info o) then RuntimeError else KeyError) else
  let '(d, z, ierr) := seupd (p_maxn p) nev (p_maxncv p) (r_st o) (firstn (2 * n) (r_workd o)) in
  if negb (ierr =? 0)%Z then Err (if known_eupd (r_info o) then RuntimeError else KeyError) else
  Ok (firstn (r_nconv o) d, firstn (r_nconv o) z).
End Arpack.
Arguments mkparams {St}. Arguments p_maxn {St}. Arguments p_maxncv {St}. Arguments p_info {St}. Arguments p_st {St}. Arguments p_workd {St}.
