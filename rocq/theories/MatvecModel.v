(** Model of edpyt/psparse.pyx, edpyt/cs_gaxpy.c, edpyt/matvec_product.py (serial
    part) and of the operator classes of ham_local.py, ham_hopping.py and
    ham_non_local.py. *)
From Coq Require Import List Arith NArith ZArith Bool.
From Verif Require Import Base HoppingModel.
Import ListNotations.

(** Unchecked read (C, Cython with boundscheck(False)). *)
Definition rdo {A} (l : list A) (i : nat) : res A :=
  match nth_error l i with Some a => Ok a | None => Err OutOfBounds end.
Definition rdz {A} (l : list A) (i : Z) : res A :=
  if (i <? 0)%Z then Err OutOfBounds else rdo l (Z.to_nat i).

(** The sparse products over an arbitrary number type with arbitrary addition
    and multiplication (no algebraic law is assumed, so float64 qualifies). *)
Section Raw.
Variable F : Type.
Variables fadd fmul : F -> F -> F.

(** psparse.pyx:17-25 [cs]. *)
Record raw := mkraw {
  r_data : list F;
  r_indptr : list nat;
  r_indices : list Z;
  r_rows : nat;
  r_cols : nat
}.

(** One statement [y[t] += v] is the pair (t, v): the second factor reads only
    the input vector, which no statement modifies. *)
Definition update := (nat * F)%type.

(** The loop [for p in Ap[r]..Ap[r+1]] with body [y[t] += Ax[p]*x[src(Ai[p])]]
    (cs_gaxpy.c:12-15; psparse.pyx:126-127). *)
Definition row_updates (A : raw) (W : list F) (r t : nat) (src : Z -> Z) : res (list update) :=
  do lo <- rdo (r_indptr A) r;
  do hi <- rdo (r_indptr A) (S r);
  mapM (fun p => do a <- rdo (r_data A) p; do j <- rdo (r_indices A) p;
                 do w <- rdz W (src j); Ok (t, fmul a w)) (seq lo (hi - lo)).

(** cs_gaxpy.c:4-18 [csr_gaxpy(A, &W[off], &result[off])]. *)
Definition csr_gaxpy (A : raw) (W : list F) (off : nat) : res (list update) :=
  do l <- mapM (fun r => row_updates A W r (off + r) (fun j => Z.of_nat off + j)%Z) (seq 0 (r_rows A));
  Ok (concat l).

(** cs_gaxpy.c:20-34 [csr_saxpy(A, &W[0], &result[0], i, n)]. *)
Definition csr_saxpy (A : raw) (W : list F) (i n : nat) : res (list update) :=
  do lo <- rdo (r_indptr A) i;
  do hi <- rdo (r_indptr A) (S i);
  do l <- mapM (fun p =>
      mapM (fun s => do a <- rdo (r_data A) p; do j <- rdo (r_indices A) p;
                     do w <- rdz W (j * Z.of_nat n + Z.of_nat s)%Z;
                     Ok ((i * n + s)%nat, fmul a w)) (seq 0 n)) (seq lo (hi - lo));
  Ok (concat l).

(** Iterations of the three [prange] loops: psparse.pyx:60-64, 92-96, 124-127;
    integer division by zero raises. *)
Definition up_threads (A : raw) (W : list F) : res (list (list update)) :=
  let nup := r_rows A in
  if (nup =? 0)%nat then Err ZeroDivisionError
  else mapM (fun i => csr_gaxpy A W (i * nup)) (seq 0 (length W / nup)).
Definition dw_threads (A : raw) (W : list F) : res (list (list update)) :=
  let ndw := r_rows A in
  if (ndw =? 0)%nat then Err ZeroDivisionError
  else mapM (fun i => csr_saxpy A W i (length W / ndw)) (seq 0 ndw).
Definition nl_threads (A : raw) (W : list F) : res (list (list update)) :=
  mapM (fun i => row_updates A W i i (fun j => j)) (seq 0 (r_rows A)).

(** Executing statements one after the other. *)
Definition run_update (y : list F) (u : update) : res (list F) :=
  match nth_error y (fst u) with
  | None => Err OutOfBounds
  | Some v => Ok (upd_tot y (fst u) (fadd v (snd u)))
  end.
Definition run_updates (us : list update) (y : list F) : res (list F) := foldM run_update us y.

(** psparse.pyx:37-64, 67-96, 99-127, iterations in sequential order. *)
Definition UPmultiply (A : raw) (W y : list F) : res (list F) :=
  do ts <- up_threads A W; run_updates (concat ts) y.
Definition DWmultiply (A : raw) (W y : list F) : res (list F) :=
  do ts <- dw_threads A W; run_updates (concat ts) y.
Definition Multiply (A : raw) (W y : list F) : res (list F) :=
  do ts <- nl_threads A W; run_updates (concat ts) y.

(** ** Parallel execution of a [prange] loop

    Every thread owns a list of statements [y[t] += v], each executed as a
    load into a register followed by a store; steps of different threads
    interleave arbitrarily. *)
Record tstate := mkt { reg : option F; todo : list update }.
Definition start (prog : list update) : tstate := mkt None prog.

Inductive tstep : list F -> tstate -> list F -> tstate -> Prop :=
| ts_load y t v x l : nth_error y t = Some v ->
    tstep y (mkt None ((t, x) :: l)) y (mkt (Some v) ((t, x) :: l))
| ts_store y t v x l : (t < length y)%nat ->
    tstep y (mkt (Some v) ((t, x) :: l)) (upd_tot y t (fadd v x)) (mkt None l).

Inductive pstep : list F * list tstate -> list F * list tstate -> Prop :=
| ps k y y' s s' ss : nth_error ss k = Some s -> tstep y s y' s' ->
    pstep (y, ss) (y', upd_tot ss k s').

Inductive psteps : nat -> list F * list tstate -> list F * list tstate -> Prop :=
| ps_nil c : psteps 0 c c
| ps_cons n c c' c'' : pstep c c' -> psteps n c' c'' -> psteps (S n) c c''.

Definition finished (ss : list tstate) : Prop := forall s, In s ss -> s = mkt None [].

End Raw.

Section Ops.
Variable K : CRing.
Local Open Scope cr_scope.

Definition raw_of (m : spmat K) : raw K :=
  mkraw K (m_data K m) (m_indptr K m) (m_indices K m) (m_rows K m) (m_cols K m).

(** The operator classes: ham_local.py:144-150 [Local], ham_hopping.py:166-176
    [UpHopping], 179-189 [DwHopping], ham_non_local.py:256-262 [NonLocal]. *)
Inductive op :=
| OpLocal (v : list K)
| OpUp (m : spmat K) (dwn : nat)
| OpDw (m : spmat K) (dup : nat)
| OpNL (m : spmat K).

(** [op.matvec(vec, out=out)].  [np.multiply] overwrites [out]; shapes must
    agree (broadcasting of a length-one operand is left out). *)
Definition op_matvec (o : op) (vec out : list K) : res (list K) :=
  match o with
  | OpLocal v =>
      if ((length v =? length vec) && (length out =? length vec))%nat
      then Ok (map (fun xy => fst xy * snd xy) (List.combine v vec))
      else Err ValueError
  | OpUp m _ => UPmultiply K (cadd K) (cmul K) (raw_of m) vec out
  | OpDw m _ => DWmultiply K (cadd K) (cmul K) (raw_of m) vec out
  | OpNL m => Multiply K (cadd K) (cmul K) (raw_of m) vec out
  end.

(** matvec_product.py:29-42 [_matvec_operator].  [empty] stands for the
    contents of the freshly allocated [np.empty_like(vec)]; [res or ...]
    evaluates the truth value of [res], which raises for arrays with more than
    one element and is the truth value of the element for one element. *)
Definition matvec (truthy : K -> bool) (ops : list op) (empty vec : list K) (res : option (list K))
    : Base.res (list K) :=
  do out <- match res with
            | None => Ok empty
            | Some [x] => Ok (if truthy x then [x] else empty)
            | Some [] => Ok empty
            | Some _ => Err ValueError
            end;
  foldM (fun out o => op_matvec o vec out) ops out.

(** A dense array: shape and entries. *)
Record dense := mkdense { d_rows : nat; d_cols : nat; d_at : nat -> nat -> K }.

(** [csr_matrix.todense()]: duplicates are added. *)
Definition csr_dense (m : spmat K) : dense :=
  mkdense (m_rows K m) (m_cols K m) (fun a b =>
    let lo := nth a (m_indptr K m) 0%nat in
    let hi := nth (S a) (m_indptr K m) 0%nat in
    bsum (fun p => if Z.eqb (nth p (m_indices K m) (-1)%Z) (Z.of_nat b)
                   then nth p (m_data K m) 0 else 0) (seq lo (hi - lo))).
(** [np.eye(n)] and [np.kron(A, B)]. *)
Definition eye (n : nat) : dense := mkdense n n (fun a b => if (a =? b)%nat then 1 else 0).
Definition kron (A B : dense) : dense :=
  mkdense (d_rows A * d_rows B) (d_cols A * d_cols B)
    (fun a b => d_at A (a / d_rows B) (b / d_cols B) * d_at B (a mod d_rows B) (b mod d_cols B)).

(** [op.todense()] of the three two-dimensional classes. *)
Definition op_dense (o : op) : option dense :=
  match o with
  | OpLocal _ => None
  | OpUp m dwn => Some (kron (eye dwn) (csr_dense m))
  | OpDw m dup => Some (kron (csr_dense m) (eye dup))
  | OpNL m => Some (csr_dense m)
  end.

(** matvec_product.py:82-88: [op.ndim<2] selects the diagonal operators. *)
Fixpoint split_ops (ops : list op) : list (list K) * list dense :=
  match ops with
  | [] => ([], [])
  | o :: ops => let '(ds, ms) := split_ops ops in
                match o with
                | OpLocal v => (v :: ds, ms)
                | _ => match op_dense o with Some m => (ds, m :: ms) | None => (ds, ms) end
                end
  end.

(** [out += op.todense()]; different shapes raise. *)
Definition dense_add (A B : dense) : res dense :=
  if ((d_rows A =? d_rows B) && (d_cols A =? d_cols B))%nat
  then Ok (mkdense (d_rows A) (d_cols A) (fun a b => d_at A a b + d_at B a b))
  else Err ValueError.
(** [out.flat[::n+1] += dop] for an n x n array: adds to the diagonal.
    Simplification: a non-square array raises here. *)
Definition diag_add (A : dense) (v : list K) : res dense :=
  if ((d_rows A =? d_cols A) && (length v =? d_rows A))%nat
  then Ok (mkdense (d_rows A) (d_cols A)
             (fun a b => if (a =? b)%nat then d_at A a b + nth a v 0 else d_at A a b))
  else Err ValueError.

(** matvec_product.py:75-95 [todense]; [ops.pop()] takes the last element. *)
Definition todense (ops : list op) : res dense :=
  let '(diag_op, ms) := split_ops ops in
  match rev ms with
  | [] => Err IndexError
  | out :: rest =>
    do out <- foldM dense_add (rev rest) out;
    foldM diag_add diag_op out
  end.

End Ops.
