(** Model of the projections of edpyt/gf_exact.py and edpyt/gf_lanczos.py onto
    neighbouring sectors. *)
From Coq Require Import List Arith NArith ZArith Bool.
From Verif Require Import Base OperatorsModel LookupModel SectorModel LocalModel MatvecModel EspaceModel.
Import ListNotations.

(** The two functions [c] and [cdg] passed as [op]. *)
Inductive fop := OpC | OpCdg.
Definition apply_op (op : fop) : N -> nat -> nat -> res (Z * N) :=
  match op with OpC => c | OpCdg => cdg end.
(** [check_occupation = check_full if op is c else check_empty]. *)
Definition check_occupation (op : fop) (s : N) (pos : nat) : bool :=
  negb (N.eqb (match op with OpC => check_full s pos | OpCdg => check_empty s pos end) 0).

(** [range(len(l))] with the entries. *)
Definition enum {A} (l : list A) : list (nat * A) := combine (seq 0 (length l)) l.

(** Row numbers selected by [a[start::step]] from [d] rows. *)
Definition strided (d : nat) (start : Z) (step : nat) : res (list nat) :=
  if step =? 0 then Err ValueError
  else let s := Z.to_nat (if (start <? 0)%Z then start + Z.of_nat d else start)%Z in
       Ok (map (fun k => s + k * step) (seq 0 ((d - s + step - 1) / step))).
(** Row numbers selected by [a[lo:hi]] from [d] rows. *)
Definition clampi (d : nat) (i : Z) : nat :=
  Nat.min d (Z.to_nat (if (i <? 0)%Z then i + Z.of_nat d else i)%Z).
Definition rows (d : nat) (lo hi : Z) : list nat := seq (clampi d lo) (clampi d hi - clampi d lo).

Section Proj.
Variable K : CRing.
Local Open Scope cr_scope.

(** Columns of [sct.eigvecs] when it is indexed with two subscripts. *)
Definition cols_of (s : sct K) : res (list (list K)) :=
  match s_vecs K s with Cols _ cs => Ok cs | NoVecs _ => Err TypeError | Vec1 _ => Err IndexError end.

(** [v0 += sgn * A[rJ,:].T.dot(B[rI,:])] for the column lists [cJ] of [A] and
    [cI] of [B]; [v0] is given by rows.  Columns have as many entries as the
    sector has states.  Broadcasting of a single row or column against a
    different number of eigenvalues is not modelled (ValueError). *)
Definition dot_rows (cj ci : list K) (rJ rI : list nat) : K :=
  bsum (fun p => nth (fst p) cj 0 * nth (snd p) ci 0) (combine rJ rI).
Definition accum (nJ nI : nat) (v0 : list (list K)) (sg : Z) (cJ cI : list (list K)) (rJ rI : list nat) : res (list (list K)) :=
  if (length rJ =? length rI) && (length cJ =? nJ) && (length cI =? nI) then
    Ok (map (fun p => map (fun q => fst q + z2k sg * dot_rows (snd p) (snd q) rJ rI) (combine (fst p) cI)) (combine v0 cJ))
  else Err ValueError.

(** gf_exact.py:42-62 [project_exact_up]. *)
Definition project_exact_up (pos n : nat) (op : fop) (I J : sct K) : res (list (list K)) :=
  match s_states K I, s_states K J with
  | StSz upI _, StSz upJ _ =>
      let nJ := length (s_vals K J) in let nI := length (s_vals K I) in
      foldM (fun v0 p =>
        let '(iI, sI) := p in
        if check_occupation op sI pos then
          do (sg, sJ) <- apply_op op sI pos n;
          do iJ <- binsearch upJ sJ;
          do cJ <- cols_of J;
          do rJ <- strided (s_d K J) iJ (length upJ);
          do cI <- cols_of I;
          do rI <- strided (s_d K I) (Z.of_nat iI) (length upI);
          accum nJ nI v0 sg cJ cI rJ rI
        else Ok v0) (enum upI) (repeat (repeat 0 nI) nJ)
  | _, _ => Err AttributeError
  end.

(** gf_exact.py:65-85 [project_exact_dw]. *)
Definition project_exact_dw (pos n : nat) (op : fop) (I J : sct K) : res (list (list K)) :=
  match s_states K I, s_states K J with
  | StSz upI dwI, StSz upJ dwJ =>
      let nJ := length (s_vals K J) in let nI := length (s_vals K I) in
      let uJ := Z.of_nat (length upJ) in let uI := Z.of_nat (length upI) in
      foldM (fun v0 p =>
        let '(iI, sI) := p in
        if check_occupation op sI pos then
          do (sg, sJ) <- apply_op op sI pos n;
          do iJ <- binsearch dwJ sJ;
          do cJ <- cols_of J;
          let rJ := rows (s_d K J) (iJ * uJ) ((iJ + 1) * uJ) in
          do cI <- cols_of I;
          let rI := rows (s_d K I) (Z.of_nat iI * uI) ((Z.of_nat iI + 1) * uI) in
          accum nJ nI v0 sg cJ cI rJ rI
        else Ok v0) (enum dwI) (repeat (repeat 0 nI) nJ)
  | _, _ => Err AttributeError
  end.

(** [v0[:,rJ] = sgn * A[rI,:].T] for the column list [cI] of [A]. *)
Definition put_all (x : list K) (pairs : list (nat * K)) : list K :=
  fold_left (fun x p => upd_tot x (fst p) (snd p)) pairs x.
Definition assign (nI : nat) (v0 : list (list K)) (sg : Z) (cI : list (list K)) (rJ rI : list nat) : res (list (list K)) :=
  if (length rJ =? length rI) && (length cI =? nI) then
    Ok (map (fun p => put_all (fst p) (combine rJ (map (fun r => z2k sg * nth r (snd p) 0) rI))) (combine v0 cI))
  else Err ValueError.

(** gf_lanczos.py:55-77 [project_up]. *)
Definition project_up (pos n : nat) (op : fop) (I J : sct K) : res (list (list K)) :=
  match s_states K I, s_states K J with
  | StSz upI _, StSz upJ _ =>
      let nI := length (s_vals K I) in
      foldM (fun v0 p =>
        let '(iI, sI) := p in
        if check_occupation op sI pos then
          do (sg, sJ) <- apply_op op sI pos n;
          do iJ <- binsearch upJ sJ;
          do cI <- cols_of I;
          do rI <- strided (s_d K I) (Z.of_nat iI) (length upI);
          do rJ <- strided (s_d K J) iJ (length upJ);
          assign nI v0 sg cI rJ rI
        else Ok v0) (enum upI) (repeat (repeat 0 (s_d K J)) nI)
  | _, _ => Err AttributeError
  end.

(** gf_lanczos.py:80-93 [project_dw]. *)
Definition project_dw (pos n : nat) (op : fop) (I J : sct K) : res (list (list K)) :=
  match s_states K I, s_states K J with
  | StSz upI dwI, StSz upJ dwJ =>
      let nI := length (s_vals K I) in
      let uJ := Z.of_nat (length upJ) in let uI := Z.of_nat (length upI) in
      foldM (fun v0 p =>
        let '(iI, sI) := p in
        if check_occupation op sI pos then
          do (sg, sJ) <- apply_op op sI pos n;
          do iJ <- binsearch dwJ sJ;
          do cI <- cols_of I;
          let rI := rows (s_d K I) (Z.of_nat iI * uI) ((Z.of_nat iI + 1) * uI) in
          let rJ := rows (s_d K J) (iJ * uJ) ((iJ + 1) * uJ) in
          assign nI v0 sg cI rJ rI
        else Ok v0) (enum dwI) (repeat (repeat 0 (s_d K J)) nI)
  | _, _ => Err AttributeError
  end.
End Proj.
