(** C94 and C95: the band Lanczos method and Gram-Schmidt. *)
From Coq Require Import Reals Lra List Arith ZArith QArith Qcanon Bool Lia.
From Verif Require Import Base RBase RLin LanczosModel LanczosSpec BandModel BandSpec BandLoopProofs BandRunProofs BandRealProofs.
Import ListNotations.
Local Open Scope R_scope.

(** ** C94 *)
(** Every call with at least one starting vector returns, whatever matvec does to
    vectors of the right length. *)
Theorem C94_outcome E egs close d mvf delta maxn ND phi0 : (forall x : list R, length x = d -> exists y, mvf x = Ok y /\ length y = d) -> (0 < ND)%nat -> (forall M, exists e, egs M = Ok e) ->
  (0 < length phi0)%nat -> (forall x, In x phi0 -> length x = d) ->
  exists s, build_bd_tridiag RField sqrt E (below delta) egs close mvf maxn ND phi0 = Ok s /\ (b_n RField E s <= maxn - b_Lc RField E s)%nat /\ (b_Lc RField E s <= length phi0)%nat.
Proof. exact (fun H1 H2 H3 H4 H5 => bd_total RField sqrt E (below delta) egs close d mvf maxn ND phi0 H1 H2 H3 H4 H5). Qed.
Print Assumptions C94_outcome.

(** The matrix returned is the matrix of the operator in an orthonormal basis, as long
    as the negative column indices did not reach the block that is returned.  When no
    candidate is left ([Lc = 0]) the basis spans the starting vectors and an invariant
    space up to [delta]: applying T to coefficients is applying the operator. *)
Theorem C94_projection E egs close d mvf delta maxn ND phi0 s : @symmetric_op RField d mvf -> 0 < delta -> (forall x, In x phi0 -> length x = d) ->
  build_bd_tridiag RField sqrt E (below delta) egs close mvf maxn ND phi0 = Ok s -> (b_n RField E s + length phi0 <= maxn)%nat ->
  exists vs, @orthonormal_rows RField d vs /\ length vs = b_n RField E s /\ @matrix_of RField d mvf vs (ret_T RField E s) /\ (b_n RField E s <= d)%nat /\
    (b_Lc RField E s = O ->
      (forall x, In x phi0 -> exists c e, (forall i, (i < d)%nat -> nth i x 0 = @comb RField vs c i + e i) /\ rlen d e < delta) /\
      forall (y : nat -> R) (x : list R), length x = d -> (forall i, (i < d)%nat -> nth i x 0 = @comb RField vs y i) ->
        exists X, mvf x = Ok X /\ rlen d (fun i => nth i X 0 - @comb RField vs (fun m => rsum (length vs) (fun k => @ent RField (ret_T RField E s) m k * y k)) i) <= delta * rsum (length vs) (fun k => Rabs (y k))).
Proof. exact (fun H1 H2 H3 => real_projection E egs close d mvf delta maxn ND phi0 H1 H2 H3 s). Qed.
Print Assumptions C94_projection.

(** With [maxn] above the dimension plus the number of starting vectors this always
    applies, and the run ends because no candidate is left or the energy converged. *)
Theorem C94_room E egs close d mvf delta maxn ND phi0 s : @symmetric_op RField d mvf -> 0 < delta -> (forall x, In x phi0 -> length x = d) -> (d + length phi0 < maxn)%nat ->
  build_bd_tridiag RField sqrt E (below delta) egs close mvf maxn ND phi0 = Ok s ->
  (b_n RField E s + length phi0 <= maxn)%nat /\ (b_Lc RField E s = O \/ exists p e, close p e = true).
Proof. exact (fun H1 H2 H3 => real_room E egs close d mvf delta maxn ND phi0 H1 H2 H3 s). Qed.
Print Assumptions C94_room.

(** It also applies to a run in which no starting vector or candidate was dropped. *)
Theorem C94_no_deflation E egs close d mvf delta maxn ND phi0 s : (forall x : list R, length x = d -> exists y, mvf x = Ok y /\ length y = d) -> (0 < ND)%nat -> (forall M, exists e, egs M = Ok e) ->
  (0 < length phi0)%nat -> (forall x, In x phi0 -> length x = d) -> (length phi0 <= maxn)%nat ->
  build_bd_tridiag RField sqrt E (below delta) egs close mvf maxn ND phi0 = Ok s -> b_Lc RField E s = length phi0 -> (b_n RField E s + length phi0 <= maxn)%nat.
Proof.
  intros H1 H2 H3 H4 H5 HM Q HL. destruct (C94_outcome E egs close d mvf delta maxn ND phi0 H1 H2 H3 H4 H5) as (s' & Q' & A & _). rewrite Q in Q'. injection Q' as <-. lia.
Qed.
Print Assumptions C94_no_deflation.

(** Without that room the result need not even be symmetric: a chain of four sites, two
    parallel starting vectors and maxn = 4.  The overlap T[0,-2] of the first starting
    vector is stored in column 2, which later belongs to the block that is returned.
    (Over the rationals, with a square root that is exact on the numbers that occur.) *)
Definition bx_sq (x : Qc) : Qc := if Qc_eq_dec x (Q2Qc 4) then Q2Qc 2 else x.
Definition bx_tiny (x : Qc) : bool := if Qc_eq_dec x (Q2Qc 0) then true else false.
Definition bx_mv (x : list Qc) : res (list Qc) := match x with [p; q; r; t] => Ok [q; p + r; q + t; r]%Qc | _ => Err ValueError end.
Definition bx_phi : list (list Qc) := [[Q2Qc 1; Q2Qc 0; Q2Qc 0; Q2Qc 0]; [Q2Qc 2; Q2Qc 0; Q2Qc 0; Q2Qc 0]].
Definition bx_run (maxn : nat) := build_bd_tridiag QcField bx_sq unit bx_tiny (fun _ => Ok tt) (fun _ _ => false) bx_mv maxn 10 bx_phi.
Theorem C94_symmetric_refuted : @symmetric_op QcField 4 bx_mv /\ (forall x, In x bx_phi -> length x = 4%nat) /\
  exists s, bx_run 4 = Ok s /\ b_n QcField unit s = 3%nat /\ @ent QcField (ret_T QcField unit s) 0 2 = Q2Qc 1 /\ @ent QcField (ret_T QcField unit s) 2 0 = Q2Qc 0.
Proof.
  split; [split|split].
  - intros [|p [|q [|r [|t [|? ?]]]]] L; try discriminate. eexists. split; reflexivity.
  - intros [|p [|q [|r [|t [|? ?]]]]] [|p' [|q' [|r' [|t' [|? ?]]]]] X Y L L'; try discriminate. cbn. intros Q Q'. injection Q as <-. injection Q' as <-. unfold ip, nsum. cbn. ring.
  - intros x [<-|[<-|[]]]; reflexivity.
  - eexists. split; [vm_compute; reflexivity|]. vm_compute. auto.
Qed.
Print Assumptions C94_symmetric_refuted.

(** The same with room: the path of four sites, the parallel vector was dropped. *)
Example C94_ex : match bx_run 7 with Ok s => b_Lc QcField unit s = O /\ map (map this) (ret_T QcField unit s) = [[0; 1; 0; 0]; [1; 0; 1; 0]; [0; 1; 0; 1]; [0; 0; 1; 0]]%Q | Err _ => False end.
Proof. vm_compute. auto. Qed.
(** A full block of two vectors; one column per starting vector is cut off at maxn. *)
Example C94_ex_block : match build_bd_tridiag QcField bx_sq unit bx_tiny (fun _ => Ok tt) (fun _ _ => false) bx_mv 6 10 [[Q2Qc 1; Q2Qc 0; Q2Qc 0; Q2Qc 0]; [Q2Qc 0; Q2Qc 0; Q2Qc 0; Q2Qc 1]] with
  Ok s => b_n QcField unit s = 4%nat /\ b_Lc QcField unit s = 2%nat /\ map (map this) (ret_T QcField unit s) = [[0; 0; 1; 0]; [0; 0; 0; 1]; [1; 0; 0; 1]; [0; 1; 1; 0]]%Q | Err _ => False end.
Proof. vm_compute. auto. Qed.
(** No starting vector at all. *)
Example C94_ex_empty : build_bd_tridiag QcField bx_sq unit bx_tiny (fun _ => Ok tt) (fun _ _ => false) bx_mv 6 10 [] = Err IndexError.
Proof. reflexivity. Qed.
(** The hypotheses can be met over the reals. *)
Example C94_ex_real : exists s, build_bd_tridiag RField sqrt unit (below (/ 2)) (fun _ => Ok tt) (fun _ _ => false) (fun x : list R => match x with [p; q] => Ok [q; p] | _ => Err ValueError end) 5 10 [[3; 4]; [1; 1]] = Ok s /\ b_Lc RField unit s = O.
Proof.
  set (mvf := fun x : list R => match x with [p; q] => Ok [q; p] | _ => Err ValueError end).
  assert (HS : @symmetric_op RField 2 mvf).
  { split.
    - intros [|p [|q [|? ?]]] L; try discriminate. eexists. split; reflexivity.
    - intros [|p [|q [|? ?]]] [|p' [|q' [|? ?]]] X Y L L'; try discriminate. cbn. intros Q Q'. injection Q as <-. injection Q' as <-. unfold ip, nsum. cbn. ring. }
  assert (HP : forall x, In x [[3; 4]; [1; 1]] -> length x = 2%nat) by (intros x [<-|[<-|[]]]; reflexivity).
  destruct (C94_outcome unit (fun _ => Ok tt) (fun _ _ => false) 2 mvf (/ 2) 5 10 [[3; 4]; [1; 1]] (proj1 HS) ltac:(lia) (fun _ => ex_intro _ tt eq_refl) ltac:(simpl; lia) HP) as (s & Q & _).
  exists s. split; [exact Q|]. destruct (C94_room unit _ _ 2 mvf (/ 2) 5 10 [[3; 4]; [1; 1]] s HS ltac:(lra) HP ltac:(simpl; lia) Q) as [_ [C|(p & e & C)]]; [exact C|discriminate].
Qed.

(** ** C95 *)
(** Rows: an orthonormal basis with the same leading spans exactly when the rows are
    independent (X = L Z with L lower triangular with positive diagonal determines Z);
    otherwise numpy divides by zero. *)
Theorem C95_rows nc d X : (forall x, In x X -> length x = d) ->
  (exists Z, gs nc X true true = Ok Z /\ length Z = length X /\ @orthonormal_rows RField d Z /\ @independent RField d X /\
     forall i, (i < length X)%nat -> exists a, 0 < a /\ @lower_row RField d X Z i a) \/
  (gs nc X true true = Err ZeroDivisionError /\ ~ @independent RField d X).
Proof. exact (real_gs nc d X). Qed.
Print Assumptions C95_rows.
Theorem C95_unnormalised nc d X : (forall x, In x X -> length x = d) ->
  (exists Y, gs nc X true false = Ok Y /\ length Y = length X /\ (forall y, In y Y -> length y = d) /\
     (forall i j, (i < length X)%nat -> (j < length X)%nat -> i <> j -> @ip RField d (nth i Y []) (nth j Y []) = 0) /\
     (forall i, (i < length X)%nat -> @lower_row RField d X Y i 1) /\ @independent RField d (firstn (length X - 1) X)) \/
  (gs nc X true false = Err ZeroDivisionError /\ ~ @independent RField d (firstn (length X - 1) X)).
Proof. exact (real_gs_plain nc d X). Qed.
Print Assumptions C95_unnormalised.
Theorem C95_columns nc X : (forall x, In x X -> length x = nc) ->
  (exists Z, gs nc X false true = Ok Z /\ length Z = length X /\ (forall z, In z Z -> length z = nc) /\
     @orthonormal_rows RField (length X) (@columns RField nc Z) /\ @independent RField (length X) (@columns RField nc X) /\
     forall j, (j < nc)%nat -> exists a, 0 < a /\ @lower_row RField (length X) (@columns RField nc X) (@columns RField nc Z) j a) \/
  (gs nc X false true = Err ZeroDivisionError /\ ~ @independent RField (length X) (@columns RField nc X)).
Proof. exact (real_gs_cols nc X). Qed.
Print Assumptions C95_columns.

Definition gx_sq (x : Qc) : Qc := if Qc_eq_dec x (Q2Qc 25) then Q2Qc 5 else if Qc_eq_dec x (Q2Qc 4) then Q2Qc 2 else x.
Example C95_ex : match gram_schmidt_rows QcField gx_sq bx_tiny 2 [[Q2Qc 3; Q2Qc 4]; [Q2Qc (23 # 5); Q2Qc (14 # 5)]] true true with
  Ok Z => map (map this) Z = [[3 # 5; 4 # 5]; [4 # 5; -3 # 5]]%Q | Err _ => False end.
Proof. vm_compute. auto. Qed.
Example C95_ex_dependent : gram_schmidt_rows QcField gx_sq bx_tiny 2 [[Q2Qc 3; Q2Qc 4]; [Q2Qc 6; Q2Qc 8]] true true = Err ZeroDivisionError /\
  match gram_schmidt_rows QcField gx_sq bx_tiny 2 [[Q2Qc 3; Q2Qc 4]; [Q2Qc 6; Q2Qc 8]] true false with Ok Y => map (map this) Y = [[3; 4]; [0; 0]]%Q | Err _ => False end.
Proof. vm_compute. auto. Qed.
Example C95_ex_columns : match gram_schmidt_rows QcField gx_sq bx_tiny 2 [[Q2Qc 3; Q2Qc 5]; [Q2Qc 4; Q2Qc 10]] false true with
  Ok Z => map (map this) Z = [[3 # 5; -4 # 5]; [4 # 5; 3 # 5]]%Q | Err _ => False end.
Proof. vm_compute. auto. Qed.
