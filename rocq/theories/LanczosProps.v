(** Property theorems C34-C37 and C58-C60: Lanczos coefficients and their Green's functions. *)
From Coq Require Import QArith Qcanon List Arith Bool Reals Lia Lra.
From Verif Require Import Base RBase RLin CBase LanczosModel LanczosSpec LanczosProofs LanczosOrthoProofs LanczosMoreProofs LanczosSolveProofs
  CfModel CfSpec CfProofs CfMoreProofs LanczosRealProofs.
Import ListNotations.
Local Open Scope nat_scope.

(** C34: what a normal return means.  [tr] are the recorded steps, [last] the
    unrecorded last one, if any. *)
Theorem C34_result : forall (V F E : Type) step tiny (egs : list F -> list F -> res E) close zero phi0 maxn ga gb ND s,
  0 < ND -> build_sl_tridiag V F E step tiny egs close zero phi0 ga gb maxn ND = Ok s ->
  exists tr last, run step phi0 zero (tr ++ last) (l_v _ _ s) (l_l _ _ s) /\
    l_steps _ _ s = length (tr ++ last) /\ length last <= 1 /\ 1 <= length tr /\ length tr < maxn /\
    ret_a _ _ s = map tr_a tr /\ ret_b _ _ s = map tr_b tr /\
    (forall t, In t tr -> tiny (tr_b t) = false) /\
    (forall t, In t last -> tiny (tr_b t) = true \/ length tr = maxn - 1).
Proof. exact build_spec. Qed.
Print Assumptions C34_result.

(** C34: which outcome occurs, when neither the steps reached nor the eigenvalue
    check raise. *)
Theorem C34_outcome : forall (V F E : Type) step tiny (egs : list F -> list F -> res E) close zero phi0 maxn ga gb ND,
  0 < ND -> (forall tr v l, run step phi0 zero tr v l -> exists r, step v l = Ok r) -> (forall a b, exists e, egs a b = Ok e) ->
  forall a b l v, step phi0 zero = Ok (a, b, l, v) ->
  let out := build_sl_tridiag V F E step tiny egs close zero phi0 ga gb maxn ND in
  (maxn = 0 -> out = Err IndexError) /\
  (0 < maxn -> tiny b = true \/ maxn = 1 -> out = Err ZeroNormInitialVector) /\
  (1 < maxn -> tiny b = false -> exists s, out = Ok s).
Proof. exact build_total. Qed.
Print Assumptions C34_outcome.

(** The matrix ((9, 12), (12, 16)) started from (1, 0), over the rationals with a
    square root that is exact on the numbers that occur. *)
Definition ex_sq (x : Qc) : Qc := if Qc_eq_dec x (Q2Qc 144) then Q2Qc 12 else x.
Definition ex_mv (x : list Qc) : res (list Qc) :=
  match x with [p; q] => Ok [Q2Qc 9 * p + Q2Qc 12 * q; Q2Qc 12 * p + Q2Qc 16 * q]%Qc | _ => Err ValueError end.
Definition ex_tiny (x : Qc) : bool := if Qc_eq_dec x 0%Qc then true else false.
Definition ex_build (maxn ND : nat) := build_sl_tridiag (list Qc) Qc unit (sl_step QcField ex_sq ex_mv) ex_tiny
  (fun _ _ => Ok tt) (fun _ _ => false) [0; 0]%Qc [1; 0]%Qc (fun _ => 0%Qc) (fun _ => 0%Qc) maxn ND.
Example C34_ex : match ex_build 5 10 with
  | Ok s => l_n _ _ s = 2 /\ l_steps _ _ s = 3 /\ map this (ret_a _ _ s) = [9; 16]%Q /\ map this (ret_b _ _ s) = [1; 12]%Q
  | Err _ => False end.
Proof. vm_compute. auto. Qed.
Example C34_ex_limits : ex_build 0 10 = Err IndexError /\ ex_build 1 10 = Err ZeroNormInitialVector /\
  match ex_build 2 10 with Ok s => l_n _ _ s = 1 /\ l_steps _ _ s = 2 | Err _ => False end.
Proof. vm_compute. auto. Qed.

(** With [ND = 1] the loop is left after one coefficient: the test for a single
    coefficient does not look at [converged]. *)
Example C34_ex_ND1 : match ex_build 5 1 with Ok s => l_n _ _ s = 1 /\ l_steps _ _ s = 1 | Err _ => False end.
Proof. vm_compute. auto. Qed.

(** C35: orthonormal vectors, three-term recurrence, tridiagonal matrix elements
    (the fields of [lanczos]); never more coefficients than dimensions. *)
Theorem C35_basis : forall (E : Type) tiny (egs : list R -> list R -> res E) close d mv phi0 ga gb maxn ND s,
  @symmetric_op RField d mv -> tiny 0%R = true -> length phi0 = d -> 0 < ND ->
  real_sl_tridiag tiny egs close mv phi0 ga gb maxn ND = Ok s ->
  exists vs rv, @lanczos RField d mv phi0 (ret_a _ _ s) (ret_b _ _ s) vs rv /\
    1 <= length vs < maxn /\ length vs <= d /\ (length vs = d -> forall i, i < d -> nth i rv 0%R = 0%R) /\
    (l_steps _ _ s = length vs \/
     l_steps _ _ s = S (length vs) /\ (tiny (sqrt (@ip RField d rv rv)) = true \/ length vs = maxn - 1)).
Proof. exact real_build_lanczos. Qed.
Print Assumptions C35_basis.

(** C35: over a real vector space the call succeeds unless the start vector is
    (nearly) zero or [maxn < 2]. *)
Theorem C35_succeeds : forall (E : Type) tiny (egs : list R -> list R -> res E) close d mv phi0 ga gb maxn ND,
  @symmetric_op RField d mv -> length phi0 = d -> 0 < ND -> (forall a b, exists e, egs a b = Ok e) ->
  (maxn = 0 -> real_sl_tridiag tiny egs close mv phi0 ga gb maxn ND = Err IndexError) /\
  (0 < maxn -> tiny (sqrt (@ip RField d phi0 phi0)) = true \/ maxn = 1 ->
     real_sl_tridiag tiny egs close mv phi0 ga gb maxn ND = Err ZeroNormInitialVector) /\
  (1 < maxn -> tiny (sqrt (@ip RField d phi0 phi0)) = false ->
     exists s, real_sl_tridiag tiny egs close mv phi0 ga gb maxn ND = Ok s).
Proof. exact real_build_outcome. Qed.
Print Assumptions C35_succeeds.

Local Open Scope R_scope.
(** The matrix ((1, 2), (2, -1)) on the reals, started from (3, 4). *)
Definition ex_M (i j : nat) : R := match i, j with O, O => 1 | O, _ => 2 | _, O => 2 | _, _ => -1 end.
Definition ex_rmv (x : list R) : res (list R) :=
  match x with [p; q] => Ok [1 * p + 2 * q; 2 * p + -1 * q] | _ => Err ValueError end.
Definition ex_rtiny (x : R) : bool := Rltb x 1.
Lemma ex_mult : multiplies 2 ex_M ex_rmv.
Proof.
  intros [|p [|q [|? ?]]] L; try discriminate. exists [1 * p + 2 * q; 2 * p + -1 * q]. split; [reflexivity|]. split; [reflexivity|].
  intros [|[|i]] Hi; [| |lia]; unfold rsum, nsum; simpl; ring.
Qed.
Lemma ex_sym : matrix_symmetric 2 ex_M.
Proof. intros [|[|i]] [|[|j]] Hi Hj; try lia; reflexivity. Qed.
Example C35_ex : exists s vs rv, real_sl_tridiag ex_rtiny (fun _ _ => Ok tt) (fun _ _ => false) ex_rmv [3; 4] (fun _ => 0) (fun _ => 0) 5 10 = Ok s /\
  @lanczos RField 2 ex_rmv [3; 4] (ret_a _ _ s) (ret_b _ _ s) vs rv /\ nth 0 (ret_b _ _ s) 0 * nth 0 (ret_b _ _ s) 0 = 25.
Proof.
  destruct (real_build_outcome unit ex_rtiny (fun _ _ => Ok tt) (fun _ _ => false) 2 ex_rmv [3; 4] (fun _ => 0) (fun _ => 0) 5 10) as (_ & _ & H);
    [exact (multiplies_symmetric _ _ _ ex_sym ex_mult)|reflexivity|lia|eauto|].
  destruct H as (s & Es); [lia| |].
  - unfold ex_rtiny, Rltb. destruct (Rlt_dec _ 1) as [C|]; [|reflexivity]. exfalso.
    assert (EI : @ip RField 2 [3; 4] [3; 4] = 5 * 5) by (unfold ip, nsum; simpl; ring). rewrite EI in C.
    rewrite sqrt_square in C by lra. lra.
  - destruct (real_build_lanczos unit ex_rtiny (fun _ _ => Ok tt) (fun _ _ => false) 2 ex_rmv [3; 4] (fun _ => 0) (fun _ => 0) 5 10 s) as (vs & rv & HL & _); auto.
    + exact (multiplies_symmetric _ _ _ ex_sym ex_mult).
    + unfold ex_rtiny. apply Rltb_spec. lra.
    + lia.
    + exists s, vs, rv. split; [exact Es|]. split; [exact HL|].
      etransitivity; [exact (lo_b0 _ _ _ _ _ _ _ _ HL)|]. unfold ip, nsum. simpl. ring.
Qed.

(** C36: the continued fraction is b0^2 times the (0, 0) element of the resolvent
    of the tridiagonal matrix, which exists. *)
Theorem C36_resolvent : forall (z : cx) (a b : list R), im z <> 0 -> length b = length a -> (0 < length a)%nat ->
  exists G, cf_pyx z a (map (fun x => x * x) b) = Ok G /\
    (forall x, solves (length a) (@tri RField a b) z x e0 -> G = cxmul (rcx (nth 0 b 0 * nth 0 b 0)) (x 0%nat)) /\
    (exists x, solves (length a) (@tri RField a b) z x e0) /\
    im G * im z <= 0 /\ (nth 0 b 0 <> 0 -> im G * im z < 0).
Proof. exact cf_resolvent. Qed.
Print Assumptions C36_resolvent.

(** C36: the coefficients made by [build_gf_coeff_cf] give the resolvent of
    +-(T - E), times the weight. *)
Theorem C36_coefficients : forall (a b : list R) (Ei ex sign : R) e eta, im (zpoint e eta) <> 0 -> length b = length a -> (0 < length a)%nat ->
  exists ac bc G, build_gf_coeff_cf a b Ei ex sign = Ok (ac, bc) /\ k_cf ac bc e eta = Ok G /\
  (exists x, solves (length a) (shifted sign Ei (@tri RField a b)) (zpoint e eta) x e0) /\
  forall x, solves (length a) (shifted sign Ei (@tri RField a b)) (zpoint e eta) x e0 ->
    G = cxmul (rcx (nth 0 b 0 * nth 0 b 0 * ex)) (x 0%nat).
Proof. exact cf_coefficients. Qed.
Print Assumptions C36_coefficients.

(** The point of evaluation is e + i eta, without the model's arithmetic. *)
Theorem C36_point : forall e eta, zpoint e eta = (re e, im e + eta)%R.
Proof. exact zpoint_value. Qed.
Print Assumptions C36_point.

(** Two levels at z = i: 1 / (i - 1 / i). *)
Example C36_ex : cf_pyx (0, 1) [0; 0] [1; 1] = Ok (0, - (1 / 2)) /\ cf_pyx (0, 1) [] [] = Err IndexError /\ cf_pyx (0, 1) [0; 0] [1] = Err OutOfBounds.
Proof.
  split; [|split; reflexivity]. unfold cf_pyx, calc. simpl. f_equal. apply cx_eq; unfold cxdiv, cxmul, cxinv, cxsub, cxadd, cxopp, cxn2, rcx, re, im; simpl; field.
Qed.

(** C37: the spectral form is the same function. *)
Theorem C37_same_function : forall eigh (a b w : list R) (U : list (list R)) (Ei ex sign : R) e eta,
  length b = length a -> (0 < length a)%nat -> eigh a (skipn 1 b) = Ok (w, U) -> length w = length a ->
  @tri_eigen RField a (skipn 1 b) w U -> im (zpoint e eta) <> 0 ->
  exists l q ac bc G, build_gf_coeff_sp eigh a b Ei ex sign = Ok (l, q) /\ build_gf_coeff_cf a b Ei ex sign = Ok (ac, bc) /\
    k_sp l q e eta = Ok G /\ k_cf ac bc e eta = Ok G.
Proof. exact sp_is_cf. Qed.
Print Assumptions C37_same_function.

(** Such an eigenbasis exists: T = ((9, 12), (12, 16)). *)
Example C37_ex : exists G, k_sp [25; 0] [(3 / 5) * (3 / 5); (-4 / 5) * (-4 / 5)] (rcx 1) 2 = Ok G /\ k_cf [9; 16] [1; 144] (rcx 1) 2 = Ok G.
Proof.
  destruct (C37_same_function (fun _ _ => Ok ([25; 0], [[3 / 5; -4 / 5]; [4 / 5; 3 / 5]])) [9; 16] [1; 12] [25; 0] [[3 / 5; -4 / 5]; [4 / 5; 3 / 5]] 0 1 1 (rcx 1) 2)
    as (l & q & ac & bc & G & E1 & E2 & E3 & E4); try reflexivity; try (simpl; lia).
  - split; [reflexivity|]. split; [intros u [<-|[<-|[]]]; reflexivity|]. split.
    + intros [|[|i]] [|[|j]] Hi Hj; try (simpl in *; lia); unfold nsum, ent; simpl; field.
    + intros [|[|i]] [|[|j]] Hi Hj; try (simpl in *; lia); unfold nsum, ent, tri; simpl; field.
  - unfold zpoint, cxadd, cxmul, ci, rcx, im, re. simpl. lra.
  - exists G. unfold build_gf_coeff_sp in E1. unfold build_gf_coeff_cf in E2. cbn [bind map] in E1, E2.
    assert (Rltb 1 0 = false) as EQ by (unfold Rltb; destruct (Rlt_dec 1 0); [lra|reflexivity]). rewrite EQ in E1, E2.
    injection E1 as <- <-. injection E2 as <- <-.
    replace (25 - 0) with 25 in E3 by ring. replace (0 - 0) with 0 in E3 by ring.
    replace (3 / 5 * 1 * (3 / 5 * 1) * 1) with (3 / 5 * (3 / 5)) in E3 by ring.
    replace (-4 / 5 * 1 * (-4 / 5 * 1) * 1) with (-4 / 5 * (-4 / 5)) in E3 by ring. split; [exact E3|].
    replace (9 - 0) with 9 in E4 by ring. replace (16 - 0) with 16 in E4 by ring.
    replace (1 * 1 * 1) with 1 in E4 by ring. replace (12 * 12) with 144 in E4 by ring. exact E4.
Qed.

(** C58: the distributed steps give the coefficients of the serial ones. *)
Theorem C58_distributed : forall (K : CField) (sq : K -> K) (E : Type) tiny (egs : list K -> list K -> res E) close shape mv mvd phi0 ga gb maxn ND,
  distributes shape mv mvd -> shaped shape phi0 ->
  res_rel (fun s s' => ret_a _ _ s = ret_a _ _ s' /\ ret_b _ _ s = ret_b _ _ s' /\
            l_steps _ _ s = l_steps _ _ s' /\ concat (l_l _ _ s) = l_l _ _ s')
    (build_sl_tridiag _ K E (sl_step_mpi K sq mvd) tiny egs close (map (map (fun _ => c0 K)) phi0) phi0 ga gb maxn ND)
    (build_sl_tridiag _ K E (sl_step K sq mv) tiny egs close (map (fun _ => c0 K) (concat phi0)) (concat phi0) ga gb maxn ND).
Proof. exact build_mpi. Qed.
Print Assumptions C58_distributed.

Definition ex_mvd (x : list (list Qc)) : res (list (list Qc)) :=
  match x with [[p]; [q]] => Ok [[Q2Qc 9 * p + Q2Qc 12 * q]; [Q2Qc 12 * p + Q2Qc 16 * q]]%Qc | _ => Err ValueError end.
Example C58_ex_distributes : @distributes QcField [1; 1]%nat ex_mv ex_mvd.
Proof.
  intros xs H. destruct xs as [|[|p [|? ?]] [|[|q [|? ?]] [|? ?]]]; try discriminate.
  eexists. split; [reflexivity|]. split; reflexivity.
Qed.
Example C58_ex : match build_sl_tridiag _ Qc unit (sl_step_mpi QcField ex_sq ex_mvd) ex_tiny (fun _ _ => Ok tt) (fun _ _ => false)
    [[0]; [0]]%Qc [[1]; [0]]%Qc (fun _ => 0%Qc) (fun _ => 0%Qc) 5 10 with
  | Ok s => l_n _ _ s = 2%nat /\ map this (ret_a _ _ s) = [9; 16]%Q /\ map this (ret_b _ _ s) = [1; 12]%Q
  | Err _ => False end.
Proof. vm_compute. auto. Qed.

(** C59: the second pass returns orthonormal Ritz vectors; H x = w x + (last
    component of the tridiagonal eigenvector) * residual. *)
Theorem C59_ritz : forall (E : Type) d mv tiny (egs : list R -> list R -> res E) close phi0 v0 ga gb maxn ND s eigh w U,
  @symmetric_op RField d mv -> tiny 0 = true -> length phi0 = d -> (0 < ND)%nat ->
  real_sl_tridiag tiny egs close mv phi0 ga gb maxn ND = Ok s ->
  v0 = phi0 \/ (length v0 = d /\ forall i, nth i phi0 0 = nth 0 (ret_b _ _ s) 0 * nth i v0 0) ->
  eigh (ret_a _ _ s) (skipn 1 (ret_b _ _ s)) = Ok (w, U) -> @tri_eigen RField (ret_a _ _ s) (skipn 1 (ret_b _ _ s)) w U ->
  exists vs rv X, @lanczos RField d mv phi0 (ret_a _ _ s) (ret_b _ _ s) vs rv /\
    sl_solve RField sqrt eigh mv (ret_a _ _ s) (ret_b _ _ s) v0 = Ok (w, X) /\
    length X = length w /\ (forall x, In x X -> length x = d) /\
    forall i, (i < length w)%nat -> exists HX, mv (nth i X []) = Ok HX /\ length HX = d /\
      (forall k, (k < d)%nat -> nth k HX 0 = nth i w 0 * @ent RField X i k + @ent RField U (length vs - 1) i * nth k rv 0) /\
      forall j, (j < length w)%nat -> @ip RField d (nth j X []) (nth i X []) = (if (j =? i)%nat then 1 else 0) /\
        @ip RField d (nth j X []) HX = if (j =? i)%nat then nth i w 0 else 0.
Proof. exact real_solve_ritz. Qed.
Print Assumptions C59_ritz.

Example C59_ex : match sl_solve QcField ex_sq (fun _ _ => Ok ([Q2Qc 25; Q2Qc 0], [[Q2Qc (3 # 5); Q2Qc (-4 # 5)]; [Q2Qc (4 # 5); Q2Qc (3 # 5)]]))
    ex_mv [Q2Qc 9; Q2Qc 16] [Q2Qc 1; Q2Qc 12] [1; 0]%Qc with
  | Ok (w, X) => map this w = [25; 0]%Q /\ map (map this) X = [[3 # 5; 4 # 5]; [-4 # 5; 3 # 5]]%Q
  | Err _ => False end.
Proof. vm_compute. auto. Qed.

(** C60: when the space is exhausted (vanishing residual, in particular when
    there are as many coefficients as dimensions), the continued fraction is the
    exact element <phi0| (z - H)^-1 |phi0>. *)
Theorem C60_exact : forall (E : Type) tiny (egs : list R -> list R -> res E) close d M mv phi0 ga gb maxn ND s,
  matrix_symmetric d M -> multiplies d M mv -> tiny 0 = true -> length phi0 = d -> (0 < ND)%nat ->
  real_sl_tridiag tiny egs close mv phi0 ga gb maxn ND = Ok s ->
  exists vs rv, @lanczos RField d mv phi0 (ret_a _ _ s) (ret_b _ _ s) vs rv /\
    ((forall i, (i < d)%nat -> nth i rv 0 = 0) \/ length vs = d ->
     forall z x, im z <> 0 -> solves d M z x (fun i => rcx (nth i phi0 0)) ->
     cf_pyx z (ret_a _ _ s) (map (fun b => b * b) (ret_b _ _ s)) = Ok (csum d (fun i => cxmul (rcx (nth i phi0 0)) (x i)))).
Proof. exact real_build_resolvent. Qed.
Print Assumptions C60_exact.

(** The system has at most one solution, so the claim determines the value. *)
Theorem C60_unique : forall n T z x y f, matrix_symmetric n T -> im z <> 0 -> solves n T z x f -> solves n T z y f ->
  forall i, (i < n)%nat -> x i = y i.
Proof. exact resolvent_unique. Qed.
Print Assumptions C60_unique.

(** d = 1: one coefficient is exact, 3 * 3 / (z - 2). *)
Example C60_ex : exists s, real_sl_tridiag ex_rtiny (fun _ _ => Ok tt) (fun _ _ => false)
    (fun x => match x with [p] => Ok [2 * p] | _ => Err ValueError end) [3] (fun _ => 0) (fun _ => 0) 5 10 = Ok s /\
  forall z, im z <> 0 -> cf_pyx z (ret_a _ _ s) (map (fun b => b * b) (ret_b _ _ s)) = Ok (cxdiv (rcx 9) (cxsub z (rcx 2))).
Proof.
  set (mv := fun x : list R => match x with [p] => Ok [2 * p] | _ => Err ValueError end).
  assert (Hm : multiplies 1 (fun _ _ => 2) mv).
  { intros [|p [|? ?]] L; try discriminate. exists [2 * p]. split; [reflexivity|]. split; [reflexivity|].
    intros [|i] Hi; [|lia]. unfold rsum, nsum; simpl; ring. }
  assert (HM : matrix_symmetric 1 (fun _ _ => 2)) by (intros i j _ _; reflexivity).
  destruct (real_build_outcome unit ex_rtiny (fun _ _ => Ok tt) (fun _ _ => false) 1 mv [3] (fun _ => 0) (fun _ => 0) 5 10) as (_ & _ & H);
    [exact (multiplies_symmetric _ _ _ HM Hm)|reflexivity|lia|eauto|].
  destruct H as (s & Es); [lia| |].
  - unfold ex_rtiny, Rltb. destruct (Rlt_dec _ 1) as [C|]; [|reflexivity]. exfalso.
    assert (EI : @ip RField 1 [3] [3] = 3 * 3) by (unfold ip, nsum; simpl; ring). rewrite EI in C.
    rewrite sqrt_square in C by lra. lra.
  - exists s. split; [exact Es|]. intros z Hz.
    assert (Ht : ex_rtiny 0 = true) by (unfold ex_rtiny; apply Rltb_spec; lra).
    destruct (real_build_lanczos unit ex_rtiny (fun _ _ => Ok tt) (fun _ _ => false) 1 mv [3] (fun _ => 0) (fun _ => 0) 5 10 s
      (multiplies_symmetric _ _ _ HM Hm) Ht eq_refl ltac:(lia) Es) as (vs & rv & HL & [H1 _] & H2 & H3 & _).
    assert (H4 : length vs = 1%nat) by (apply Nat.le_antisymm; [exact H2|exact H1]).
    assert (Dz : cxsub z (rcx 2) <> rcx 0).
    { apply im_neq. unfold cxsub, cxadd, cxopp, rcx, im. simpl. unfold im in Hz. lra. }
    change (map (fun b => b * b) (ret_b _ _ s)) with (sqs (ret_b _ _ s)).
    rewrite (exhausted_cf 1 (fun _ _ => 2) mv [3] _ _ vs rv HM Hm HL H1 (H3 H4) z (fun _ => cxdiv (rcx 3) (cxsub z (rcx 2))) Hz).
    + f_equal. unfold csum, nsum. simpl. apply cx_eq; unfold cxdiv, cxadd, cxmul, rcx, re, im; simpl; ring.
    + intros [|i] Hi; [|lia]. unfold csum, nsum. simpl. cbn [nth]. field. exact Dz.
Qed.
