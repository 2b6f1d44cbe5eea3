(** Proofs about the sparse eigensolver. *)
From Coq Require Import Reals List Arith ZArith Bool Lia Lra.
From Verif Require Import Base RBase RLin SpectralProofs EighProofs TriSpec TriRealProofs ArpModel ArpSpec.
Import ListNotations.
Local Open Scope R_scope.

Lemma slice_map p n l : (p + n <= length l)%nat -> slice_at p n l = map (fun i => nth (p + i) l 0) (seq 0 n).
Proof.
  intros L. unfold slice_at. apply (nth_ext _ _ 0 0); [rewrite firstn_length, skipn_length, map_length, seq_length; lia|].
  intros k Hk. rewrite firstn_length, skipn_length in Hk. rewrite nth_map_seq by lia. cbn [Nat.add].
  rewrite <- (firstn_skipn p l) at 2. rewrite app_nth2; rewrite firstn_length; [|lia]. replace (p + k - Nat.min p (length l))%nat with k by lia.
  rewrite <- (firstn_skipn n (skipn p l)) at 2. rewrite app_nth1 by (rewrite firstn_length, skipn_length; lia). reflexivity.
Qed.
Lemma assign_splice p n l y : length y = n -> (p + n <= length l)%nat -> assign_at p n l y = Ok (splice p y l).
Proof.
  intros Ly L. unfold assign_at. rewrite slice_map by auto. rewrite map_length, seq_length, Ly, Nat.eqb_refl. f_equal. unfold splice. rewrite Ly.
  apply (nth_ext _ _ 0 0); [rewrite !app_length, firstn_length, skipn_length, map_length, seq_length; lia|].
  intros k Hk. rewrite !app_length, firstn_length, skipn_length in Hk. rewrite nth_map_seq by lia. cbn [Nat.add].
  destruct (Nat.leb_spec p k) as [Q|Q]; cbn [andb].
  - rewrite app_nth2; rewrite firstn_length; [|lia]. replace (k - Nat.min p (length l))%nat with (k - p)%nat by lia. destruct (Nat.ltb_spec k (p + n)) as [Q'|Q'].
    + now rewrite app_nth1 by lia.
    + rewrite app_nth2 by lia. rewrite <- (firstn_skipn (p + n) l) at 2. rewrite app_nth2; rewrite firstn_length; [|lia]. f_equal. lia.
  - rewrite app_nth1 by (rewrite firstn_length; lia). rewrite <- (firstn_skipn p l) at 2. now rewrite app_nth1 by (rewrite firstn_length; lia).
Qed.
Lemma product_length N A x : length (product N A x) = N.
Proof. unfold product. now rewrite map_length, seq_length. Qed.

Lemma ncv_ok n nev : (0 < nev < Z.of_nat n)%Z -> (nev < Z.of_nat (ncv_of n nev) <= Z.of_nat n)%Z.
Proof. intros H. unfold ncv_of. rewrite Z2Nat.id; lia. Qed.
Lemma ncv_bad n nev : (nev <= 0 \/ Z.of_nat n <= nev)%Z -> ((0 <? nev) && (nev <? Z.of_nat (ncv_of n nev)) && (Z.of_nat (ncv_of n nev) <=? Z.of_nat n))%Z = false.
Proof.
  intros H. unfold ncv_of. destruct (Z.ltb_spec 0 nev); [|reflexivity]. rewrite Z2Nat.id by lia. destruct (Z.ltb_spec nev (Z.min (Z.max (2 * nev + 1) 20) (Z.of_nat n))); [lia|reflexivity].
Qed.

(** The spectrum is unique. *)
Lemma spectrum_le n A e e' : sym n A -> spectrum n A e -> spectrum n A e' -> forall k, (k < n)%nat -> e k <= e' k.
Proof.
  intros SY [AS (v & ON & EV)] [AS' (v' & ON' & EV')] k Hk. destruct (Rle_lt_dec (e k) (e' k)) as [|G]; [assumption|]. exfalso.
  (* v' 0 .. k and v k .. n-1 *)
  set (u := fun j => if (j <=? k)%nat then v' j else v (j - 1)%nat).
  assert (O : orthonormal n (S n) u).
  { assert (X : forall i j, (i <= k)%nat -> (k <= j)%nat -> (j < n)%nat -> rsum n (fun r => v' i r * v j r) = 0).
    { intros i j Hi Hj Hn. apply (TriProofs.eigen_orthogonal n A (e' i) (e j)); [exact SY|apply EV'; lia|apply EV; lia|]. specialize (AS k j Hj Hn). specialize (AS' i k Hi Hk). lra. }
    intros i j Hi Hj. unfold u. destruct (Nat.leb_spec i k) as [Qi|Qi], (Nat.leb_spec j k) as [Qj|Qj].
    - apply ON'; lia.
    - rewrite (X i (j - 1)%nat) by lia. destruct (Nat.eqb_spec i j); [lia|reflexivity].
    - rewrite (rsum_ext n _ (fun r => v' j r * v (i - 1)%nat r)) by (intros; ring). rewrite (X j (i - 1)%nat) by lia. destruct (Nat.eqb_spec i j); [lia|reflexivity].
    - rewrite (ON (i - 1)%nat (j - 1)%nat) by lia. destruct (Nat.eqb_spec (i - 1) (j - 1)), (Nat.eqb_spec i j); lia || reflexivity. }
  pose proof (orthonormal_dim n (S n) u O). lia.
Qed.
Lemma spectrum_unique n A e e' : sym n A -> spectrum n A e -> spectrum n A e' -> forall k, (k < n)%nat -> e k = e' k.
Proof. intros SY S S' k Hk. apply Rle_antisym; [apply (spectrum_le n A e e')|apply (spectrum_le n A e' e)]; auto. Qed.

Section Run.
Variable St : Type.
Variable fresh : nat -> nat -> option (list R) -> St.
Variable saupd : nat -> Z -> nat -> nat -> Z -> Z -> St -> list R -> reply St.
Variable seupd : nat -> Z -> nat -> St -> list R -> list R * list (list R) * Z.
Variables known_aupd known_eupd : Z -> bool.
Notation eig := (eigsh St fresh saupd seupd known_aupd known_eupd).
Notation dia := (dialogue St saupd).

Lemma dialogue_det N nev ncv maxit A ido info st w o o' : dia N nev ncv maxit A ido info st w o -> dia N nev ncv maxit A ido info st w o' -> o = o'.
Proof.
  intros D. revert o'. induction D as [ido info st w o E N1 N2|ido info st w o oo E Q L X1 X2 Y1 Y2 D IH]; intros o' D'.
  - destruct D' as [ido info st w o' E'|ido info st w o1 o' E' Q']; [congruence|]. subst. destruct Q'; contradiction.
  - destruct D' as [ido info st w o' E' N1 N2|ido info st w o1 o' E' Q' L' _ _ _ _ D']; [subst; destruct Q; contradiction|]. subst. now apply IH.
Qed.

(** The loop follows the dialogue. *)
Lemma follow n nev matvec A p : p_maxn p = n -> (forall x, length x = n -> matvec x = Ok (product n A x)) ->
  forall ido info st w o, dia n nev (p_maxncv p) (n * 10) A ido info st w o -> exists f0, forall f, (f0 <= f)%nat -> rc_loop St saupd n nev matvec p f ido info st w = Ok o.
Proof.
  intros PN MV ido info st w o D. induction D as [ido info st w o E N1 N2|ido info st w o oo E Q L X1 X2 Y1 Y2 D (f0 & IH)].
  - exists 1%nat. intros [|f] Hf; [lia|]. cbn [rc_loop]. rewrite PN, E. destruct (Z.eqb_spec (r_ido o) 1); [contradiction|]. destruct (Z.eqb_spec (r_ido o) (- 1)); [contradiction|]. reflexivity.
  - exists (S f0). intros [|f] Hf; [lia|]. cbn [rc_loop]. rewrite PN, E.
    assert (B : ((r_ido o =? 1) || (r_ido o =? - 1))%Z = true) by (destruct Q as [-> | ->]; reflexivity). rewrite B.
    rewrite slice_map by lia. rewrite MV by (now rewrite map_length, seq_length). cbn [bind]. rewrite assign_splice; [|apply product_length|lia]. cbn [bind]. apply IH. lia.
Qed.

Lemma eigsh_none n nev matvec v0 f : match v0 with Some v => (length v <= n)%nat | None => True end ->
  let p := mkparams n (ncv_of n nev) (match v0 with None => 0 | Some _ => 1 end)%Z (fresh n (ncv_of n nev) v0) (repeat 0 (3 * n)) in
  eig f n nev matvec v0 None =
  (do o <- rc_loop St saupd n nev matvec p f 0 (p_info p) (p_st p) (p_workd p);
   if (r_info o <? 0)%Z then Err (if known_aupd (r_info o) then RuntimeError else KeyError) else
   let '(d, z, ierr) := seupd n nev (ncv_of n nev) (r_st o) (firstn (2 * n) (r_workd o)) in
   if negb (ierr =? 0)%Z then Err (if known_eupd (r_info o) then RuntimeError else KeyError) else
   Ok (firstn (r_nconv o) d, firstn (r_nconv o) z)).
Proof.
  intros V p. unfold eigsh. assert (P : new_params St fresh n (ncv_of n nev) v0 = Ok p).
  { unfold new_params, p. destruct v0 as [v|]; [|reflexivity]. now rewrite (proj2 (Nat.leb_le _ _) V). }
  rewrite P. cbn [bind]. unfold p at 1 2. cbn [p_maxn p_maxncv]. rewrite !Nat.leb_refl. reflexivity.
Qed.

Lemma firstn_pairs n A m d z : eigenpairs n A m d z -> length (firstn m d) = m /\ length (firstn m z) = m /\ eigenpairs n A m (firstn m d) (firstn m z).
Proof.
  intros (Ld & Lz & LN & ON & EV). assert (F1 : length (firstn m d) = m) by (rewrite firstn_length; lia). assert (F2 : length (firstn m z) = m) by (rewrite firstn_length; lia).
  assert (D : forall k, (k < m)%nat -> nth k (firstn m d) 0 = nth k d 0) by (intros k Hk; rewrite <- (firstn_skipn m d) at 2; now rewrite app_nth1 by lia).
  assert (Z : forall k, (k < m)%nat -> nth k (firstn m z) [] = nth k z []) by (intros k Hk; rewrite <- (firstn_skipn m z) at 2; now rewrite app_nth1 by lia).
  split; [exact F1|]. split; [exact F2|]. split; [lia|]. split; [lia|]. split; [intros k Hk; rewrite Z by auto; auto|]. split.
  - intros j k Hj Hk. rewrite <- (ON j k Hj Hk). apply rsum_ext. intros i _. cbv beta. rewrite (Z j Hj), (Z k Hk). reflexivity.
  - intros k Hk i Hi. rewrite D, Z by auto. exact (EV k Hk i Hi).
Qed.

(** What the result can be. *)
Lemma eigsh_result n nev matvec A v0 o d z ierr : match v0 with Some v => (length v <= n)%nat | None => True end -> (forall x, length x = n -> matvec x = Ok (product n A x)) ->
  dia n nev (ncv_of n nev) (n * 10) A 0 (match v0 with None => 0 | Some _ => 1 end) (fresh n (ncv_of n nev) v0) (repeat 0 (3 * n)) o ->
  seupd n nev (ncv_of n nev) (r_st o) (firstn (2 * n) (r_workd o)) = (d, z, ierr) ->
  exists f0, forall f, (f0 <= f)%nat -> eig f n nev matvec v0 None =
    if (r_info o <? 0)%Z then Err (if known_aupd (r_info o) then RuntimeError else KeyError) else
    if negb (ierr =? 0)%Z then Err (if known_eupd (r_info o) then RuntimeError else KeyError) else Ok (firstn (r_nconv o) d, firstn (r_nconv o) z).
Proof.
  intros V MV D E.
  destruct (follow n nev matvec A (mkparams n (ncv_of n nev) (match v0 with None => 0 | Some _ => 1 end)%Z (fresh n (ncv_of n nev) v0) (repeat 0 (3 * n))) eq_refl MV _ _ _ _ _ D) as (f0 & F).
  exists f0. intros f Hf. rewrite eigsh_none by exact V. cbv zeta. cbn [p_info p_st p_workd]. rewrite (F f Hf). cbn [bind]. now rewrite E.
Qed.

Hypothesis AC : arpack_contract St fresh saupd seupd.
(** Legal requests. *)
Lemma eigsh_pairs n nev matvec A v0 : sym n A -> match v0 with Some v => (length v <= n)%nat | None => True end -> (forall x, length x = n -> matvec x = Ok (product n A x)) -> (0 < nev < Z.of_nat n)%Z ->
  exists f0 r, (forall f, (f0 <= f)%nat -> eig f n nev matvec v0 None = r) /\
  match r with
  | Ok (d, z) => length d = length z /\ (0 < Z.of_nat (length d) <= nev)%Z /\ eigenpairs n A (length d) d z /\ (Z.of_nat (length d) = nev \/
      exists o, dia n nev (ncv_of n nev) (n * 10) A 0 (match v0 with None => 0 | Some _ => 1 end) (fresh n (ncv_of n nev) v0) (repeat 0 (3 * n)) o /\ (0 < r_info o)%Z)
  | Err e => e = RuntimeError \/ e = KeyError
  end.
Proof.
  intros SY V MV H. destruct (AC n nev (ncv_of n nev) (n * 10)%nat A v0 SY V) as (o & D & C). pose proof (ncv_ok n nev H) as [N1 N2].
  rewrite (proj2 (Z.ltb_lt _ _) (proj1 H)), (proj2 (Z.ltb_lt _ _) N1), (proj2 (Z.leb_le _ _) N2) in C. cbn [andb] in C. destruct C as (d & z & ierr & E & C).
  destruct (eigsh_result n nev matvec A v0 o d z ierr V MV D E) as (f0 & F). eexists f0, _. split; [exact F|].
  destruct (Z.ltb_spec (r_info o) 0) as [Q|Q]; [destruct (known_aupd _); auto|]. destruct (Z.eqb_spec ierr 0) as [Q'|Q']; cbn [negb]; [|destruct (known_eupd _); auto].
  destruct C as [C|[(C1 & C2 & C)|(C1 & C2 & C)]]; [lia| |].
  - destruct C as [C|(_ & _ & L & _)]; [contradiction|]. destruct (firstn_pairs n A (r_nconv o) d z L) as (F1 & F2 & F3). rewrite F1, F2. split; [reflexivity|]. split; [lia|]. split; [exact F3|]. left. exact C2.
  - destruct (Nat.eqb_spec (r_nconv o) 0) as [Z|Z]; [contradiction|]. destruct C as [_ L]. destruct (firstn_pairs n A (r_nconv o) d z L) as (F1 & F2 & F3). rewrite F1, F2. split; [reflexivity|]. split; [lia|]. split; [exact F3|]. right. now exists o.
Qed.
(** A status of zero: exactly the wanted ones. *)
Lemma eigsh_lowest n nev matvec A v0 o : sym n A -> match v0 with Some v => (length v <= n)%nat | None => True end -> (forall x, length x = n -> matvec x = Ok (product n A x)) -> (0 < nev < Z.of_nat n)%Z ->
  dia n nev (ncv_of n nev) (n * 10) A 0 (match v0 with None => 0 | Some _ => 1 end) (fresh n (ncv_of n nev) v0) (repeat 0 (3 * n)) o -> r_info o = 0%Z ->
  exists f0, (exists d z, (forall f, (f0 <= f)%nat -> eig f n nev matvec v0 None = Ok (d, z)) /\ Z.of_nat (length d) = nev /\ length z = length d /\ lowest_pairs n A (length d) d z) \/
    (forall f, (f0 <= f)%nat -> eig f n nev matvec v0 None = Err (if known_eupd 0 then RuntimeError else KeyError)).
Proof.
  intros SY V MV H D0 I0. destruct (AC n nev (ncv_of n nev) (n * 10)%nat A v0 SY V) as (o' & D & C). rewrite <- (dialogue_det _ _ _ _ _ _ _ _ _ _ _ D0 D) in *. clear D. pose proof (ncv_ok n nev H) as [N1 N2].
  rewrite (proj2 (Z.ltb_lt _ _) (proj1 H)), (proj2 (Z.ltb_lt _ _) N1), (proj2 (Z.leb_le _ _) N2) in C. cbn [andb] in C. destruct C as (d & z & ierr & E & C).
  destruct (eigsh_result n nev matvec A v0 o d z ierr V MV D0 E) as (f0 & F). exists f0. rewrite I0 in F, C. cbn [Z.ltb Z.compare] in F.
  destruct C as [C|[(_ & C2 & C)|(C1 & _)]]; [lia| |lia]. destruct (Z.eqb_spec ierr 0) as [Q|Q]; cbn [negb] in F; [left|right; exact F].
  destruct C as [C|(Ld & Lz & L & e & S & EV)]; [contradiction|]. destruct (firstn_pairs n A (r_nconv o) d z L) as (F1 & F2 & F3). exists (firstn (r_nconv o) d), (firstn (r_nconv o) z).
  split; [exact F|]. rewrite F1, F2. split; [exact C2|]. split; [reflexivity|]. split; [exact F3|]. exists e. split; [exact S|]. intros k Hk. rewrite <- (EV k Hk). rewrite firstn_all2 by lia. reflexivity.
Qed.
(** Requests ARPACK refuses. *)
Lemma eigsh_illegal n nev matvec A v0 : sym n A -> match v0 with Some v => (length v <= n)%nat | None => True end -> (forall x, length x = n -> matvec x = Ok (product n A x)) -> (nev <= 0 \/ Z.of_nat n <= nev)%Z ->
  exists f0 e, (forall f, (f0 <= f)%nat -> eig f n nev matvec v0 None = Err e) /\ (e = RuntimeError \/ e = KeyError).
Proof.
  intros SY V MV H. destruct (AC n nev (ncv_of n nev) (n * 10)%nat A v0 SY V) as (o & D & C). rewrite (ncv_bad n nev H) in C.
  destruct (seupd n nev (ncv_of n nev) (r_st o) (firstn (2 * n) (r_workd o))) as [[d z] ierr] eqn:E.
  destruct (eigsh_result n nev matvec A v0 o d z ierr V MV D E) as (f0 & F). rewrite (proj2 (Z.ltb_lt _ _) C) in F. exists f0. eexists. split; [exact F|]. destruct (known_aupd _); auto.
Qed.
(** Iterations used up: fewer pairs without an error, or a failing error message. *)
Lemma eigsh_short n nev matvec A v0 o : sym n A -> match v0 with Some v => (length v <= n)%nat | None => True end -> (forall x, length x = n -> matvec x = Ok (product n A x)) -> (0 < nev < Z.of_nat n)%Z ->
  dia n nev (ncv_of n nev) (n * 10) A 0 (match v0 with None => 0 | Some _ => 1 end) (fresh n (ncv_of n nev) v0) (repeat 0 (3 * n)) o -> (0 < r_info o)%Z ->
  exists f0, if (r_nconv o =? 0)%nat then forall f, (f0 <= f)%nat -> eig f n nev matvec v0 None = Err (if known_eupd (r_info o) then RuntimeError else KeyError)
    else exists d z, (forall f, (f0 <= f)%nat -> eig f n nev matvec v0 None = Ok (d, z)) /\ length d = r_nconv o /\ length z = r_nconv o.
Proof.
  intros SY V MV H D0 I0. destruct (AC n nev (ncv_of n nev) (n * 10)%nat A v0 SY V) as (o' & D & C). rewrite <- (dialogue_det _ _ _ _ _ _ _ _ _ _ _ D0 D) in *. clear D. pose proof (ncv_ok n nev H) as [N1 N2].
  rewrite (proj2 (Z.ltb_lt _ _) (proj1 H)), (proj2 (Z.ltb_lt _ _) N1), (proj2 (Z.leb_le _ _) N2) in C. cbn [andb] in C. destruct C as (d & z & ierr & E & C).
  destruct (eigsh_result n nev matvec A v0 o d z ierr V MV D0 E) as (f0 & F). exists f0. rewrite (proj2 (Z.ltb_ge _ _)) in F by lia.
  destruct C as [C|[(C & _)|(_ & _ & C)]]; [lia|lia|]. destruct (r_nconv o =? 0)%nat.
  - destruct (Z.eqb_spec ierr 0); [contradiction|exact F].
  - destruct C as [-> L]. cbn [Z.eqb negb] in F. destruct (firstn_pairs n A (r_nconv o) d z L) as (F1 & F2 & _). eexists. eexists. split; [exact F|]. auto.
Qed.
(** Arrays given by the caller that are too small. *)
Lemma eigsh_small f n nev matvec v0 p : (p_maxn p < n)%nat \/ (p_maxncv p < ncv_of n nev)%nat -> eig f n nev matvec v0 (Some p) = Err AssertionError.
Proof.
  intros H. unfold eigsh. cbn [bind]. destruct (Nat.leb_spec n (p_maxn p)); cbn [negb]; [|reflexivity]. destruct (Nat.leb_spec (ncv_of n nev) (p_maxncv p)); cbn [negb]; [lia|reflexivity].
Qed.
End Run.
