(** Several processes; occupations; steps; moments. *)
From Coq Require Import Reals List Arith NArith Lia Lra Bool.
From Verif Require Import Base RBase RLin CBase ProjModel EspaceModel FitModel DmftModel DmftProofs FermiModel ObsModel ObsSpec ObsMoreProofs NanoModel NanoSpec NanoMatProofs NanoProofs NanoMoreProofs.
Import ListNotations.
Local Open Scope R_scope.
Add Ring cxr : cx_ring.
Add Field cxf : cx_field.

(** ** Processes *)
Lemma world_slice {A} size rank (l : list A) : idx_world (Some (size, rank)) l = firstn (length l / size) (skipn (rank * (length l / size)) l).
Proof. unfold idx_world. cbv zeta. generalize (length l / size)%nat. intros k. f_equal. rewrite Nat.mul_add_distr_r. lia. Qed.
Lemma firstn_skipn_app {A} a b (l : list A) : firstn (a + b) l = firstn a l ++ firstn b (skipn a l).
Proof. revert l; induction a as [|a IH]; intros l; [reflexivity|]. destruct l; cbn; [now rewrite firstn_nil|]. now rewrite IH. Qed.
Theorem world_cover {A} size (l : list A) :
  concat (map (fun r => idx_world (Some (size, r)) l) (seq 0 size)) = firstn (size * (length l / size)) l.
Proof.
  assert (G : forall m, concat (map (fun r => idx_world (Some (size, r)) l) (seq 0 m)) = firstn (m * (length l / size)) l).
  { induction m as [|m IH]; [reflexivity|]. rewrite seq_S, map_app, concat_app, IH. cbn [map concat Nat.add]. rewrite app_nil_r, world_slice.
    replace (S m * (length l / size))%nat with (m * (length l / size) + length l / size)%nat by lia. now rewrite firstn_skipn_app. }
  apply G.
Qed.
Theorem world_all {A} size (l : list A) : (0 < size)%nat ->
  (concat (map (fun r => idx_world (Some (size, r)) l) (seq 0 size)) = l <-> (length l mod size = 0)%nat).
Proof.
  intros P. rewrite world_cover. pose proof (Nat.div_mod (length l) size ltac:(lia)) as D. split.
  - intros E. apply (f_equal (@length A)) in E. rewrite firstn_length in E. lia.
  - intros E. apply firstn_all2. lia.
Qed.
Lemma nth_skipn {A} a (l : list A) i d : nth i (skipn a l) d = nth (a + i) l d.
Proof. revert l; induction a as [|a IH]; intros l; [reflexivity|]. destruct l; cbn; [now destruct i|]. apply IH. Qed.
Lemma nth_firstn {A} k (l : list A) i d : (i < k)%nat -> nth i (firstn k l) d = nth i l d.
Proof. revert l i; induction k as [|k IH]; intros l i H; [lia|]. destruct l; cbn; [now destruct i|]. destruct i; auto. apply IH. lia. Qed.

Definition latticeW (n : nat) (H S : mat) (Hyb : cx -> mat) (neq inv : list nat) (mu : R) (size rank : nat) (fs : list (list cx -> res rows)) : nloc :=
  nl_set_local (nl_update (nl_init n H S Hyb neq inv (Some (size, rank))) mu) fs.

Section World.
Variable inv : nat -> mat -> res mat.
Hypothesis INV : inverts inv.
Variables (n : nat) (H S : mat) (Hyb : cx -> mat) (neq ids : list nat) (mu : R) (size rank : nat) (fs : list (list cx -> res rows)) (zs : list cx) (parts : list rows) (mem : nat -> nat -> cx).
Let l := latticeW n H S Hyb neq ids mu size rank fs.
Let stride := (length neq / size)%nat.
Hypothesis CL : classes ids neq.
Hypothesis LEN : length ids = n.
Hypothesis NZ : zs <> [].
Hypothesis SP : (0 < stride)%nat.
Hypothesis FL : length fs = size.
Hypothesis RK : (rank < size)%nat.
Hypothesis FS : mapM (fun f : list cx -> res rows => f zs) fs = Ok parts.
Hypothesis SH : forall p, In p parts -> length p = stride /\ forall r, In r p -> length r = length zs.

Lemma parts_length : length parts = size.
Proof. destruct (mapM_in _ _ _ FS) as [L _]. congruence. Qed.
Lemma concat_length : forall ps : list rows, (forall p, In p ps -> length p = stride) -> length (concat ps) = (length ps * stride)%nat.
Proof.
  clear. induction ps as [|p ps IH]; intros X; [reflexivity|]. cbn [concat length]. rewrite app_length, IH by (intros; apply X; now right). rewrite (X p) by now left. reflexivity.
Qed.
Lemma getW : nl_get_sigma l zs = Ok (concat parts).
Proof.
  destruct (mapM_in _ _ _ FS) as [L N]. unfold nl_get_sigma, nl_Sigma_loc, l, latticeW. cbn [nl_Sigma nl_set_local attr bind nl_rank nl_comm nl_update nl_init].
  rewrite (nth_error_nth' fs (fun _ => Ok [])) by lia. cbn [attr bind]. rewrite (N rank (fun _ => Ok []) []) by lia. cbn [bind].
  rewrite FS. cbn [bind].
  assert (Lr : length (nth rank parts []) = stride) by (apply SH, nth_In; rewrite parts_length; lia).
  rewrite Lr. assert (forallb (fun p => length p =? stride)%nat parts = true) as ->; [|reflexivity].
  apply forallb_forall. intros p Hp. apply Nat.eqb_eq. now apply SH.
Qed.
Lemma concat_rows r : In r (concat parts) -> length r = length zs.
Proof. intros I. apply in_concat in I. destruct I as (p & Hp & Hr). now apply (SH p). Qed.
Lemma sigma_len : length (concat parts) = (size * stride)%nat.
Proof. rewrite concat_length by (intros; now apply SH). now rewrite parts_length. Qed.
Lemma concat_ne : concat parts <> [].
Proof. intros E. pose proof sigma_len as L. rewrite E in L. cbn in L. destruct size; [lia|]. nia. Qed.
Lemma my_sites : nl_neq l = firstn stride (skipn (rank * stride) neq).
Proof. unfold l, latticeW. cbn [nl_neq nl_set_local nl_update nl_init]. apply world_slice. Qed.
Lemma my_length : length (nl_neq l) = stride.
Proof.
  rewrite my_sites, firstn_length, skipn_length. assert (size * stride <= length neq)%nat by (apply Nat.mul_div_le; lia). nia.
Qed.
Lemma in_mine i : In i (nl_neq l) -> In i neq.
Proof. rewrite my_sites. intros I. assert (G : forall k (m : list nat), incl (firstn k m) m) by (intros k m x Hx; rewrite <- (firstn_skipn k m); apply in_or_app; now left).
  apply G in I. rewrite <- (firstn_skipn (rank * stride) neq). apply in_or_app. now right. Qed.
Lemma mine_nodup : NoDup (nl_neq l).
Proof.
  apply (NoDup_nth _ 0%nat). rewrite my_length. intros a b Ha Hb E. rewrite my_sites, !nth_firstn, !nth_skipn in E by auto.
  assert (size * stride <= length neq)%nat by (apply Nat.mul_div_le; lia).
  pose proof (proj1 (NoDup_nth neq 0%nat) (classes_nodup _ _ CL) (rank * stride + a)%nat (rank * stride + b)%nat ltac:(nia) ltac:(nia) E). lia.
Qed.
Theorem greenW : (length neq mod size = 0)%nat -> (length neq <> 1 \/ length zs = 1)%nat -> pairwise_different (firstn (length neq) ids) ->
  match nl_call inv mem l zs with
  | Ok G => length G = stride /\ (forall r, In r G -> length r = length zs) /\
      forall j, (j < length zs)%nat -> exists g, inverse n (lat1 H S Hyb ids mu zs (concat parts) j) g /\
        forall a, (a < stride)%nat -> nth j (nth a G []) (rcx 0) = g (nth (rank * stride + a) neq 0%nat) (nth (rank * stride + a) neq 0%nat)
  | Err _ => exists j, (j < length zs)%nat /\ ~ exists g, inverse n (lat1 H S Hyb ids mu zs (concat parts) j) g
  end.
Proof.
  intros D C P. destruct (classes_range _ _ CL) as (R1 & R2 & _). pose proof (proj2 (classes_first _ _ CL) P) as F.
  assert (FULL : length (concat parts) = length neq) by (rewrite sigma_len; pose proof (Nat.div_mod (length neq) size ltac:(lia)); unfold stride; lia).
  pose proof (call_values inv INV l mu eq_refl LEN mem (concat parts) zs getW concat_rows NZ concat_ne) as V.
  assert (V1 : forall i, In i (nl_inv l) -> (i < length (concat parts))%nat) by (intros i Hi; rewrite FULL; now apply R1).
  assert (V2 : forall i, In i (nl_neq l) -> (i < nl_n l)%nat) by (intros i Hi; change (i < n)%nat; rewrite <- LEN; apply R2; now apply in_mine).
  specialize (V V1 V2 mine_nodup). rewrite FULL in V. specialize (V C ltac:(intros i Hi; apply F; now apply in_mine)).
  destruct (nl_call inv mem l zs) as [G|e]; [|exact V]. rewrite my_length in V. destruct V as (A & B & V). split; auto. split; auto.
  intros j Hj. destruct (V j Hj) as (g & I & E). exists g. split; [exact I|]. intros a Ha. rewrite E by auto. rewrite my_sites, nth_firstn, nth_skipn by auto. reflexivity.
Qed.
Theorem greenW_remainder : (length neq mod size <> 0)%nat -> nl_call inv mem l zs = Err IndexError.
Proof.
  intros D. pose proof (Nat.div_mod (length neq) size ltac:(lia)) as DM.
  assert (K : (size * stride < length neq)%nat) by (unfold stride; lia).
  destruct (proj2 CL _ K) as (K1 & K2 & _).
  assert (KI : In (size * stride)%nat (nl_inv l)) by (change (nl_inv l) with ids; rewrite <- K2; now apply nth_In).
  unfold nl_call. rewrite getW. cbn [bind]. rewrite (shape_ok l (concat parts) zs getW concat_rows NZ concat_ne).
  assert (exists z zs', zs = z :: zs') as (z & zs' & Ez) by (destruct zs as [|z zs']; [congruence|eauto]).
  pose proof sigma_len as SL. pose proof concat_rows as CR.
  destruct (concat parts) as [|r [|r' m]] eqn:E; [now destruct concat_ne| |].
  - cbn [chunks]. unfold enum. cbn [length seq combine]. rewrite mapM_first_err with (e := IndexError); [reflexivity|]. rewrite Ez.
    assert (S1 : (size * stride = 1)%nat) by (cbn in SL; lia).
    (* one class per process and one process: excluded by the remainder *)
    assert (size = 1%nat) by nia. subst size. rewrite H0 in D. now rewrite Nat.mod_1_r in D.
  - cbn [chunks]. rewrite Ez. unfold enum. cbn [length seq map combine]. rewrite mapM_first_err with (e := IndexError); [reflexivity|].
    cbn [nth repeat]. apply (chunk_class_err inv l mu eq_refl _ _ _ _ (size * stride)%nat); auto. rewrite column_length. rewrite SL. lia.
Qed.
End World.

(** ** Occupations *)
Lemma matsum_grid call call' old mu nmats beta :
  call mu (map (fun i => cxdiv (cxmul (cxmul ci (rcx (2 * INR i + 1))) (rcx PI)) (rcx beta)) (seq 0 nmats)) = call' mu (map (fun i => cxdiv (cxmul (cxmul ci (rcx (2 * INR i + 1))) (rcx PI)) (rcx beta)) (seq 0 nmats)) ->
  matsum_gf call old mu nmats beta = matsum_gf call' old mu nmats beta.
Proof. intros E. unfold matsum_gf, matsum_body. now rewrite E. Qed.

(** ** One step with several impurities *)
Section Step.
Variable fitter : list R -> list cx -> list R.
Variable solver : list R -> R -> res (cx -> cx).

Lemma step_nano_ok delta gs l gs' l' mu : nano_step fitter solver delta gs l = Ok (gs', l') -> nl_mu l = Some mu -> length gs = length (nl_neq l) ->
  l' = nl_set_local l [imps_Sigma gs'] /\ length gs' = length gs /\
  forall a dg, (a < length gs)%nat -> exists d f g0, nth_error delta a = Some d /\
    g0 = imp_update (imp_fit fitter (nth a gs dg) d) (mu - re (nl_H l (nth a (nl_neq l) 0%nat) (nth a (nl_neq l) 0%nat))) /\
    solver (imp_H g0) (imp_U g0) = Ok f /\ nth a gs' dg = set_gf g0 f.
Proof.
  intros E MU L. unfold nano_step in E. destruct (imps_fit fitter gs delta) as [g1|] eqn:E1; [|discriminate]. cbn [bind] in E. rewrite MU in E. cbn [attr bind] in E.
  destruct (nl_ed l) as [ed|] eqn:E2; [|discriminate]. cbn [bind] in E. destruct (imps_update g1 _) as [g2|] eqn:E3; [|discriminate]. cbn [bind] in E.
  destruct (imps_solve solver g2) as [g3|] eqn:E4; [|discriminate]. cbn [bind] in E. injection E as <- <-.
  unfold imps_fit in E1. apply mapM_in in E1. unfold enum in E1. rewrite combine_length, seq_length, Nat.min_id in E1. destruct E1 as [L1 N1].
  unfold nl_ed, take in E2. apply mapM_in in E2. destruct E2 as [L2 N2].
  unfold imps_update in E3. assert (bcast (length g1) (map (fun e => mu - re e) ed) = Ok (map (fun e => mu - re e) ed)) as B.
  { unfold bcast. rewrite map_length, L1, L, L2, Nat.eqb_refl. reflexivity. }
  rewrite B in E3. cbn [bind] in E3. injection E3 as <-.
  unfold imps_solve in E4. apply mapM_in in E4. rewrite map_length, combine_length, map_length in E4. destruct E4 as [L4 N4].
  split; [reflexivity|]. split; [lia|]. intros a dg Ha.
  specialize (N1 a (0%nat, dg) dg Ha). rewrite combine_nth in N1 by now rewrite seq_length. rewrite seq_nth in N1 by auto. cbn [fst snd Nat.add] in N1. unfold elem_at in N1.
  destruct (nth_error delta a) as [d|]; [|discriminate]. cbn [bind] in N1. injection N1 as N1.
  specialize (N2 a 0%nat (rcx 0) ltac:(lia)). unfold elem_at in N2. destruct (nth_error (diagonal (nl_n l) (nl_H l)) (nth a (nl_neq l) 0%nat)) as [e|] eqn:Ee; [|discriminate]. injection N2 as N2.
  assert (Eh : e = nl_H l (nth a (nl_neq l) 0%nat) (nth a (nl_neq l) 0%nat)).
  { assert (HL : (nth a (nl_neq l) 0 < nl_n l)%nat) by (rewrite <- (diagonal_length (nl_n l) (nl_H l)); apply nth_error_Some; congruence).
    apply (nth_error_nth _ _ (rcx 0)) in Ee. now rewrite nth_diagonal in Ee by auto. }
  specialize (N4 a (imp_update dg 0) dg ltac:(lia)).
  rewrite (nth_map (fun p : gfimp * R => imp_update (fst p) (snd p)) (combine g1 (map (fun e => mu - re e) ed)) a (dg, 0)) in N4 by (rewrite combine_length, map_length; lia).
  rewrite combine_nth in N4 by (rewrite map_length; lia). rewrite (nth_map (fun e => mu - re e) ed a (rcx 0)) in N4 by lia. cbn [fst snd] in N4.
  rewrite <- N2, Eh, <- N1 in N4. unfold imp_solve in N4. destruct (solver _ _) as [f|] eqn:Ef; [|discriminate]. cbn [bind] in N4. injection N4 as N4.
  exists d, f, (imp_update (imp_fit fitter (nth a gs dg) d) (mu - re (nl_H l (nth a (nl_neq l) 0%nat) (nth a (nl_neq l) 0%nat)))). repeat split; auto.
Qed.
End Step.

Lemma update_shapes (gs : list gfimp) (mu : list R) :
  imps_update gs mu = if (length mu =? length gs)%nat then Ok (map (fun p : gfimp * R => imp_update (fst p) (snd p)) (combine gs mu))
    else match mu with [m] => Ok (map (fun g => imp_update g m) gs) | _ => Err ValueError end.
Proof.
  unfold imps_update, bcast. destruct (length mu =? length gs)%nat; [reflexivity|]. destruct mu as [|m [|]]; try reflexivity. cbn [bind]. f_equal.
  induction gs as [|g gs IH]; [reflexivity|]. cbn [length repeat combine map fst snd]. now rewrite IH.
Qed.
