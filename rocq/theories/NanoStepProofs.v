(** Occupations, self-consistency of several sites, local moments. *)
From Coq Require Import Reals List Arith NArith Lia Lra Bool.
From Verif Require Import Base RBase RLin CBase ProjModel EspaceModel FitModel DmftModel DmftProofs FermiModel FermiSpec MatsumProofs ObsModel ObsSpec ObsMoreProofs ObsProps NanoModel NanoSpec NanoMatProofs NanoProofs NanoMoreProofs NanoRankProofs.
Import ListNotations.
Local Open Scope R_scope.
Add Ring cxr : cx_ring.
Add Field cxf : cx_field.

(** ** Occupations *)
Section Occ.
Variable inv : nat -> mat -> res mat.
Hypothesis INV : inverts inv.
Variables (n : nat) (H S : mat) (Hyb : cx -> mat) (neq ids : list nat) (mu0 mu : R) (ss : list (cx -> cx)) (mem : nat -> nat -> cx).
Let f (zs : list cx) : res rows := Ok (map (fun s => map s zs) ss).
Let l := lattice1 n H S Hyb neq ids mu0 f.
Hypothesis CL : classes ids neq.
Hypothesis LEN : length ids = n.
Hypothesis LS : length ss = length neq.
Definition latS (z : cx) : mat := lat mu H S Hyb (fun i => nth (nth i ids 0%nat) ss (fun _ => rcx 0) z) z.
Definition green_of (i : nat) (z : cx) : cx := match inv n (latS z) with Ok g => g i i | Err _ => rcx 0 end.

Lemma sigma_pointwise zs j i : (j < length zs)%nat -> (i < n)%nat ->
  sigma_of ids (map (fun s => map s zs) ss) j i = nth (nth i ids 0%nat) ss (fun _ => rcx 0) (nth j zs (rcx 0)).
Proof.
  intros Hj Hi. unfold sigma_of. destruct (classes_range _ _ CL) as (R1 & _ & _). assert (K : (nth i ids 0 < length ss)%nat) by (rewrite LS; apply R1, nth_In; lia).
  rewrite (nth_map (fun s => map s zs) ss _ (fun _ => rcx 0)) by auto. now rewrite (nth_map _ zs j (rcx 0)).
Qed.
Lemma call_pointwise zs a : zs <> [] -> (length neq <> 1 \/ length zs = 1)%nat -> pairwise_different (firstn (length neq) ids) ->
  (forall z, In z zs -> exists g, inverse n (latS z) g) -> (a < length neq)%nat ->
  (do g <- nl_call inv mem (nl_update l mu) zs; elem_at g a) = Ok (map (green_of (nth a neq 0%nat)) zs).
Proof.
  intros NZ C P IN Ha. assert (NP : neq <> []) by (intros E; rewrite E in Ha; cbn in Ha; lia).
  change (nl_update l mu) with (lattice1 n H S Hyb neq ids mu f).
  assert (SH : length (map (fun s => map s zs) ss) = length neq /\ forall r, In r (map (fun s => map s zs) ss) -> length r = length zs).
  { split; [now rewrite map_length|]. intros r Hr. apply in_map_iff in Hr. destruct Hr as (s & <- & _). apply map_length. }
  pose proof (green1 inv INV n H S Hyb neq ids mu f zs (map (fun s => map s zs) ss) mem CL LEN NP NZ eq_refl SH C P) as G1.
  assert (LT : forall j g, (j < length zs)%nat -> (inverse n (lat1 H S Hyb ids mu zs (map (fun s => map s zs) ss) j) g <-> inverse n (latS (nth j zs (rcx 0))) g)).
  { intros j g Hj. assert (Q : forall i k, (i < n)%nat -> (k < n)%nat -> lat1 H S Hyb ids mu zs (map (fun s => map s zs) ss) j i k = latS (nth j zs (rcx 0)) i k).
    { intros i k Hi Hk. unfold lat1, latS, lat. now rewrite sigma_pointwise. }
    split; apply inverse_ext; intros i k Hi Hk; [|symmetry]; auto. }
  destruct (nl_call inv mem _ zs) as [G|e]; cbn [bind].
  - destruct G1 as (LG & RG & V). unfold elem_at. rewrite (nth_error_nth' G []) by lia. f_equal.
    assert (LR : length (nth a G []) = length zs) by (apply RG, nth_In; lia).
    apply (nth_ext _ _ (rcx 0) (rcx 0)); [now rewrite map_length|]. intros j Hj. rewrite LR in Hj.
    destruct (V j Hj) as (g & I & E). rewrite E by auto. rewrite (nth_map _ zs j (rcx 0)) by auto. apply LT in I; auto. unfold green_of.
    pose proof (INV n (latS (nth j zs (rcx 0)))) as IX. destruct (inv n _) as [g'|]; [|exfalso; apply IX; eauto].
    assert (nth a neq 0 < n)%nat by (destruct (classes_range _ _ CL) as (_ & R2 & _); rewrite <- LEN; now apply R2, nth_In). now apply (inverse_unique n (latS (nth j zs (rcx 0)))).
  - destruct G1 as (j & Hj & N). exfalso. destruct (IN (nth j zs (rcx 0))) as (g & I); [now apply nth_In|]. apply N. exists g. now apply LT.
Qed.
Theorem occupations L beta : 0 < beta -> (length neq <> 1)%nat -> pairwise_different (firstn (length neq) ids) ->
  (forall i, (i <= L)%nat -> exists g, inverse n (latS (0, matsubara beta i)) g) ->
  exists occ, nl_integrate inv mem l mu (Datatypes.S L) beta = Ok occ /\ length occ = n /\
  forall i, (i < n)%nat -> exists m, matsum_gf (fun _ zs => Ok (map (green_of (nth (nth i ids 0%nat) neq 0%nat)) zs)) mu0 mu (Datatypes.S L) beta = (Ok m, mu0) /\ nth i occ 0 = 2 * m.
Proof.
  intros B C P IN. set (val := fun a => matsum_value (green_of (nth a neq 0%nat)) beta L).
  assert (V : forall g, matsum_gf (fun _ zs => Ok (map g zs)) mu0 mu (Datatypes.S L) beta = (Ok (matsum_value g beta L), mu0)) by (intros g; now apply matsum_closed).
  unfold nl_integrate. change (nl_mu l) with (Some mu0). cbn [attr bind]. change (nl_neq l) with neq. change (nl_inv l) with ids.
  assert (M : mapM (fun a => fst (matsum_gf (fun m zs => do g <- nl_call inv mem (nl_update l m) zs; elem_at g a) mu0 mu (Datatypes.S L) beta)) (seq 0 (length neq)) = Ok (map val (seq 0 (length neq)))).
  { assert (G : forall xs, (forall a, In a xs -> (a < length neq)%nat) -> mapM (fun a => fst (matsum_gf (fun m zs => do g <- nl_call inv mem (nl_update l m) zs; elem_at g a) mu0 mu (Datatypes.S L) beta)) xs = Ok (map val xs)).
    { induction xs as [|a xs IH]; intros X; [reflexivity|]. cbn [mapM map].
      rewrite (matsum_grid _ (fun _ zs => Ok (map (green_of (nth a neq 0%nat)) zs))).
      - rewrite V. cbn [fst bind]. rewrite IH by (intros; apply X; now right). reflexivity.
      - apply call_pointwise; auto.
        + cbn [seq map]. discriminate.
        + intros z Hz. apply in_map_iff in Hz. destruct Hz as (i & <- & Hi). apply in_seq in Hi. rewrite z_point by lra. apply IN. lia.
        + apply X. now left. }
    apply G. intros a Ha. apply in_seq in Ha. lia. }
  rewrite M. cbn [bind]. destruct (classes_range _ _ CL) as (R1 & _ & _).
  rewrite (take_ok 0) by (intros i Hi; rewrite map_length, seq_length; auto). cbn [bind].
  eexists. split; [reflexivity|]. split; [now rewrite !map_length|]. intros i Hi. exists (val (nth i ids 0%nat)). split; [apply V|].
  rewrite map_map. rewrite (nth_map _ ids i 0%nat) by lia. rewrite nth_map_seq; [reflexivity|]. apply R1, nth_In. lia.
Qed.
End Occ.

(** ** Self-consistency *)
Section Fixed.
Variable fitter : list R -> list cx -> list R.
Variable solver : list R -> R -> res (cx -> cx).
Variable inv : nat -> mat -> res mat.
Theorem fixed_point (n : nat) (H S : mat) (Hyb : cx -> mat) (neq ids : list nat) (mu : R) (f : list cx -> res rows) (delta : rows) (gs gs' : list gfimp) (l' : nloc)
    (zs : list cx) (mem : nat -> nat -> cx) (G D : rows) (a j : nat) (dg : gfimp) (Gi : cx) :
  classes ids neq -> length ids = n -> length gs = length neq -> zs <> [] ->
  nano_step fitter solver delta gs (lattice1 n H S Hyb neq ids mu f) = Ok (gs', l') ->
  nl_call inv mem l' zs = Ok G -> nl_Delta inv mem l' zs = Ok D ->
  (a < length neq)%nat -> (j < length zs)%nat -> imp_H (nth a gs dg) <> [] -> im (H (nth a neq 0%nat) (nth a neq 0%nat)) = 0 ->
  nth j (nth a D []) (rcx 0) = delta1 (imp_x (nth a gs' dg)) (nth j zs (rcx 0)) ->
  nth j (nth a G []) (rcx 0) <> rcx 0 ->
  imp_call (nth a gs' dg) (nth j zs (rcx 0)) = Ok Gi -> Gi = nth j (nth a G []) (rcx 0).
Proof.
  intros CL LEN LG NZ ST EG ED Ha Hj NE HR FX GN CI.
  destruct (step_nano_ok fitter solver delta gs _ gs' l' mu ST eq_refl LG) as (El & Lg & V). destruct (V a dg ltac:(lia)) as (d & ff & g0 & _ & Eg0 & _ & Eg). clear V.
  change (nl_set_local (lattice1 n H S Hyb neq ids mu f) [imps_Sigma gs']) with (lattice1 n H S Hyb neq ids mu (imps_Sigma gs')) in El. subst l'.
  assert (FS : exists sigma, imps_Sigma gs' zs = Ok sigma).
  { unfold nl_call, nl_get_sigma, nl_Sigma_loc in EG. cbn [nl_Sigma lattice1 nl_set_local attr bind nl_rank nl_comm nl_update nl_init nth_error] in EG. destruct (imps_Sigma gs' zs); [eauto|discriminate]. }
  destruct FS as (sigma & FS).
  assert (SI : length sigma = length gs' /\ forall b, (b < length gs')%nat -> mapM (imp_Sigma (nth b gs' dg)) zs = Ok (nth b sigma [])).
  { unfold imps_Sigma in FS. destruct gs' as [|g1 gs1]; [discriminate|]. apply mapM_in in FS. destruct FS as [L N]. split; [exact L|]. intros b Hb. now apply N. }
  destruct SI as [LSi SI].
  assert (SH : length sigma = length neq /\ forall r, In r sigma -> length r = length zs).
  { split; [lia|]. intros r Hr. destruct (In_nth _ _ [] Hr) as (b & Hb & <-). specialize (SI b ltac:(lia)). apply mapM_in in SI. apply SI. }
  destruct (delta1_values inv n H S Hyb neq ids mu (imps_Sigma gs') zs sigma mem CL LEN FS SH G D EG ED) as (_ & _ & DV).
  specialize (DV a j Ha Hj). rewrite FX in DV.
  assert (SG : imp_Sigma (nth a gs' dg) (nth j zs (rcx 0)) = Ok (nth j (nth a sigma []) (rcx 0))).
  { specialize (SI a ltac:(lia)). apply mapM_in in SI. destruct SI as [_ SI]. now apply SI. }
  unfold imp_call in CI. rewrite SG in CI. cbn [bind] in CI. apply ok_inj in CI. subst Gi. rewrite DV. unfold hybridisation, sigma_of.
  destruct (proj2 CL a Ha) as (_ & Ec & _). rewrite Ec.
  assert (H0 : nth 0 (imp_H (nth a gs' dg)) 0 = - (mu - re (H (nth a neq 0%nat) (nth a neq 0%nat)))).
  { rewrite Eg, Eg0. cbn [imp_H set_gf imp_update set_H]. apply upd_nth0. intros Q. apply (f_equal (@length R)) in Q. change (length (imp_H (imp_fit fitter (nth a gs dg) d)) = 0%nat) in Q. rewrite fit_H_length in Q. destruct (imp_H (nth a gs dg)); [congruence|discriminate]. }
  rewrite H0. set (h := H (nth a neq 0%nat) (nth a neq 0%nat)) in *. assert (Eh : h = rcx (re h)) by (apply cx_eq; [reflexivity|exact HR]). rewrite Eh at 2.
  rewrite <- (cxinv_inv (nth j (nth a G []) (rcx 0)) GN) at 2. f_equal.
  replace (rcx (- (mu - re h))) with (cxsub (rcx (re h)) (rcx mu)) by (apply cx_eq; simpl; ring). ring.
Qed.
End Fixed.

(** ** Local moments *)
Section Head.
Variable K : CRing.
Definition same_head {A} (x y : list A) : Prop := exists h t t', x = h :: t /\ y = h :: t'.
Lemma add_occ_head acc acc' s o : same_head acc acc' -> same_head (add_occ K acc s o) (add_occ K acc' s o).
Proof. intros (h & t & t' & -> & ->). unfold add_occ. cbn [length seq combine map]. eexists _, _, _. split; reflexivity. Qed.
Definition same_res {A} (r r' : res (list A)) : Prop := match r, r' with Ok x, Ok y => same_head x y | Err e, Err e' => e = e' | _, _ => False end.
Lemma count_loop_head n n' nev states con : (0 < n)%nat -> (0 < n')%nat -> same_res (count_loop K n nev states con) (count_loop K n' nev states con).
Proof.
  intros P P'. unfold count_loop. assert (G : forall l acc acc', same_head acc acc' -> same_res (foldM (fun acc p => do occps <- con (fst p); Ok (add_occ K acc (snd p) occps)) l acc) (foldM (fun acc p => do occps <- con (fst p); Ok (add_occ K acc (snd p) occps)) l acc')).
  { induction l as [|p l IH]; intros acc acc' S; cbn [foldM]; [exact S|]. destruct (con (fst p)) as [o|]; cbn [bind]; [|reflexivity]. apply IH. now apply add_occ_head. }
  apply G. destruct n, n'; try lia. cbn [repeat]. eexists _, _, _. split; reflexivity.
Qed.
Definition same_pair {A} (r r' : res (list A * list A)) : Prop :=
  match r, r' with Ok (x, y), Ok (x', y') => same_head x x' /\ same_head y y' | Err e, Err e' => e = e' | _, _ => False end.
Lemma occupation_head a up dw n n' coeffs : (0 < n)%nat -> (0 < n')%nat ->
  same_pair (fst (evecs_occupation K a up dw n coeffs)) (fst (evecs_occupation K a up dw n' coeffs)) /\ snd (evecs_occupation K a up dw n coeffs) = snd (evecs_occupation K a up dw n' coeffs).
Proof.
  intros P P'. unfold evecs_occupation. destruct (nth_error (a_shape K a) 1) as [nev|]; [|split; reflexivity].
  destruct (a_f K a); (destruct (set_shape K a _) as [a1|]; [|split; reflexivity]); cbn [fst snd]; (split; [|reflexivity]).
  - pose proof (count_loop_head n n' nev up (fun iup => contract K (a_buf K a1) coeffs nev (length dw) (fun idw j => ((j * length dw + idw) * length up + iup)%nat)) P P') as C1.
    pose proof (count_loop_head n n' nev dw (fun idw => contract K (a_buf K a1) coeffs nev (length up) (fun iup j => ((j * length dw + idw) * length up + iup)%nat)) P P') as C2.
    destruct (count_loop K n nev up _), (count_loop K n' nev up _); cbn [bind same_res] in *; try contradiction; auto.
    destruct (count_loop K n nev dw _), (count_loop K n' nev dw _); cbn [bind same_res] in *; try contradiction; auto. now split.
  - pose proof (count_loop_head n n' nev up (fun iup => contract K (a_buf K a1) coeffs nev (length dw) (fun idw j => ((idw * length up + iup) * nev + j)%nat)) P P') as C1.
    pose proof (count_loop_head n n' nev dw (fun idw => contract K (a_buf K a1) coeffs nev (length up) (fun iup j => ((idw * length up + iup) * nev + j)%nat)) P P') as C2.
    destruct (count_loop K n nev up _), (count_loop K n' nev up _); cbn [bind same_res] in *; try contradiction; auto.
    destruct (count_loop K n nev dw _), (count_loop K n' nev dw _); cbn [bind same_res] in *; try contradiction; auto. now split.
Qed.
End Head.
Lemma vadd_head x x' u u' : same_head x x' -> same_head u u' -> same_head (vadd x (row_sums u)) (vadd x' (row_sums u')).
Proof. intros (h & t & t' & -> & ->) (g & v & v' & -> & ->). unfold vadd, row_sums. cbn [map combine]. eexists _, _, _. split; reflexivity. Qed.
Definition same_triple (r r' : res (list R * list R * R)) : Prop :=
  match r, r' with Ok (x, y, z), Ok (x', y', z') => same_head x x' /\ same_head y y' /\ z = z' | Err e, Err e' => e = e' | _, _ => False end.
Lemma loop_head egs beta n n' : (0 < n)%nat -> (0 < n')%nat -> forall scts nup nup' ndw ndw' Z, same_head nup nup' -> same_head ndw ndw' ->
  same_triple (fst (occupation_loop egs beta n scts nup ndw Z)) (fst (occupation_loop egs beta n' scts nup' ndw' Z)).
Proof.
  intros P P'. induction scts as [|s scts IH]; intros nup nup' ndw ndw' Z S1 S2; cbn [occupation_loop]; [cbn; auto|].
  destruct (o_states s) as [up dw|]; [|reflexivity].
  set (exps := map _ (o_vals s)).
  destruct (occupation_head RRing (o_vecs s) up dw n n' (Some exps) P P') as [A B].
  change (evecs_occupation RRing (o_vecs s) up dw n (Some exps)) with (evecs_occupation RRing (o_vecs s) up dw n (Some exps)) in *.
  destruct (evecs_occupation RRing (o_vecs s) up dw n (Some exps)) as [r a], (evecs_occupation RRing (o_vecs s) up dw n' (Some exps)) as [r' a']. cbn [fst snd] in A, B. subst a'.
  destruct r as [[u d]|e], r' as [[u' d']|e']; cbn [same_pair] in A; try contradiction; [|subst; reflexivity].
  destruct A as [A1 A2]. specialize (IH (vadd nup (row_sums u)) (vadd nup' (row_sums u')) (vadd ndw (row_sums d)) (vadd ndw' (row_sums d')) (Z + fold_left Rplus exps 0) (vadd_head _ _ _ _ S1 A1) (vadd_head _ _ _ _ S2 A2)).
  destruct (occupation_loop egs beta n scts _ _ _) as [r ss], (occupation_loop egs beta n' scts _ _ _) as [r' ss']. exact IH.
Qed.
Lemma get_occupation_head scts egs beta n n' : (0 < n)%nat -> (0 < n')%nat -> same_pair (fst (get_occupation scts egs beta n)) (fst (get_occupation scts egs beta n')).
Proof.
  intros P P'. unfold get_occupation. assert (I : same_head (repeat 0 n) (repeat 0 n')) by (destruct n, n'; try lia; cbn [repeat]; eexists _, _, _; split; reflexivity).
  pose proof (loop_head egs beta n n' P P' scts _ _ _ _ 0 I I) as T.
  destruct (occupation_loop egs beta n scts _ _ _) as [r ss], (occupation_loop egs beta n' scts _ _ _) as [r' ss']. cbn [fst] in *.
  destruct r as [[[x y] z]|e], r' as [[[x' y'] z']|e']; cbn [same_triple] in T; try contradiction; cbn [bind same_pair]; [|exact T].
  destruct T as ((h & t & t' & -> & ->) & (g & v & v' & -> & ->) & ->). cbn [map]. split; eexists _, _, _; split; reflexivity.
Qed.

Theorem moments (imps : list oimp) : (forall g, In g imps -> (0 < oi_n g)%nat /\ (forall s, In s (oi_espace g) -> sector_ok (oi_n g) s) /\
    existsb (fun s => negb (length (o_vals s) =? 0)%nat) (oi_espace g) = true) ->
  exists m, local_moments imps = Ok m /\ length m = length imps /\
  forall i dg, (i < length imps)%nat -> let g := nth i imps dg in let beta := oi_beta (nth 0 imps dg) in
    nth i m 0 = thermal (oi_espace g) (oi_egs g) beta (oi_n g) 0 - thermal (oi_espace g) (oi_egs g) beta (oi_n g) (oi_n g).
Proof.
  intros OK. destruct imps as [|g0 imps]; [exists []; repeat split; auto; intros i dg Hi; cbn in Hi; lia|].
  set (val := fun g => thermal (oi_espace g) (oi_egs g) (oi_beta g0) (oi_n g) 0 - thermal (oi_espace g) (oi_egs g) (oi_beta g0) (oi_n g) (oi_n g)).
  assert (M : local_moments (g0 :: imps) = Ok (map val (g0 :: imps))).
  { unfold local_moments. set (F := fun g => _). assert (FV : forall g, In g (g0 :: imps) -> F g = Ok (val g)).
    { intros g Hg. destruct (OK g Hg) as (P & SO & EX). destruct (OK g0 (or_introl eq_refl)) as (P0 & _ & _). unfold F. cbn [elem_at nth_error bind].
      destruct (C41_thermal (oi_espace g) (oi_egs g) (oi_beta g0) (oi_n g) SO EX) as (u & d & E & Lu & Ld & V).
      pose proof (get_occupation_head (oi_espace g) (oi_egs g) (oi_beta g0) (oi_n g0) (oi_n g) P0 P) as HD. rewrite E in HD.
      destruct (fst (get_occupation (oi_espace g) (oi_egs g) (oi_beta g0) (oi_n g0))) as [[u' d']|]; [|contradiction]. cbn [same_pair] in HD.
      destruct HD as ((h & t & t' & -> & ->) & (k & v & v' & -> & ->)). cbn [bind fst snd elem_at nth_error]. destruct (V 0%nat P) as (V1 & V2 & _). cbn [nth] in V1, V2. rewrite Nat.add_0_r in V2. unfold val. now rewrite V1, V2. }
    assert (G : forall xs, incl xs (g0 :: imps) -> mapM F xs = Ok (map val xs)).
    { induction xs as [|x xs IH]; intros I; [reflexivity|]. cbn [mapM map]. rewrite FV by (apply I; now left). cbn [bind]. rewrite IH by (intros y Hy; apply I; now right). reflexivity. }
    apply G. apply incl_refl. }
  exists (map val (g0 :: imps)). split; [exact M|]. split; [apply map_length|]. intros i dg Hi. cbv zeta. cbn [nth]. rewrite (nth_map val (g0 :: imps) i dg) by auto. reflexivity.
Qed.
