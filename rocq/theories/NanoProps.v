(** C103-C106: several sites (nano_dmft). *)
From Coq Require Import Reals List Arith NArith Bool Lia Lra.
From Verif Require Import Base RBase RLin CBase LocalModel ProjModel EspaceModel FitModel DmftModel FermiModel FermiSpec MatsumProofs DmftProofs ObsModel ObsSpec NanoModel NanoSpec NanoMatProofs NanoProofs NanoMoreProofs NanoRankProofs NanoStepProofs NanoInvProofs.
Import ListNotations.
Local Open Scope R_scope.

(** ** C103: the local Green's function *)
(** [sigma]: one row per class, one column per frequency. *)
Theorem C103_green : forall inv, inverts inv -> forall n H S Hyb neq ids mu f zs sigma mem,
  classes ids neq -> length ids = n -> neq <> [] -> zs <> [] -> f zs = Ok sigma ->
  (length sigma = length neq /\ forall r, In r sigma -> length r = length zs) ->
  (length neq <> 1 \/ length zs = 1)%nat -> pairwise_different (firstn (length neq) ids) ->
  let l := nl_set_local (nl_update (nl_init n H S Hyb neq ids None) mu) [f] in
  let x := fun j => lat mu H S Hyb (fun i => nth j (nth (nth i ids 0%nat) sigma []) (rcx 0)) (nth j zs (rcx 0)) in
  match nl_call inv mem l zs with
  | Ok G => length G = length neq /\ (forall r, In r G -> length r = length zs) /\
      forall j, (j < length zs)%nat -> exists g, inverse n (x j) g /\
        forall a, (a < length neq)%nat -> nth j (nth a G []) (rcx 0) = g (nth a neq 0%nat) (nth a neq 0%nat)
  | Err _ => exists j, (j < length zs)%nat /\ ~ exists g, inverse n (x j) g
  end.
Proof. exact green1. Qed.
Print Assumptions C103_green.

(** Otherwise an index error, as soon as the first matrix is regular. *)
Theorem C103_index_refuted : forall inv, inverts inv -> forall n H S Hyb neq ids mu f zs sigma mem,
  classes ids neq -> length ids = n -> neq <> [] -> zs <> [] -> f zs = Ok sigma ->
  (length sigma = length neq /\ forall r, In r sigma -> length r = length zs) ->
  (length neq <> 1 \/ length zs = 1)%nat -> ~ pairwise_different (firstn (length neq) ids) ->
  (exists g, inverse n (lat mu H S Hyb (fun i => nth 0 (nth (nth i ids 0%nat) sigma []) (rcx 0)) (nth 0 zs (rcx 0))) g) ->
  nl_call inv mem (nl_set_local (nl_update (nl_init n H S Hyb neq ids None) mu) [f]) zs = Err IndexError.
Proof. exact green1_index. Qed.
Print Assumptions C103_index_refuted.

(** One class: only the first frequency is computed. *)
Theorem C103_single_refuted : forall inv, inverts inv -> forall n H S Hyb neq ids mu f zs sigma mem,
  classes ids neq -> length ids = n -> neq <> [] -> zs <> [] -> f zs = Ok sigma ->
  (length sigma = length neq /\ forall r, In r sigma -> length r = length zs) ->
  forall r, neq = [0%nat] -> sigma = [r] ->
  let x := lat mu H S Hyb (fun i => nth 0 (nth (nth i ids 0%nat) sigma []) (rcx 0)) (nth 0 zs (rcx 0)) in
  match nl_call inv mem (nl_set_local (nl_update (nl_init n H S Hyb neq ids None) mu) [f]) zs with
  | Ok G => exists g row, inverse n x g /\ G = [row] /\ length row = length zs /\ nth 0 row (rcx 0) = g 0%nat 0%nat /\
      forall j, (0 < j < length zs)%nat -> nth j row (rcx 0) = mem 0%nat j
  | Err _ => ~ exists g, inverse n x g
  end.
Proof. exact green1_single. Qed.
Print Assumptions C103_single_refuted.

(** Sites related by a symmetry of the matrix have the same value. *)
Theorem C103_equivalent : forall n x g (p q : nat -> nat), inverse n x g ->
  (forall i, (i < n)%nat -> (p i < n)%nat /\ (q i < n)%nat /\ q (p i) = i /\ p (q i) = i) ->
  (forall i j, (i < n)%nat -> (j < n)%nat -> x (p i) (p j) = x i j) ->
  forall i j, (i < n)%nat -> (j < n)%nat -> g (p i) (p j) = g i j.
Proof. exact symmetric_sites. Qed.
Print Assumptions C103_equivalent.

(** The inversion asked for exists. *)
Theorem C103_inversion : exists inv, inverts inv.
Proof. exact (ex_intro _ gauss gauss_inverts). Qed.
Print Assumptions C103_inversion.

(** Two sites with hopping 1 at [i] and [2i]. *)
Definition dimer : mat := fun i j => if (i =? j)%nat then rcx 0 else rcx 1.
Definition no_hyb : cx -> mat := fun _ _ _ => rcx 0.
Definition flat (k : nat) (zs : list cx) : res rows := Ok (repeat (map (fun _ => rcx 0) zs) k).
Lemma two f : csum 2 f = cxadd (f 0%nat) (f 1%nat).
Proof. apply cx_eq; rewrite ?csum_re, ?csum_im; unfold rsum, nsum; simpl; ring. Qed.
Lemma dimer_inverse y : y * y + 1 <> 0 -> inverse 2 (lat 0 dimer delta no_hyb (fun _ => rcx 0) (0, y)) (fun i j => if (i =? j)%nat then (0, - y / (y * y + 1)) else (- 1 / (y * y + 1), 0)).
Proof.
  intros N i j Hi Hj. rewrite !two. unfold lat, dimer, no_hyb, delta.
  destruct i as [|[|]], j as [|[|]]; try lia; cbn [Nat.eqb]; split; apply cx_eq; cbv [cxmul cxadd cxsub cxopp rcx re im fst snd]; field; auto.
Qed.
Lemma two_classes : classes [0; 1]%nat [0; 1]%nat.
Proof.
  split.
  - intros [|[|i]] Hi; cbn in *; lia.
  - intros [|[|a]] Ha; cbn in *; try lia; repeat split; try lia. intros [|i] Hi; lia.
Qed.
Example C103_case : forall mem, exists a b, nl_call gauss mem (nl_set_local (nl_update (nl_init 2 dimer delta no_hyb [0; 1]%nat [0; 1]%nat None) 0) [flat 2]) [ci; (0, 2)] = Ok [a; b] /\
  a = [(0, - (1 / 2)); (0, - (2 / 5))] /\ b = a.
Proof.
  intros mem.
  assert (PD : pairwise_different (firstn (length [0; 1]%nat) [0; 1]%nat)) by (intros [|[|i]] [|[|j]] Hi Hj; cbn in *; lia).
  pose proof (C103_green gauss gauss_inverts 2 dimer delta no_hyb [0; 1]%nat [0; 1]%nat 0 (flat 2) [ci; (0, 2)] (repeat (map (fun _ => rcx 0) [ci; (0, 2)]) 2) mem two_classes eq_refl ltac:(discriminate) ltac:(discriminate) eq_refl) as G.
  specialize (G ltac:(split; [reflexivity|intros r [<-|[<-|[]]]; reflexivity]) ltac:(left; discriminate) PD). cbv zeta in G.
  assert (L : forall j i k, (j < 2)%nat -> (i < 2)%nat -> lat 0 dimer delta no_hyb (fun _ => rcx 0) (nth j [ci; (0, 2)] (rcx 0)) i k =
     lat 0 dimer delta no_hyb (fun i => nth j (nth (nth i [0; 1]%nat 0%nat) (repeat (map (fun _ : cx => rcx 0) [ci; (0, 2)]) 2) []) (rcx 0)) (nth j [ci; (0, 2)] (rcx 0)) i k).
  { intros [|[|j]] [|[|i]] k Hj Hi; try lia; reflexivity. }
  assert (E : forall j, (j < 2)%nat -> exists y, 0 < y /\ nth j [ci; (0, 2)] (rcx 0) = (0, y)) by (intros [|[|j]] Hj; [exists 1|exists 2|lia]; split; try lra; reflexivity).
  destruct (nl_call gauss mem _ _) as [G0|e].
  - destruct G as (LG & RG & V). destruct G0 as [|a [|b [|? ?]]]; try discriminate LG. exists a, b. split; [reflexivity|].
    assert (LA : length a = 2%nat) by (apply RG; now left). assert (LB : length b = 2%nat) by (apply RG; right; now left).
    destruct a as [|a0 [|a1 [|? ?]]]; try discriminate LA. destruct b as [|b0 [|b1 [|? ?]]]; try discriminate LB.
    assert (VV : forall j (y : R), (j < 2)%nat -> 0 < y -> nth j [ci; (0, 2)] (rcx 0) = (0, y) -> nth j [a0; a1] (rcx 0) = (0, - y / (y * y + 1)) /\ nth j [b0; b1] (rcx 0) = (0, - y / (y * y + 1))).
    { intros j y Hj Hy Ey. destruct (V j Hj) as (g & I & W). pose proof (W 0%nat ltac:(cbn; lia)) as W0. pose proof (W 1%nat ltac:(cbn; lia)) as W1. cbn [nth] in W0, W1 |- *. rewrite W0, W1.
      pose proof (dimer_inverse y ltac:(nra)) as DI. rewrite <- Ey in DI.
      pose proof (inverse_ext 2 _ _ _ (fun i k Hi Hk => L j i k Hj Hi) DI) as DI'.
      split; [rewrite (inverse_unique 2 _ _ _ I DI' 0%nat 0%nat)|rewrite (inverse_unique 2 _ _ _ I DI' 1%nat 1%nat)]; auto. }
    destruct (VV 0%nat 1 ltac:(lia) ltac:(lra) eq_refl) as [X0 X1]. destruct (VV 1%nat 2 ltac:(lia) ltac:(lra) eq_refl) as [X2 X3]. cbn [nth] in *. subst.
    split; repeat f_equal; lra.
  - exfalso. destruct G as (j & Hj & N). apply N. destruct (E j Hj) as (y & Hy & Ey). eexists.
    apply (inverse_ext 2 _ _ _ (fun i k Hi Hk => L j i k Hj Hi)). rewrite Ey. apply dimer_inverse. nra.
Qed.
(** Three sites, the first two equivalent. *)
Example C103_case_index : forall mem, nl_call gauss mem (nl_set_local (nl_update (nl_init 3 (fun _ _ => rcx 0) delta no_hyb [0; 2]%nat [0; 0; 1]%nat None) 0) [flat 2]) [ci] = Err IndexError.
Proof.
  intros mem. apply (C103_index_refuted gauss gauss_inverts) with (sigma := repeat [rcx 0] 2); try reflexivity; try discriminate.
  - split; [intros [|[|[|i]]] Hi; cbn in *; lia|]. intros [|[|a]] Ha; cbn in *; try lia; repeat split; try lia. intros [|[|i]] Hi; cbn; lia.
  - split; [reflexivity|]. intros r [<-|[<-|[]]]; reflexivity.
  - left. discriminate.
  - intros P. specialize (P 0%nat 1%nat ltac:(cbn; lia) ltac:(cbn; lia) eq_refl). discriminate.
  - exists (fun i j => if (i =? j)%nat then (0, - 1) else rcx 0). intros i j Hi Hj.
    assert (T : forall f, csum 3 f = cxadd (cxadd (f 0%nat) (f 1%nat)) (f 2%nat)) by (intros f; apply cx_eq; rewrite ?csum_re, ?csum_im; unfold rsum, nsum; simpl; ring).
    rewrite !T. unfold lat, no_hyb, delta. cbn [nth repeat].
    destruct i as [|[|[|]]], j as [|[|[|]]]; try lia; cbn [Nat.eqb nth]; split; apply cx_eq; cbv [cxmul cxadd cxsub cxopp ci rcx re im fst snd]; ring.
Qed.
(** Two equivalent sites at two frequencies: the second value is whatever the memory held. *)
Example C103_case_single : forall m : cx, exists a, nl_call gauss (fun _ _ => m) (nl_set_local (nl_update (nl_init 2 dimer delta no_hyb [0]%nat [0; 0]%nat None) 0) [flat 1]) [ci; (0, 2)] = Ok [[a; m]].
Proof.
  intros m.
  assert (CL : classes [0; 0]%nat [0]%nat). { split; [intros [|[|i]] Hi; cbn in *; lia|]. intros [|a] Ha; cbn in *; try lia. repeat split; lia. }
  pose proof (C103_single_refuted gauss gauss_inverts 2 dimer delta no_hyb [0]%nat [0; 0]%nat 0 (flat 1) [ci; (0, 2)] [[rcx 0; rcx 0]] (fun _ _ => m) CL eq_refl ltac:(discriminate) ltac:(discriminate) eq_refl ltac:(split; [reflexivity|intros r [<-|[]]; reflexivity]) [rcx 0; rcx 0] eq_refl eq_refl) as G.
  cbv zeta in G. destruct (nl_call gauss _ _ _) as [G0|e].
  - destruct G as (g & row & _ & -> & L & _ & V). destruct row as [|a [|b [|? ?]]]; try discriminate L. exists a. specialize (V 1%nat ltac:(cbn; lia)). cbn in V. now rewrite V.
  - exfalso. apply G. eexists. apply (inverse_ext 2 (lat 0 dimer delta no_hyb (fun _ => rcx 0) (0, 1))); [|apply dimer_inverse; lra].
    intros [|[|i]] j Hi Hj; try lia; reflexivity.
Qed.

(** ** C104: the hybridisation *)
Theorem C104_delta : forall inv n H S Hyb neq ids mu f zs sigma mem, classes ids neq -> length ids = n -> f zs = Ok sigma ->
  (length sigma = length neq /\ forall r, In r sigma -> length r = length zs) ->
  let l := nl_set_local (nl_update (nl_init n H S Hyb neq ids None) mu) [f] in
  forall G D, nl_call inv mem l zs = Ok G -> nl_Delta inv mem l zs = Ok D ->
  length D = length neq /\ (forall r, In r D -> length r = length zs) /\
  forall a j, (a < length neq)%nat -> (j < length zs)%nat -> let i := nth a neq 0%nat in let z := nth j zs (rcx 0) in
    nth j (nth a D []) (rcx 0) = cxsub (cxsub (cxsub (cxadd z (rcx mu)) (H i i)) (nth j (nth (nth i ids 0%nat) sigma []) (rcx 0))) (cxinv (nth j (nth a G []) (rcx 0))).
Proof. exact delta1_values. Qed.
Print Assumptions C104_delta.

(** The path through the other sites; their equations do not contain the self-energy of site i. *)
Theorem C104_paths : forall n mu H S Hyb sg z g i y, inverse n (lat mu H S Hyb sg z) g -> (i < n)%nat -> S i i = rcx 1 ->
  through n (lat mu H S Hyb sg z) i y ->
  cxsub (cxsub (cxsub (cxadd z (rcx mu)) (H i i)) (sg i)) (cxinv (g i i)) =
  cxadd (Hyb z i i) (csum n (fun l => if (l =? i)%nat then rcx 0 else cxmul (lat mu H S Hyb sg z i l) (y l))).
Proof. exact hybridisation_schur. Qed.
Print Assumptions C104_paths.

Theorem C104_paths_exist : forall n x g i, inverse n x g -> (i < n)%nat -> g i i <> rcx 0 -> exists y, through n x i y.
Proof. exact (fun n x g i I Hi N => ex_intro _ _ (through_exists n x g i I Hi N)). Qed.
Print Assumptions C104_paths_exist.

(** Causality. *)
Theorem C104_green_causal : forall n mu H S Hyb sg z g i, inverse n (lat mu H S Hyb sg z) g -> (i < n)%nat ->
  hermitian n H -> hermitian n S -> positive n S -> causal n (Hyb z) -> (forall j, (j < n)%nat -> im (sg j) <= 0) -> 0 < im z ->
  im (g i i) < 0.
Proof. exact green_causal. Qed.
Print Assumptions C104_green_causal.

Theorem C104_causal : forall n mu H Hyb sg z g i, inverse n (lat mu H delta Hyb sg z) g -> (i < n)%nat ->
  hermitian n H -> causal n (Hyb z) -> (forall j, (j < n)%nat -> im (sg j) <= 0) -> 0 < im z ->
  im (cxsub (cxsub (cxsub (cxadd z (rcx mu)) (H i i)) (sg i)) (cxinv (g i i))) <= 0.
Proof. exact hybridisation_causal. Qed.
Print Assumptions C104_causal.

(** Two sites that overlap and do nothing else: s^2 (z + mu), of positive imaginary part. *)
Theorem C104_overlap_refuted : forall (s mu : R) z, s * s <> 1 -> cxadd z (rcx mu) <> rcx 0 ->
  let S := fun i j => if (i =? j)%nat then rcx 1 else rcx s in
  exists g, inverse 2 (lat mu (fun _ _ => rcx 0) S (fun _ _ _ => rcx 0) (fun _ => rcx 0) z) g /\ forall i, (i < 2)%nat ->
    cxsub (cxsub (cxsub (cxadd z (rcx mu)) (rcx 0)) (rcx 0)) (cxinv (g i i)) = cxmul (rcx (s * s)) (cxadd z (rcx mu)).
Proof. exact hybridisation_overlap. Qed.
Print Assumptions C104_overlap_refuted.

(** The dimer at [i]: hybridisation 1/z. *)
Example C104_case : exists g y, inverse 2 (lat 0 dimer delta no_hyb (fun _ => rcx 0) ci) g /\ through 2 (lat 0 dimer delta no_hyb (fun _ => rcx 0) ci) 0 y /\
  cxadd (no_hyb ci 0%nat 0%nat) (csum 2 (fun l => if (l =? 0)%nat then rcx 0 else cxmul (lat 0 dimer delta no_hyb (fun _ => rcx 0) ci 0%nat l) (y l))) = cxinv ci /\
  im (cxinv ci) < 0.
Proof.
  eexists. exists (fun _ => (0, 1)). split; [apply (dimer_inverse 1); lra|]. split; [|split].
  - intros [|[|j]] Hj N; try lia. rewrite two. cbn [Nat.eqb]. unfold lat, dimer, no_hyb, delta. cbn [Nat.eqb]. apply cx_eq; cbv [cxmul cxadd cxsub cxopp ci rcx re im fst snd]; ring.
  - rewrite two. cbn [Nat.eqb]. unfold lat, dimer, no_hyb, delta. cbn [Nat.eqb]. apply cx_eq; cbv [cxinv cxn2 cxmul cxadd cxsub cxopp ci rcx re im fst snd]; field.
  - unfold cxinv, cxn2, ci, re, im. cbn [fst snd]. lra.
Qed.

(** ** C105: several processes *)
Theorem C105_cover : forall (A : Type) size (l : list A), (0 < size)%nat ->
  concat (map (fun r => idx_world (Some (size, r)) l) (seq 0 size)) = firstn (size * (length l / size)) l /\
  (concat (map (fun r => idx_world (Some (size, r)) l) (seq 0 size)) = l <-> (length l mod size = 0)%nat).
Proof. exact (fun A size l P => conj (world_cover size l) (world_all size l P)). Qed.
Print Assumptions C105_cover.

Theorem C105_green : forall inv, inverts inv -> forall n H S Hyb neq ids mu size rank fs zs parts mem,
  classes ids neq -> length ids = n -> zs <> [] -> (0 < length neq / size)%nat -> length fs = size -> (rank < size)%nat ->
  mapM (fun f : list cx -> res rows => f zs) fs = Ok parts ->
  (forall p, In p parts -> length p = (length neq / size)%nat /\ forall r, In r p -> length r = length zs) ->
  (length neq mod size = 0)%nat -> (length neq <> 1 \/ length zs = 1)%nat -> pairwise_different (firstn (length neq) ids) ->
  let l := nl_set_local (nl_update (nl_init n H S Hyb neq ids (Some (size, rank))) mu) fs in
  let stride := (length neq / size)%nat in
  let x := fun j => lat mu H S Hyb (fun i => nth j (nth (nth i ids 0%nat) (concat parts) []) (rcx 0)) (nth j zs (rcx 0)) in
  match nl_call inv mem l zs with
  | Ok G => length G = stride /\ (forall r, In r G -> length r = length zs) /\
      forall j, (j < length zs)%nat -> exists g, inverse n (x j) g /\
        forall a, (a < stride)%nat -> nth j (nth a G []) (rcx 0) = g (nth (rank * stride + a) neq 0%nat) (nth (rank * stride + a) neq 0%nat)
  | Err _ => exists j, (j < length zs)%nat /\ ~ exists g, inverse n (x j) g
  end.
Proof. exact greenW. Qed.
Print Assumptions C105_green.

(** A remainder: every process raises. *)
Theorem C105_remainder_refuted : forall inv n H S Hyb neq ids mu size rank fs zs parts mem,
  classes ids neq -> length ids = n -> zs <> [] -> (0 < length neq / size)%nat -> length fs = size -> (rank < size)%nat ->
  mapM (fun f : list cx -> res rows => f zs) fs = Ok parts ->
  (forall p, In p parts -> length p = (length neq / size)%nat /\ forall r, In r p -> length r = length zs) ->
  (length neq mod size <> 0)%nat ->
  nl_call inv mem (nl_set_local (nl_update (nl_init n H S Hyb neq ids (Some (size, rank))) mu) fs) zs = Err IndexError.
Proof. exact greenW_remainder. Qed.
Print Assumptions C105_remainder_refuted.

Example C105_case : map (fun r => idx_world (Some (2%nat, r)) [0; 1; 2; 3]%nat) [0; 1]%nat = [[0; 1]; [2; 3]]%nat /\
  map (fun r => idx_world (Some (2%nat, r)) [0; 1; 2; 3; 4]%nat) [0; 1]%nat = [[0; 1]; [2; 3]]%nat /\
  forall mem, nl_call gauss mem (nl_set_local (nl_update (nl_init 3 (fun _ _ => rcx 0) delta no_hyb [0; 1; 2]%nat [0; 1; 2]%nat (Some (2%nat, 0%nat))) 0) [flat 1; flat 1]) [ci] = Err IndexError.
Proof.
  split; [reflexivity|]. split; [reflexivity|]. intros mem. apply C105_remainder_refuted with (parts := [[[rcx 0]]; [[rcx 0]]]); try reflexivity; try discriminate; try (cbn; lia).
  - split; [intros [|[|[|i]]] Hi; cbn in *; lia|]. intros [|[|[|a]]] Ha; cbn in *; try lia; repeat split; try lia; intros [|[|i]] Hi; cbn; lia.
  - intros p [<-|[<-|[]]]; (split; [reflexivity|]; intros r [<-|[]]; reflexivity).
Qed.

(** ** C106: occupations, self-consistency, moments *)
(** The result of every site is twice the matsum_gf value of the function of its class. *)
Theorem C106_occupations : forall inv, inverts inv -> forall n H S Hyb neq ids mu0 mu (ss : list (cx -> cx)) mem,
  classes ids neq -> length ids = n -> length ss = length neq ->
  let x := fun z => lat mu H S Hyb (fun i => nth (nth i ids 0%nat) ss (fun _ => rcx 0) z) z in
  forall L beta, 0 < beta -> (length neq <> 1)%nat -> pairwise_different (firstn (length neq) ids) ->
  (forall i, (i <= L)%nat -> exists g, inverse n (x (0, matsubara beta i)) g) ->
  exists occ, nl_integrate inv mem (nl_set_local (nl_update (nl_init n H S Hyb neq ids None) mu0) [fun zs => Ok (map (fun s => map s zs) ss)]) mu (Datatypes.S L) beta = Ok occ /\ length occ = n /\
  forall i, (i < n)%nat -> let r := nth (nth i ids 0%nat) neq 0%nat in
    exists m, matsum_gf (fun _ zs => Ok (map (fun z => match inv n (x z) with Ok g => g r r | Err _ => rcx 0 end) zs)) mu0 mu (Datatypes.S L) beta = (Ok m, mu0) /\ nth i occ 0 = 2 * m.
Proof. exact occupations. Qed.
Print Assumptions C106_occupations.

(** A step whose hybridisation is reproduced by the fitted baths: lattice and impurity functions agree on every site. *)
Theorem C106_fixed_point : forall fitter solver inv (n : nat) (H S : mat) (Hyb : cx -> mat) (neq ids : list nat) (mu : R) (f : list cx -> res rows) (delta : rows) (gs gs' : list gfimp) (l' : nloc)
    (zs : list cx) (mem : nat -> nat -> cx) (G D : rows) (a j : nat) (dg : gfimp) (Gi : cx),
  classes ids neq -> length ids = n -> length gs = length neq -> zs <> [] ->
  nano_step fitter solver delta gs (nl_set_local (nl_update (nl_init n H S Hyb neq ids None) mu) [f]) = Ok (gs', l') ->
  nl_call inv mem l' zs = Ok G -> nl_Delta inv mem l' zs = Ok D ->
  (a < length neq)%nat -> (j < length zs)%nat -> imp_H (nth a gs dg) <> [] -> im (H (nth a neq 0%nat) (nth a neq 0%nat)) = 0 ->
  nth j (nth a D []) (rcx 0) = delta1 (imp_x (nth a gs' dg)) (nth j zs (rcx 0)) ->
  nth j (nth a G []) (rcx 0) <> rcx 0 ->
  imp_call (nth a gs' dg) (nth j zs (rcx 0)) = Ok Gi -> Gi = nth j (nth a G []) (rcx 0).
Proof. exact fixed_point. Qed.
Print Assumptions C106_fixed_point.

(** Chemical potentials: one for all impurities, one for each, or an error. *)
Theorem C106_update : forall (gs : list gfimp) (mu : list R),
  imps_update gs mu = if (length mu =? length gs)%nat then Ok (map (fun p : gfimp * R => imp_update (fst p) (snd p)) (combine gs mu))
    else match mu with [m] => Ok (map (fun g => imp_update g m) gs) | _ => Err ValueError end.
Proof. exact update_shapes. Qed.
Print Assumptions C106_update.

(** Moments at the temperature of the first impurity, whatever the numbers of sites. *)
Theorem C106_moments : forall imps : list oimp, (forall g, In g imps -> (0 < oi_n g)%nat /\ (forall s, In s (oi_espace g) -> sector_ok (oi_n g) s) /\
    existsb (fun s => negb (length (o_vals s) =? 0)%nat) (oi_espace g) = true) ->
  exists m, local_moments imps = Ok m /\ length m = length imps /\
  forall i dg, (i < length imps)%nat -> let g := nth i imps dg in let beta := oi_beta (nth 0 imps dg) in
    nth i m 0 = thermal (oi_espace g) (oi_egs g) beta (oi_n g) 0 - thermal (oi_espace g) (oi_egs g) beta (oi_n g) (oi_n g).
Proof. exact moments. Qed.
Print Assumptions C106_moments.

(** The dimer at half filling: one electron per site, for any number of frequencies. *)
Example C106_case_occupations : forall mem L beta, 0 < beta ->
  nl_integrate gauss mem (nl_set_local (nl_update (nl_init 2 dimer delta no_hyb [0; 1]%nat [0; 1]%nat None) 5) [fun zs => Ok (map (fun s => map s zs) [fun _ => rcx 0; fun _ => rcx 0])]) 0 (Datatypes.S L) beta = Ok [1; 1].
Proof.
  intros mem L beta B.
  assert (PD : pairwise_different (firstn (length [0; 1]%nat) [0; 1]%nat)) by (intros [|[|i]] [|[|j]] Hi Hj; cbn in *; lia).
  assert (DI : forall k, exists g, inverse 2 (lat 0 dimer delta no_hyb (fun i => nth (nth i [0; 1]%nat 0%nat) [fun _ => rcx 0; fun _ => rcx 0] (fun _ => rcx 0) (0, matsubara beta k)) (0, matsubara beta k)) g).
  { intros i. eexists. apply (inverse_ext 2 (lat 0 dimer delta no_hyb (fun _ => rcx 0) (0, matsubara beta i))); [|apply dimer_inverse; pose proof (Rle_0_sqr (matsubara beta i)); unfold Rsqr in *; lra].
    intros [|[|a]] b Ha Hb; try lia; reflexivity. }
  destruct (C106_occupations gauss gauss_inverts 2 dimer delta no_hyb [0; 1]%nat [0; 1]%nat 5 0 [fun _ => rcx 0; fun _ => rcx 0] mem two_classes eq_refl eq_refl L beta B ltac:(discriminate) PD ltac:(intros i _; apply DI)) as (occ & E & Lo & V).
  rewrite E. assert (forall i, (i < 2)%nat -> nth i occ 0 = 1) as W.
  { intros i Hi. destruct (V i Hi) as (m & M & ->). 
    rewrite (matsum_closed _ _ _ _ _ _ B (fun z => eq_refl)) in M. apply pair_equal_spec in M. destruct M as [M _]. apply DmftProofs.ok_inj in M. rewrite <- M. rewrite matsum_half; [lra|].
    intros k. cbv beta zeta. match goal with |- context[gauss 2 ?x] => pose proof (gauss_inverts 2%nat x) as IX; destruct (gauss 2 x) as [g|] end; [|exfalso; apply IX, DI].
    assert (I2 : inverse 2 (lat 0 dimer delta no_hyb (fun _ => rcx 0) (0, matsubara beta k)) g) by (apply (inverse_ext 2 (lat 0 dimer delta no_hyb (fun i => nth (nth i [0; 1]%nat 0%nat) [fun _ => rcx 0; fun _ => rcx 0] (fun _ => rcx 0) (0, matsubara beta k)) (0, matsubara beta k))); [intros [|[|a]] b Ha Hb; try lia; reflexivity|exact IX]).
    pose proof (dimer_inverse (matsubara beta k) ltac:(pose proof (Rle_0_sqr (matsubara beta k)); unfold Rsqr in *; lra)) as DI2.
    destruct i as [|[|i]]; [| |lia]; cbn [nth];  [rewrite (inverse_unique 2 _ _ _ I2 DI2 0%nat 0%nat)|rewrite (inverse_unique 2 _ _ _ I2 DI2 1%nat 1%nat)]; auto. }
  destruct occ as [|a [|b [|? ?]]]; try discriminate Lo. pose proof (W 0%nat ltac:(lia)) as W0. pose proof (W 1%nat ltac:(lia)) as W1. cbn [nth] in W0, W1. now subst.
Qed.

(** One site in a bath 1/z, no interaction: the step reproduces the hybridisation. *)
Example C106_case_step : exists gs' l' G D Gi,
  nano_step (fun _ _ => [0; 1]) (fun _ _ => Ok (fun z => cxinv (cxsub z (cxinv z)))) [[rcx 0]] [mkImp 2 [0; 1] [0; 0; 0; 0] 0 None]
    (nl_set_local (nl_update (nl_init 1 (fun _ _ => rcx 0) delta (fun z _ _ => cxinv z) [0]%nat [0]%nat None) 0) [flat 1]) = Ok (gs', l') /\
  nl_call (fun _ x => Ok (fun i j => cxinv (x i j))) (fun _ _ => rcx 0) l' [ci] = Ok G /\ nl_Delta (fun _ x => Ok (fun i j => cxinv (x i j))) (fun _ _ => rcx 0) l' [ci] = Ok D /\
  nth 0 (nth 0 D []) (rcx 0) = delta1 (imp_x (nth 0 gs' (mkImp 0 [] [] 0 None))) ci /\ nth 0 (nth 0 G []) (rcx 0) <> rcx 0 /\
  imp_call (nth 0 gs' (mkImp 0 [] [] 0 None)) ci = Ok Gi /\ Gi = (0, - (1 / 2)).
Proof.
  eexists _, _, _, _, _. split; [reflexivity|]. split; [reflexivity|]. split; [reflexivity|].
  split; [|split; [|split; [reflexivity|]]].
  - cbn. apply cx_eq; cbv -[Rplus Rmult Rminus Rinv Rdiv Ropp]; field.
  - intros E. assert (V : forall x : cx, x = rcx 0 -> x = (0, - (1 / 2)) -> False) by (intros x -> X; apply (f_equal im) in X; cbn in X; lra).
    apply (V _ E). cbn. apply cx_eq; cbv -[Rplus Rmult Rminus Rinv Rdiv Ropp]; field.
  - apply cx_eq; cbv -[Rplus Rmult Rminus Rinv Rdiv Ropp]; field.
Qed.

(** One site with energies 0 (up) and 1 (down) at two temperatures. *)
Definition level (up dw : N) (e : R) : osct := mkosct (StSz [up] [dw]) [e] (mkarr RRing true [1; 1]%nat [1]).
Definition split_level (beta : R) : oimp := mkOimp [level 1 0 0; level 0 1 1] 0 beta 1.
Lemma split_level_thermal beta : thermal [level 1 0 0; level 0 1 1] 0 beta 1 0 - thermal [level 1 0 0; level 0 1 1] 0 beta 1 1 = (1 - exp (- beta)) / (1 + exp (- beta)).
Proof.
  assert (E : sector_expect 1 (level 1 0 0) 0 0 = 1 /\ sector_expect 1 (level 1 0 0) 1 0 = 0 /\ sector_expect 1 (level 0 1 1) 0 0 = 0 /\ sector_expect 1 (level 0 1 1) 1 0 = 1).
  { repeat split; cbv -[Rplus Rmult]; ring. }
  destruct E as (E1 & E2 & E3 & E4).
  unfold thermal, thermal_Z, rsum, nsum. cbn [map fold_right bsum level o_vals length seq].
  change (mkosct (StSz [1%N] [0%N]) [0] (mkarr RRing true [1; 1]%nat [1])) with (level 1 0 0).
  change (mkosct (StSz [0%N] [1%N]) [1] (mkarr RRing true [1; 1]%nat [1])) with (level 0 1 1).
  rewrite E1, E2, E3, E4. unfold boltzmann. cbn [level o_vals nth].
  replace (- beta * (0 - 0)) with 0 by ring. replace (- beta * (1 - 0)) with (- beta) by ring. rewrite exp_0. pose proof (exp_pos (- beta)).
  cbn. field. lra.
Qed.
Lemma split_level_ok beta s : In s (oi_espace (split_level beta)) -> sector_ok 1 s.
Proof.
  intros [<-|[<-|[]]]; [exists 1%nat, 0%nat, [1%N], [0%N]|exists 0%nat, 1%nat, [0%N], [1%N]]; (split; [lia|split; [lia|split; [lia|]]]);
  repeat split; try reflexivity; intros [|j] Hj; try (cbn in Hj; lia); cbv -[Rplus Rmult]; ring.
Qed.

Lemma moments_beta : forall beta beta', local_moments [split_level beta; split_level beta'] =
  Ok [(1 - exp (- beta)) / (1 + exp (- beta)); (1 - exp (- beta)) / (1 + exp (- beta))] /\
  thermal (oi_espace (split_level beta')) 0 beta' 1 0 - thermal (oi_espace (split_level beta')) 0 beta' 1 1 = (1 - exp (- beta')) / (1 + exp (- beta')) /\
  ((1 - exp (- beta)) / (1 + exp (- beta)) = (1 - exp (- beta')) / (1 + exp (- beta')) -> beta = beta').
Proof.
  intros beta beta'.
  assert (H : forall g, In g [split_level beta; split_level beta'] -> (0 < oi_n g)%nat /\ (forall s, In s (oi_espace g) -> sector_ok (oi_n g) s) /\
    existsb (fun s => negb (length (o_vals s) =? 0)%nat) (oi_espace g) = true).
  { intros g [<-|[<-|[]]]; (split; [cbn; lia|split; [apply split_level_ok|reflexivity]]). }
  destruct (moments _ H) as (m & M & L & V). split; [|split; [apply split_level_thermal|]].
  - rewrite M. destruct m as [|a [|b [|]]]; try discriminate L.
    pose proof (V 0%nat (split_level 0) ltac:(cbn; lia)) as V0. pose proof (V 1%nat (split_level 0) ltac:(cbn; lia)) as V1.
    cbn [nth split_level oi_espace oi_egs oi_beta oi_n] in V0, V1. rewrite split_level_thermal in V0, V1. now subst.
  - pose proof (exp_pos (- beta)) as P. pose proof (exp_pos (- beta')) as P'. intros E.
    assert (X : exp (- beta) = exp (- beta')).
    { apply (f_equal (fun x => x * ((1 + exp (- beta)) * (1 + exp (- beta'))))) in E. field_simplify in E; [|lra|lra]. lra. }
    apply exp_inv in X. lra.
Qed.

(** Two impurities with different temperatures: the second moment is taken at the
    temperature of the first, not at its own. *)
Theorem C106_beta_refuted : forall beta beta', local_moments [split_level beta; split_level beta'] =
  Ok [(1 - exp (- beta)) / (1 + exp (- beta)); (1 - exp (- beta)) / (1 + exp (- beta))] /\
  thermal (oi_espace (split_level beta')) 0 beta' 1 0 - thermal (oi_espace (split_level beta')) 0 beta' 1 1 = (1 - exp (- beta')) / (1 + exp (- beta')) /\
  ((1 - exp (- beta)) / (1 + exp (- beta)) = (1 - exp (- beta')) / (1 + exp (- beta')) -> beta = beta').
Proof. exact moments_beta. Qed.
Print Assumptions C106_beta_refuted.
