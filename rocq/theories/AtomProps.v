(** Property C133: a site that no hopping connects to the rest is an atom. *)
From Coq Require Import Reals String List Arith NArith ZArith Bool Lia Lra.
From Verif Require Import Base RBase RLin CBase OperatorsSpec FockSpec SectorModel LocalModel HoppingModel NonLocalModel MatvecModel MbModel MbSpec EspaceModel ProjModel ProjSpec LanczosModel LanczosSpec
  CfModel CfSpec GfModel GfSpec GmModel GmSpec ExactSpec ExactProofs ExactMoreProofs EighProofs ObsModel ObsSpec OccSpec GflModel GflSpec GflExProofs AgrModel AgrInstProofs AgrMainProofs VisSpec VisExProofs FitModel FitSpec DmftModel DmftSpec
  SiamSpec SiamModel SiamInstProofs SiamExProofs AtomSpec AtomProofs AtomInstProofs AtomMainProofs AtomImpProofs.
Import ListNotations.
Local Open Scope R_scope.

(** C133, for any dictionary of eigenstates of a Hubbard Hamiltonian: if no hopping
    leaves site 0, its function has two poles, at the level and at the level plus the
    repulsion, weighted by the absence and the presence of the other spin.  The sum runs
    over [visits], the divisor over [finally] (C127). *)
Theorem C133_dictionary solve mvop tridiag eigh n s beta egs es M h u c e0 repr :
  (0 < n <= 32)%nat -> (s <= 1)%nat -> repr = "cf"%string \/ repr = "sp"%string /\ GflSpec.eigh_sound eigh ->
  sectors n es -> eigenstates n M es -> operators n mvop M -> solver n solve M ->
  krylov n mvop tridiag (Z.of_nat s) (visits solve n (Z.of_nat s) [] es) (fun op p' q' t i a => exc n op (Z.of_nat s) 0 p' q' t i a) 11 ->
  hubbard_family n h u c M -> symmetric_hopping n h -> isolated n s h e0 ->
  let vis := visits solve n (Z.of_nat s) [] es in let fin := finally solve n (Z.of_nat s) es in let O := occupation n beta egs vis (other n s 0) in
  exists ge gh, build_gf_lanczos solve mvop tridiag eigh n es beta egs 0 repr (Z.of_nat s) false = Ok (fin, ge, gh) /\ gh = ge /\
  forall e eta, im (zpoint e eta) <> 0 -> gl_call ge e eta = Ok (cxdiv (two_poles e0 (u 0%nat) (Zof beta egs vis - O) O (zpoint e eta)) (rcx (Zof beta egs fin))).
Proof. exact (atom_solved solve mvop tridiag eigh n s beta egs es M h u c e0 repr). Qed.
Print Assumptions C133_dictionary.

(** All states kept: get_occupation of observs.py returns the grand canonical filling
    of the atom, whatever the other sites are. *)
Theorem C133_occupation big half n h fl V hf mu zz U : model_ok half n h fl V U -> inter_Jx RRing V = None -> (forall i j, (i < n)%nat -> (j < n)%nat -> i <> j -> U i j = 0) -> detached big n h ->
  forall eigh eigsh, eigh_contract eigh -> forall es e, build_espace RRing Rleb big half eigh eigsh n h fl V hf mu zz None "sz" = Ok (es, Some e) ->
  let lev := site_level half h hf mu U in forall beta scts, Forall2 (fun e o => stored (snd e) o) es scts ->
  exists u d, fst (get_occupation scts e beta n) = Ok (u, d) /\ nth 0 u 0 = atom_filling beta (lev 0%nat) (lev 1%nat) (U 0%nat 0%nat) /\ nth 0 d 0 = atom_filling beta (lev 1%nat) (lev 0%nat) (U 0%nat 0%nat).
Proof. exact (main_occupation big half n h fl V hf mu zz U). Qed.
Print Assumptions C133_occupation.
(** The filling lies strictly between 0 and 1. *)
Theorem C133_bounds beta e e' u : 0 < atom_filling beta e e' u < 1.
Proof. exact (filling_bounds beta e e' u). Qed.
Print Assumptions C133_bounds.

(** All states kept: both builders give the function of the atom, in closed form. *)
Theorem C133_exact big half n h fl V hf mu zz U : model_ok half n h fl V U -> inter_Jx RRing V = None -> (forall i j, (i < n)%nat -> (j < n)%nat -> i <> j -> U i j = 0) -> detached big n h ->
  forall eigh eigsh, eigh_contract eigh -> forall es e, build_espace RRing Rleb big half eigh eigsh n h fl V hf mu zz None "sz" = Ok (es, Some e) ->
  let lev := site_level half h hf mu U in forall beta s, (s <= 1)%nat -> let m := atom_filling beta (lev (1 - s)%nat) (lev (1 - (1 - s))%nat) (U 0%nat 0%nat) in
  exists g, build_gf2_exact n es beta e (Z.of_nat s) = Ok g /\
  forall a eta, im (zpoint a eta) <> 0 -> exists G, gm_call g a eta = Ok G /\ GmSpec.entry G 0 0 = two_poles (lev s) (U 0%nat 0%nat) (1 - m) m (zpoint a eta).
Proof. exact (main_exact big half n h fl V hf mu zz U). Qed.
Print Assumptions C133_exact.
Theorem C133_lanczos big half n h fl V hf mu zz U : model_ok half n h fl V U -> inter_Jx RRing V = None -> (forall i j, (i < n)%nat -> (j < n)%nat -> i <> j -> U i j = 0) -> detached big n h ->
  forall eigh eigsh, eigh_contract eigh -> forall es e, build_espace RRing Rleb big half eigh eigsh n h fl V hf mu zz None "sz" = Ok (es, Some e) ->
  let lev := site_level half h hf mu U in forall beta s tridiag eight repr, (s <= 1)%nat -> repr = "cf"%string \/ repr = "sp"%string /\ GflSpec.eigh_sound eight ->
  krylov n (product_of big half n h fl V hf mu zz) tridiag (Z.of_nat s) es (fun op p' q' t i a => exc n op (Z.of_nat s) 0 p' q' t i a) 11 ->
  let m := atom_filling beta (lev (1 - s)%nat) (lev (1 - (1 - s))%nat) (U 0%nat 0%nat) in
  exists ge gh, gf_lanczos_of big half eigh eigsh n h fl V hf mu zz tridiag eight es beta e 0 repr (Z.of_nat s) false = Ok (es, ge, gh) /\
  forall a eta, im (zpoint a eta) <> 0 -> gl_call ge a eta = Ok (two_poles (lev s) (U 0%nat 0%nat) (1 - m) m (zpoint a eta)).
Proof. exact (main_lanczos big half n h fl V hf mu zz U). Qed.
Print Assumptions C133_lanczos.

(** The two poles as a self-energy: a constant shift and one pole. *)
Theorem C133_sigma e u m z : im z <> 0 -> two_poles e u (1 - m) m z <> rcx 0 /\ cxsub (cxsub z (rcx e)) (cxinv (two_poles e u (1 - m) m z)) = atom_sigma e u m z.
Proof. exact (atom_dyson e u m z). Qed.
Print Assumptions C133_sigma.

(** The impurity object of dmft.py after any calls, when the fit leaves no bath level
    coupled; [r] is the ratio of C127 and C128, one when nothing is restored. *)
Theorem C133_impurity big half eigh eigsh tridiag eight fl hf n s beta fitter U0 mem g0 g ops delta mu :
  (2 <= n <= 32)%nat -> (s <= 1)%nat -> half + half = 1 -> eigh_contract eigh -> GflSpec.eigh_sound eight -> (forall p d, length (fitter p d) = length p) ->
  length mem = (2 * (n - 1))%nat -> imp_init n U0 mem = Ok g0 ->
  let solver := impurity_solver big half eigh eigsh tridiag eight fl hf n beta (Z.of_nat s) None false in
  foldM (imp_do fitter solver) ops g0 = Ok g ->
  let g' := imp_fit_update fitter g delta mu in let H := imp_H g' in let U := imp_U g' in let w := if hf then half * U else 0 in
  settable RRing (array_of n H) fl = true -> (forall k, (k < n - 1)%nat -> nth (n - 1 + k) (imp_x g') 0 = 0) ->
  (forall es, sectors n es -> krylov n (product_of big half n (array_of n H) fl (VArray RRing (on_site U)) hf 0 None) tridiag (Z.of_nat s) es (fun op p' q' t i a => exc n op (Z.of_nat s) 0 p' q' t i a) 11) ->
  exists g'' f vis fin egs, imp_solve solver g' = Ok g'' /\ imp_gf g'' = Some f /\
  sectors n vis /\ eigenstates n (Msec big half n (array_of n H) (VArray RRing (on_site U)) hf 0 None (on_site U)) vis /\ 0 < Zof beta egs vis <= Zof beta egs fin /\
  let r := Zof beta egs fin / Zof beta egs vis in let m := occupation n beta egs vis (other n s 0) / Zof beta egs vis in let e := ent n H 0 0 - w in
  forall z, im z <> 0 -> f z = cxdiv (two_poles e U (1 - m) m z) (rcx r) /\ f z <> rcx 0 /\
    imp_Sigma g'' z = Ok (cxadd (cxmul (rcx (1 - r)) (cxsub z (rcx e))) (cxsub (cxmul (rcx r) (atom_sigma e U m z)) (rcx w))).
Proof.
  exact (fun Hn Hs H2 HC HW HF HL HI HO Hfl HZ HK => imp_atom big half eigh eigsh tridiag eight fl hf n s beta fitter Hn Hs H2 HC HW HF U0 mem g0 g ops delta mu HL HI HO Hfl HZ HK).
Qed.
Print Assumptions C133_impurity.

(** Two sites with levels -2 and 1, repulsion 4 on both, a hopping below the threshold:
    half filled at every temperature, poles at -2 and 2, self-energy 2 + 4/z. *)
Definition pair_h : hmat RRing := H2 RRing (fun i j => match i, j with 0, 0 => -2 | 1, 1 => 1 | _, _ => / 4 end).
Definition pair_big (x : R) : bool := if Rle_lt_dec x (/ 2) then false else true.
Definition pair_U (i j : nat) : R := if (i =? j)%nat then 4 else 0.
Lemma pair_ok : model_ok (/ 2) 2 pair_h (mkflags true true true) (VArray RRing pair_U) pair_U.
Proof.
  split; [split; [lia|split; [lia|lra]]|]. split; [reflexivity|]. split; [auto|]. split; [split; exact I|]. split; [|reflexivity].
  intros sp i j Hi Hj. destruct i as [|[|]], j as [|[|]]; try lia; reflexivity.
Qed.
Lemma pair_detached : detached pair_big 2 pair_h.
Proof. intros r l Hr Hl. right. assert (l = 1%nat) as -> by lia. unfold pair_big. cbn. destruct (Rle_lt_dec _ _); [reflexivity|lra]. Qed.
Lemma pair_filling beta : atom_filling beta (-2) (-2) 4 = 1 / 2.
Proof. replace (-2) with (- (4 / 2)) by lra. apply filling_half. Qed.
Example C133_ex beta : exists es e g, build_espace RRing Rleb pair_big (/ 2) real_eigh (fun _ _ _ => Err ValueError) 2 pair_h (mkflags true true true) (VArray RRing pair_U) false 0 None None "sz" = Ok (es, Some e) /\
  build_gf2_exact 2 es beta e 0 = Ok g /\ forall a eta, im (zpoint a eta) <> 0 -> exists G, gm_call g a eta = Ok G /\ GmSpec.entry G 0 0 = two_poles (-2) 4 (1 / 2) (1 / 2) (zpoint a eta).
Proof.
  pose proof pair_ok as MO. pose proof MO as ((Hn1 & Hn2 & H2) & HU & HJ & (HSx & HSp) & HSm & Hset).
  destruct (exact_runs pair_big (/ 2) 2 pair_h (mkflags true true true) (VArray RRing pair_U) false 0 None pair_U real_eigh (fun _ _ _ => Err ValueError) Hn1 Hn2 H2 HU HJ HSx HSp HSm Hset real_eigh_contract) as (es & o & HB).
  destruct (exact_egs pair_big (/ 2) 2 pair_h (mkflags true true true) (VArray RRing pair_U) false 0 None pair_U real_eigh (fun _ _ _ => Err ValueError) Hn1 Hn2 H2 HU HJ HSx HSp HSm Hset real_eigh_contract es o HB) as (e & -> & _).
  assert (HD : forall i j, (i < 2)%nat -> (j < 2)%nat -> i <> j -> pair_U i j = 0) by (intros i j _ _ NE; unfold pair_U; destruct (Nat.eqb_spec i j); [contradiction|reflexivity]).
  destruct (C133_exact pair_big (/ 2) 2 pair_h (mkflags true true true) (VArray RRing pair_U) false 0 None pair_U MO eq_refl HD pair_detached real_eigh (fun _ _ _ => Err ValueError) real_eigh_contract es e HB beta 0%nat ltac:(lia)) as (g & E & Q).
  exists es, e, g. split; [exact HB|]. split; [exact E|]. intros a eta Hz. destruct (Q a eta Hz) as (G & C & P). exists G. split; [exact C|]. rewrite P.
  unfold site_level. cbn [hspin pair_h Nat.sub]. change (pair_U 0 0) with 4. replace (-2 + 0 - 0) with (-2) by lra. rewrite pair_filling. f_equal. lra.
Qed.
Example C133_ex_sigma z : im z <> 0 -> atom_sigma (-2) 4 (1 / 2) z = cxadd (rcx 2) (cxdiv (rcx 4) z).
Proof. intros Hz. unfold atom_sigma. replace (4 * (1 / 2)) with 2 by field. replace (4 * 4 * (1 / 2 * (1 - 1 / 2))) with 4 by field. replace (-2 + 4 * (1 - 1 / 2)) with 0 by field. do 2 f_equal. destruct z as [a b]. apply cx_eq; cbn; ring. Qed.
(** The impurity object with levels -1 and 1 left uncoupled. *)
Definition off_fit (p : list R) (d : list cx) : list R := if (length p =? 4)%nat then [-1; 1; 0; 0] else p.
Definition off_solver := impurity_solver (fun _ => true) (/ 2) real_eigh (fun _ _ _ => Err ValueError) (fun _ _ => Err ValueError) real_eight (mkflags true true true) false 3 10 (Z.of_nat 0) None false.
Example C133_ex_impurity : exists g0 g r m, imp_init 3 4 [0; 0; 0; 0] = Ok g0 /\ imp_solve off_solver (imp_fit_update off_fit g0 [] 2) = Ok g /\ 1 <= r /\
  forall z, im z <> 0 -> imp_Sigma g z = Ok (cxadd (cxmul (rcx (1 - r)) (cxsub z (rcx (-(2))))) (cxsub (cxmul (rcx r) (atom_sigma (-(2)) 4 m z)) (rcx 0))).
Proof.
  assert (G : exists g0, imp_init 3 4 [0; 0; 0; 0] = Ok g0 /\ imp_H (imp_fit_update off_fit g0 [] 2) = [-(2); 0; 0;  0; -1; 0;  0; 0; 1] /\ imp_x (imp_fit_update off_fit g0 [] 2) = [-1; 1; 0; 0] /\ imp_U (imp_fit_update off_fit g0 [] 2) = 4)
    by (eexists; split; [reflexivity|split; [reflexivity|split; reflexivity]]).
  destruct G as (g0 & E0 & EH & EX & EU). exists g0.
  destruct (C133_impurity (fun _ => true) (/ 2) real_eigh (fun _ _ _ => Err ValueError) (fun _ _ => Err ValueError) real_eight (mkflags true true true) false 3 0 10 off_fit 4 [0; 0; 0; 0] g0 g0 [] [] 2
    ltac:(lia) ltac:(lia) ltac:(lra) real_eigh_contract real_eight_sound) as (g & f & vis & fin & egs & E & EF & _ & _ & VZ & PT).
  - intros p d. unfold off_fit. destruct (Nat.eqb_spec (length p) 4) as [->|]; reflexivity.
  - reflexivity.
  - exact E0.
  - reflexivity.
  - reflexivity.
  - rewrite EX. intros k Hk. destruct k as [|[|]]; [reflexivity|reflexivity|lia].
  - intros es _. apply small_krylov. lia.
  - exists g, (Zof 10 egs fin / Zof 10 egs vis), (occupation 3 10 egs vis (other 3 0 0) / Zof 10 egs vis). split; [exact E0|]. split; [exact E|]. split.
    + apply (Rmult_le_reg_r (Zof 10 egs vis)); [lra|]. unfold Rdiv. rewrite Rmult_assoc, Rinv_l; lra.
    + intros z Hz. destruct (PT z Hz) as (_ & _ & Q). cbv zeta in Q. rewrite EU, EH in Q. change (ent 3 [-(2); 0; 0;  0; -1; 0;  0; 0; 1] 0 0) with (-(2)) in Q. replace (-(2) - 0) with (-(2)) in Q by lra. exact Q.
Qed.
