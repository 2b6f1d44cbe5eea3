(** Property C128: the self-energy of the impurity model. *)
From Coq Require Import Reals String List Arith NArith ZArith Bool Lia Lra.
From Verif Require Import Base RBase RLin CBase OperatorsSpec FockSpec SectorModel LocalModel HoppingModel NonLocalModel MatvecModel MbModel MbSpec EspaceModel ProjModel ProjSpec LanczosModel LanczosSpec
  CfModel CfSpec GfModel GfSpec GmSpec ExactSpec EighProofs GflModel GflSpec GflExProofs AgrModel AgrInstProofs AgrMainProofs VisSpec VisExProofs FitModel FitSpec DmftModel DmftSpec
  SiamSpec SiamModel SiamInstProofs SiamImpProofs SiamExProofs.
Import ListNotations.
Local Open Scope R_scope.

(** C128, for any dictionary of eigenstates of a star-shaped Hamiltonian with a
    repulsion on site 0: off the real axis the function of site 0 never vanishes;
    in the upper half plane its imaginary part and that of the self-energy are
    not positive; without repulsion the self-energy is a multiple of the bare
    inverse; far from the real axis it tends to the repulsion times the occupation
    of the other spin.  The sum runs over [visits], the divisor over [finally]
    (C127); the two weights enter through their ratio only. *)
Theorem C128_dictionary solve mvop tridiag eigh n s beta egs es M h u c e0 ek vk repr :
  (0 < n <= 32)%nat -> (s <= 1)%nat -> repr = "cf"%string \/ repr = "sp"%string /\ GflSpec.eigh_sound eigh ->
  sectors n es -> eigenstates n M es -> 0 < Zof beta egs es -> operators n mvop M -> solver n solve M ->
  krylov n mvop tridiag (Z.of_nat s) (visits solve n (Z.of_nat s) [] es) (fun op p' q' t i a => exc n op (Z.of_nat s) 0 p' q' t i a) 11 ->
  hubbard_family n h u c M -> symmetric_hopping n h -> star n s h u e0 ek vk ->
  let vis := visits solve n (Z.of_nat s) [] es in let fin := finally solve n (Z.of_nat s) es in let r := Zof beta egs fin / Zof beta egs vis in
  exists ge gh, build_gf_lanczos solve mvop tridiag eigh n es beta egs 0 repr (Z.of_nat s) false = Ok (fin, ge, gh) /\ gh = ge /\
  (forall e eta, im (zpoint e eta) <> 0 -> exists g, gl_call ge e eta = Ok g /\ g <> rcx 0 /\
    (0 < im (zpoint e eta) -> im g <= 0 /\ im (self_energy n e0 ek vk (zpoint e eta) g) <= 0) /\
    (u 0%nat = 0 -> self_energy n e0 ek vk (zpoint e eta) g = cxmul (rcx (1 - r)) (bare_inverse n e0 ek vk (zpoint e eta)))) /\
  exists C V, 0 < V /\ forall e eta, let z := zpoint e eta in V <= im z * im z -> exists g, gl_call ge e eta = Ok g /\
    cxn2 (cxsub (self_energy n e0 ek vk z g) (cxadd (cxmul (rcx (1 - r)) (bare_inverse n e0 ek vk z)) (rcx (r * (u 0%nat * occupation n beta egs vis (other n s 0) / Zof beta egs vis))))) <= C / (im z * im z).
Proof. exact (solved solve mvop tridiag eigh n s beta egs es M h u c e0 ek vk repr). Qed.
Print Assumptions C128_dictionary.
(** The states summed over are eigenstates, and the ratio is at least one. *)
Theorem C128_ratio solve mvop n s beta egs es M : (0 < n <= 32)%nat -> sectors n es -> eigenstates n M es -> 0 < Zof beta egs es -> operators n mvop M -> solver n solve M ->
  let vis := visits solve n (Z.of_nat s) [] es in let fin := finally solve n (Z.of_nat s) es in sectors n vis /\ eigenstates n M vis /\ 0 < Zof beta egs vis /\ Zof beta egs vis <= Zof beta egs fin.
Proof. exact (vis_facts solve mvop n s beta egs es M). Qed.
Print Assumptions C128_ratio.

(** All states kept: the ratio is one. *)
Theorem C128_complete big half eigh eigsh tridiag eight fl hf n s H U es egs beta e repr :
  (1 < n <= 32)%nat -> (s <= 1)%nat -> half + half = 1 -> settable RRing (array_of n H) fl = true -> symmetric n H -> arrow n H ->
  (forall k, (0 < k < n)%nat -> ent n H 0 k = 0 \/ big (ent n H 0 k) = true) -> eigh_contract eigh -> GflSpec.eigh_sound eight ->
  (forall es, sectors n es -> krylov n (product_of big half n (array_of n H) fl (VArray RRing (on_site U)) hf 0 None) tridiag (Z.of_nat s) es (fun op p' q' t i a => exc n op (Z.of_nat s) 0 p' q' t i a) 11) ->
  repr = "cf"%string \/ repr = "sp"%string -> build_espace RRing Rleb big half eigh eigsh n (array_of n H) fl (VArray RRing (on_site U)) hf 0 None None "sz" = Ok (es, egs) ->
  let sigma := self_energy n (ent n H 0 0 - (if hf then half * U else 0)) (fun k => ent n H k k) (fun k => ent n H 0 k) in
  exists ge gh, gf_lanczos_of big half eigh eigsh n (array_of n H) fl (VArray RRing (on_site U)) hf 0 None tridiag eight es beta e 0 repr (Z.of_nat s) false = Ok (es, ge, gh) /\ 0 < Zof beta e es /\
  (forall z, im z <> 0 -> exists g, gl_call ge (rcx (re z)) (im z) = Ok g /\ g <> rcx 0 /\ (0 < im z -> im g <= 0 /\ im (sigma z g) <= 0) /\ (U = 0 -> sigma z g = rcx 0)) /\
  exists C B, 0 < B /\ forall z, B <= im z * im z -> exists g, gl_call ge (rcx (re z)) (im z) = Ok g /\
    cxn2 (cxsub (sigma z g) (rcx (U * occupation n beta e es (other n s 0) / Zof beta e es))) <= C / (im z * im z).
Proof. exact (fun Hn Hs H2 Hfl HSY HAR HBG HC HW HK => code_complete big half eigh eigsh tridiag eight fl hf n s H U Hn Hs H2 Hfl HSY HAR HBG HC HW HK es egs beta e repr). Qed.
Print Assumptions C128_complete.

(** [Gfimp] with the library's own solver, after any use of the object followed by
    [fit_update] and [solve] (with its screening).  Each fitted coupling is zero or
    passes the threshold of the Hamiltonian. *)
Theorem C128_impurity big half eigh eigsh tridiag eight fl hf n s beta fitter U0 mem g0 g ops delta mu :
  (2 <= n <= 32)%nat -> (s <= 1)%nat -> half + half = 1 -> eigh_contract eigh -> GflSpec.eigh_sound eight -> (forall p d, length (fitter p d) = length p) ->
  length mem = (2 * (n - 1))%nat -> imp_init n U0 mem = Ok g0 ->
  let solver := impurity_solver big half eigh eigsh tridiag eight fl hf n beta (Z.of_nat s) None false in
  foldM (imp_do fitter solver) ops g0 = Ok g ->
  let g' := imp_fit_update fitter g delta mu in let H := imp_H g' in let U := imp_U g' in
  settable RRing (array_of n H) fl = true ->
  (forall k, (k < n - 1)%nat -> nth (n - 1 + k) (imp_x g') 0 = 0 \/ big (nth (n - 1 + k) (imp_x g') 0) = true) ->
  (forall es, sectors n es -> krylov n (product_of big half n (array_of n H) fl (VArray RRing (on_site U)) hf 0 None) tridiag (Z.of_nat s) es (fun op p' q' t i a => exc n op (Z.of_nat s) 0 p' q' t i a) 11) ->
  exists g'' f vis fin egs, imp_solve solver g' = Ok g'' /\ imp_gf g'' = Some f /\
  sectors n vis /\ eigenstates n (Msec big half n (array_of n H) (VArray RRing (on_site U)) hf 0 None (on_site U)) vis /\ 0 < Zof beta egs vis <= Zof beta egs fin /\
  let r := Zof beta egs fin / Zof beta egs vis in
  (forall z, im z <> 0 -> exists S, imp_Sigma g'' z = Ok S /\ f z <> rcx 0 /\ imp_call g'' z = Ok (f z) /\ (0 < im z -> im (f z) <= 0 /\ im S <= 0) /\
    (U = 0 -> S = cxmul (rcx (1 - r)) (imp_free_inv g'' z))) /\
  exists C B, 0 < B /\ forall z, B <= im z * im z -> exists S, imp_Sigma g'' z = Ok S /\
    cxn2 (cxsub S (cxadd (cxmul (rcx (1 - r)) (imp_free_inv g'' z)) (rcx (r * (U * occupation n beta egs vis (other n s 0) / Zof beta egs vis - (if hf then half * U else 0)))))) <= C / (im z * im z).
Proof.
  exact (fun Hn Hs H2 HC HW HF HL HI HO Hfl HBG HK => imp_solved big half eigh eigsh tridiag eight fl hf n s beta fitter Hn Hs H2 HC HW HF U0 mem g0 g ops delta mu HL HI HO Hfl HBG HK).
Qed.
Print Assumptions C128_impurity.

(** Refuted: that the self-energy vanishes without repulsion.  Two uncoupled levels,
    a dictionary with one of the two states of a sector restored after that sector
    has been read: the self-energy is -z/2. *)
Theorem C128_free_refuted tridiag eigh : sectors 2 cut_es /\ eigenstates 2 two_M cut_es /\ operators 2 two_mvop two_M /\ solver 2 two_solve two_M /\
  hubbard_family 2 two_h (fun _ => 0) 0 two_M /\ star 2 0 two_h (fun _ => 0) 0 (fun _ => 1) (fun _ => 0) /\
  exists ge, build_gf_lanczos two_solve two_mvop tridiag eigh 2 cut_es 0 0 0 "cf" 0 false = Ok (finally two_solve 2 0 cut_es, ge, ge) /\
  forall e eta, im (zpoint e eta) <> 0 -> exists g, gl_call ge e eta = Ok g /\ self_energy 2 0 (fun _ => 1) (fun _ => 0) (zpoint e eta) g = cxmul (rcx (- (1 / 2))) (zpoint e eta).
Proof. exact (conj cut_sectors (conj two_eigen (conj two_operators (conj two_solver (conj two_family (conj (two_star 0) (free_restored tridiag eigh))))))). Qed.
Print Assumptions C128_free_refuted.
(** Refuted: that [adjust_neig=True] can be used with the default [neig=None]. *)
Theorem C128_adjust_refuted big half eigh eigsh tridiag eight fl hf n beta s H U :
  (1 < n <= 32)%nat -> half + half = 1 -> settable RRing (array_of n H) fl = true -> symmetric n H -> eigh_contract eigh ->
  solve_impurity big half eigh eigsh tridiag eight fl hf n beta (Z.of_nat s) None true H U = Err TypeError.
Proof. exact (code_adjust big half eigh eigsh tridiag eight fl hf n s beta H U). Qed.
Print Assumptions C128_adjust_refuted.

(** A trimer: levels -1 and 1 coupled by 1 and 2 to an impurity with U = 4 at mu = 2. *)
Definition tri_fit (p : list R) (d : list cx) : list R := if (length p =? 4)%nat then [-1; 1; 1; 2] else p.
Definition tri_solver := impurity_solver (fun _ => true) (/ 2) real_eigh (fun _ _ _ => Err ValueError) (fun _ _ => Err ValueError) real_eight (mkflags true true true) false 3 10 (Z.of_nat 0) None false.
Example C128_ex : exists g0 g f, imp_init 3 4 [0; 0; 0; 0] = Ok g0 /\ imp_H (imp_fit_update tri_fit g0 [] 2) = [-(2); 1; 2;  1; -1; 0;  2; 0; 1] /\
  imp_solve tri_solver (imp_fit_update tri_fit g0 [] 2) = Ok g /\ imp_gf g = Some f /\
  forall z, 0 < im z -> exists S, imp_Sigma g z = Ok S /\ im S <= 0 /\ f z <> rcx 0 /\ im (f z) <= 0 /\ imp_call g z = Ok (f z).
Proof.
  assert (G : exists g0, imp_init 3 4 [0; 0; 0; 0] = Ok g0 /\ imp_H (imp_fit_update tri_fit g0 [] 2) = [-(2); 1; 2;  1; -1; 0;  2; 0; 1] /\ imp_x (imp_fit_update tri_fit g0 [] 2) = [-1; 1; 1; 2])
    by (eexists; split; [reflexivity|split; reflexivity]).
  destruct G as (g0 & E0 & EH & _). exists g0.
  destruct (C128_impurity (fun _ => true) (/ 2) real_eigh (fun _ _ _ => Err ValueError) (fun _ _ => Err ValueError) real_eight (mkflags true true true) false 3 0 10 tri_fit 4 [0; 0; 0; 0] g0 g0 [] [] 2
    ltac:(lia) ltac:(lia) ltac:(lra) real_eigh_contract real_eight_sound) as (g & f & vis & fin & egs & E & EF & _ & _ & _ & PT & _).
  - intros p d. unfold tri_fit. destruct (Nat.eqb_spec (length p) 4) as [->|]; reflexivity.
  - reflexivity.
  - exact E0.
  - reflexivity.
  - reflexivity.
  - auto.
  - intros es _. apply small_krylov. lia.
  - exists g, f. split; [exact E0|]. split; [exact EH|]. split; [exact E|]. split; [exact EF|]. intros z Hz. destruct (PT z ltac:(lra)) as (S & A1 & A2 & A3 & A4 & _). exists S. split; [exact A1|].
    destruct (A4 Hz). auto.
Qed.
(** The reading order behind the refutation. *)
Example C128_ex_restored : Zof 0 0 (visits two_solve 2 0 [] cut_es) = 2 /\ Zof 0 0 (finally two_solve 2 0 cut_es) = 3 /\ map fst cut_es = [[1; 0]; [0; 0]]%nat.
Proof. exact (conj (proj1 two_visits) (conj (proj2 two_visits) eq_refl)). Qed.
