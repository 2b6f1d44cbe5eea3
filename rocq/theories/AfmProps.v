(** Property C132: the loop with two spins at half filling, started in a field. *)
From Coq Require Import String Reals List Arith NArith ZArith Bool Lia Lra.
From Verif Require Import Base RBase RLin CBase SectorModel LocalModel HoppingModel NonLocalModel MatvecModel MbModel MbSpec EspaceModel EspaceRealModel ProjModel CfModel GfModel GfSpec ExactSpec ExactProofs EighProofs
  GflModel GflSpec GflExProofs AgrModel AgrInstProofs FitModel FitSpec NrModel NrSpec DmftModel DmftSpec DmftProofs ObsModel ObsSpec OccSpec OccProofs SymSpec RelSpec RelGfProofs SiamModel SiamExProofs VisExProofs ScrSpec PhsSpec PhsProofs PhsLoopProofs PhsExProofs
  MagModel MagSpec MagProofs MagLoopProofs MagStartProofs MagExProofs AfmSpec AfmProofs AfmLoopProofs.
Import ListNotations.
Local Open Scope R_scope.

(** An impurity in a field whose levels come in pairs of opposite energy, one level per spin, is its own image
    when the spins are exchanged together with electrons and holes. *)
Theorem C132_model big hf n U Hu Hd f : (2 <= n <= 32)%nat -> facing n Hu Hd (centre hf U) f ->
  let P := params_of big (layers n Hu Hd) (VArray RRing (on_site U)) hf 0 None (on_site U) in related n true true (flip n) bath_site P P.
Proof. exact (facing_related big hf n U Hu Hd f). Qed.
Print Assumptions C132_model.
(** The impurity holds one electron at every temperature, whatever the field. *)
Theorem C132_occupation big half fl hf n U Hu Hd f eigh eigsh beta es e scts : (2 <= n <= 32)%nat -> facing n Hu Hd (centre hf U) f -> half + half = 1 -> eigh_contract eigh ->
  settable RRing (layers n Hu Hd) fl = true -> build_espace RRing Rleb big half eigh eigsh n (layers n Hu Hd) fl (VArray RRing (on_site U)) hf 0 None None "sz" = Ok (es, Some e) -> Forall2 (fun e o => stored (snd e) o) es scts ->
  exists u d, fst (get_occupation scts e beta n) = Ok (u, d) /\ nth 0 u 0 + nth 0 d 0 = 1 /\ forall k, (0 < k < n)%nat -> nth k u 0 + nth (n - k) d 0 = 1.
Proof. exact (fun Hn FA H2 HC => facing_occupation big half fl hf n U Hu Hd f Hn FA H2 eigh eigsh beta HC es e scts). Qed.
Print Assumptions C132_occupation.
(** [SpinGfimp.solve] with the library's own solver and screening: the down function is the up function, reflected. *)
Theorem C132_solve big half fl hf n U Hu Hd f eigh eigsh tridiag eight beta : (2 <= n <= 32)%nat -> facing n Hu Hd (centre hf U) f -> half + half = 1 -> eigh_contract eigh -> GflSpec.eigh_sound eight ->
  workable2 big half eigh eigsh tridiag fl hf n Hu Hd U ->
  exists gu gd sc e, solve_spins big half eigh eigsh tridiag eight fl hf n beta None false Hu Hd U = Ok ((gu, gd), sc, e, None) /\
  forall z, im z <> 0 -> value_at gd (cxopp z) = cxopp (value_at gu z) /\ value_at gu (cxconj z) = cxconj (value_at gu z) /\ value_at gd (cxconj z) = cxconj (value_at gd z) /\ value_at gd (over z) = over (value_at gu z).
Proof. exact (fun Hn FA H2 HC HW => facing_solved big half fl hf n U Hu Hd f Hn FA H2 eigh eigsh tridiag eight beta HC HW). Qed.
Print Assumptions C132_solve.

(** [initialize_magnetic] at half filling, three or more sites, any field. *)
Theorem C132_start big half eigh eigsh tridiag eight fl hf n beta U fitter mu ed zs u d l Sigma sign field :
  (2 <= n <= 32)%nat -> half + half = 1 -> eigh_contract eigh -> GflSpec.eigh_sound eight -> mu - ed = centre hf U -> frequencies zs -> facing_fit n (length zs) fitter ->
  (3 <= n)%nat -> shaped n U u -> shaped n U d -> loc_ed l = Some ed -> facing_lattice (loc_kind l) ed -> (forall w, w <> 0 -> re (Sigma (0, w)) = centre hf U) ->
  (forall u0 d0 l0 dl, spin_initialize zs (u, d) l U Sigma (Some mu) = Ok ((u0, d0), l0, dl) ->
    workable2 big half eigh eigsh tridiag fl hf n (trial_H fitter (mu + sign * field - ed) u0 dl) (trial_H fitter (mu - sign * field - ed) u0 dl) U) ->
  exists a new, initialize_magnetic fitter (spin_solver big half eigh eigsh tridiag eight fl hf n beta None false) zs (u, d) l U Sigma sign field (Some mu) = Ok (fst a, snd a, new) /\
    opposed n U mu ed hf a /\ facing_data (length zs) new.
Proof. exact (fun Hn H2 HC HW HM FZ FF => opposed_start big half eigh eigsh tridiag eight fl hf n beta U fitter Hn H2 HC HW mu ed zs HM FZ FF u d l Sigma sign field). Qed.
Print Assumptions C132_start.
(** One iteration. *)
Theorem C132_step big half eigh eigsh tridiag eight fl hf n beta U fitter mu ed zs a delta :
  (2 <= n <= 32)%nat -> half + half = 1 -> eigh_contract eigh -> GflSpec.eigh_sound eight -> mu - ed = centre hf U -> frequencies zs -> facing_fit n (length zs) fitter ->
  opposed n U mu ed hf a -> facing_data (length zs) delta ->
  workable2 big half eigh eigsh tridiag fl hf n (trial_H fitter (mu - ed) (fst (fst a)) (fst delta)) (trial_H fitter (mu - ed) (snd (fst a)) (snd delta)) U ->
  exists a' new, spin_step fitter (spin_solver big half eigh eigsh tridiag eight fl hf n beta None false) zs a delta = Ok (a', new) /\ opposed n U mu ed hf a' /\ facing_data (length zs) new.
Proof. exact (fun Hn H2 HC HW HM FZ FF => opposed_step big half eigh eigsh tridiag eight fl hf n beta U fitter Hn H2 HC HW mu ed zs HM FZ FF a delta). Qed.
Print Assumptions C132_step.
(** The loop: at every trial the data of the spins are reflections of each other, so are functions and
    self-energies at the end, and the loop ends by convergence or by the limit of iterations. *)
Theorem C132_loop big half eigh eigsh tridiag eight fl hf n beta U fitter mu ed zs dist tol max_iter mix fuel a it a' it' ev r :
  (2 <= n <= 32)%nat -> half + half = 1 -> eigh_contract eigh -> GflSpec.eigh_sound eight -> mu - ed = centre hf U -> frequencies zs -> facing_fit n (length zs) fitter ->
  (forall hist d, (forall a b, In (a, b) hist -> facing_data (length zs) a /\ facing_data (length zs) b) -> mix hist = Some d -> facing_data (length zs) d) ->
  let dstep := spin_step fitter (spin_solver big half eigh eigsh tridiag eight fl hf n beta None false) zs in
  opposed n U mu ed hf a ->
  along dstep dist tol max_iter mix (fun a delta => workable2 big half eigh eigsh tridiag fl hf n (trial_H fitter (mu - ed) (fst (fst a)) (fst delta)) (trial_H fitter (mu - ed) (snd (fst a)) (snd delta)) U) fuel [] (a, it) ->
  drive _ _ dstep dist tol max_iter mix fuel [] (a, it) = ((a', it'), ev, r) ->
  opposed n U mu ed hf a' /\ (forall d, In d ev -> facing_data (length zs) d) /\ (r = Ok tt \/ r = Err ConvergedExc \/ r = Err FailedToConvergeExc \/ r = Err OutOfFuel).
Proof. exact (fun Hn H2 HC HW HM FZ FF HX => opposed_loop big half eigh eigsh tridiag eight fl hf n beta U fitter Hn H2 HC HW mu ed zs HM FZ FF dist tol max_iter mix fuel HX a it [] a' it' ev r (fun x y (F : In (x, y) []) => match F with end)). Qed.
Print Assumptions C132_loop.

(** Lattices, fits and mixing of this kind. *)
Theorem C132_bethe csqrt : (forall w, cxmul (csqrt w) (csqrt w) = w) -> (forall w, 0 <= re (csqrt w)) -> facing_lattice (LHilbert (ht csqrt)) 0.
Proof. exact (bethe_facing csqrt). Qed.
Print Assumptions C132_bethe.
Theorem C132_hybrid m x ed : length x = (2 * m)%nat -> mirror_symmetric m x -> facing_lattice (LHybrid (delta1 x)) ed.
Proof. exact (hybrid_facing m x ed). Qed.
Print Assumptions C132_hybrid.
Theorem C132_c_fit fuel d0 n nm beta mem : length mem = nm -> (forall row, In row mem -> length row = (2 * (n - 1))%nat) ->
  facing_fit n nm (fun x d => match c_fit fuel d0 (n - 1) nm d beta mem x with Ok (x', _, _) => x' | Err _ => x end).
Proof. exact (c_fit_facing fuel d0 n nm beta mem). Qed.
Print Assumptions C132_c_fit.
Theorem C132_mixing a k old new : facing_data k old -> facing_data k new -> facing_data k (blend a (fst old) (fst new), blend a (snd old) (snd new)).
Proof. exact (blend_facing a k old new). Qed.
Print Assumptions C132_mixing.

(** Two sites with coupling: impurity levels -2-f and -2+f, one bath level at x for up and at -x for down. *)
Example C132_ex_occupation f v x beta : exists es e u d,
  build_espace RRing Rleb (fun _ => true) (/ 2) real_eigh (fun _ _ _ => Err ValueError) 2 (layers 2 [- (2) - f; v; v; x] [- (2) + f; v; v; - x]) (mkflags true true true) (VArray RRing (on_site 4)) false 0 None None "sz" = Ok (es, Some e) /\
  fst (get_occupation (map (fun s => as_array (snd s)) es) e beta 2) = Ok (u, d) /\ nth 0 u 0 + nth 0 d 0 = 1 /\ nth 1 u 0 + nth 1 d 0 = 1.
Proof.
  set (Hu := [- (2) - f; v; v; x]). set (Hd := [- (2) + f; v; v; - x]).
  assert (FA : facing 2 Hu Hd (centre false 4) f).
  { split; [intros i j Hi Hj; destruct i as [|[|]], j as [|[|]]; try lia; reflexivity|]. split; [intros i j Hi Hj; destruct i as [|[|]], j as [|[|]]; try lia; reflexivity|].
    split; [intros i j Hi Hj NE; lia|]. split; [intros i j Hi Hj NE; lia|]. unfold ent, centre, Hu, Hd. cbn. split; [lra|]. split; [lra|]. intros k Hk. assert (k = 1%nat) by lia. subst k. cbn. split; reflexivity. }
  assert (MO : model_ok (/ 2) 2 (layers 2 Hu Hd) (mkflags true true true) (VArray RRing (on_site 4)) (on_site 4)) by (apply (layers_ok (fun _ => true)); [lia|lra|apply FA|apply FA|reflexivity]).
  destruct (dictionary (fun _ => true) (/ 2) (mkflags true true true) false 2 4 ltac:(lra) real_eigh (fun _ _ _ => Err ValueError) real_eigh_contract _ MO) as (es & e & _ & HB & _).
  destruct (exact_solved (fun _ => true) (/ 2) 2 (layers 2 Hu Hd) (mkflags true true true) (VArray RRing (on_site 4)) false 0 None (on_site 4) MO real_eigh (fun _ _ _ => Err ValueError) real_eigh_contract es (Some e) HB) as (F & LF & _).
  destruct (C132_occupation (fun _ => true) (/ 2) (mkflags true true true) false 2 4 Hu Hd f real_eigh (fun _ _ _ => Err ValueError) beta es e _ ltac:(lia) FA ltac:(lra) real_eigh_contract eq_refl HB (as_array_family 2 es F LF)) as (u & d & EO & S0 & S1).
  exists es, e, u, d. split; [exact HB|]. split; [exact EO|]. split; [exact S0|]. exact (S1 1%nat ltac:(lia)).
Qed.
(** The Bethe lattice with U = 4, any field at the start, four Matsubara frequencies, linear mixing with 1/5 and at
    most three evaluations; the fit returns two levels -1 and 1 that have lost their coupling. *)
Local Notation ex_solver := (spin_solver (fun _ => true) (/ 2) real_eigh (fun _ _ _ => Err ValueError) (fun _ _ => Err ValueError) real_eight tri_fl false 3 10 None false).
Local Notation ex_step := (spin_step off_fit ex_solver (matsubara 4 10)).
Definition ex_loc : gfloc := mkLoc (LHilbert (ht csqrt_std)) None None (Some 0).
Definition ex_mix (d0 : both) (hist : list (both * both)) : option both :=
  match hist with [] => Some d0 | (o, w) :: _ => Some (blend (1 / 5) (fst o) (fst w), blend (1 / 5) (snd o) (snd w)) end.
Lemma off_facing nm : facing_fit 3 nm off_fit.
Proof.
  intros x d LX _. unfold off_fit. change (3 - 1)%nat with 2%nat in *. rewrite LX, mirror_length. cbn [Nat.eqb Nat.mul Nat.add]. split; [reflexivity|]. unfold mirror, relabel. cbn. repeat (apply f_equal2; [ring|]). reflexivity.
Qed.
Definition ex_kept (s : spins * gfloc) : Prop := shaped 3 4 (fst (fst s)) /\ shaped 3 4 (snd (fst s)) /\ loc_mu (snd s) = Some 2 /\ loc_ed (snd s) = Some 0.
Lemma ex_step_kept solver zs s e s' new : ex_kept s -> spin_step off_fit solver zs s e = Ok (s', new) -> ex_kept s'.
Proof.
  destruct s as [[u w] l], e as [du dd]. intros (S1 & S2 & EM & EE) ES. cbn [fst snd] in *. unfold spin_step, spin_dmft_step in ES. cbn [fst snd] in ES. rewrite EM, EE in ES. cbn [attr bind] in ES. unfold spin_solve, spin_update, spin_fit in ES. cbn [fst snd] in ES.
  destruct (solver _ _ _) as [[fu fd]|]; cbn [bind fst snd] in ES; [|discriminate]. destruct (spin_Delta_grid _ _ _) as [nn|]; cbn [bind] in ES; [|discriminate]. injection ES as <- <-. unfold ex_kept. cbn [fst snd].
  destruct (trial_shaped 3 4 off_fit ltac:(lia) u du (2 - 0) S1 (off_fitted u du S1)) as [T1 _]. destruct (trial_shaped 3 4 off_fit ltac:(lia) w dd (2 - 0) S2 (off_fitted w dd S2)) as [T2 _]. split; [exact T1|]. split; [exact T2|]. split; [exact EM|exact EE].
Qed.
Local Notation ex_works a b := (workable2 (fun _ => true) (/ 2) real_eigh (fun _ _ _ => Err ValueError) (fun _ _ => Err ValueError) tri_fl false 3 a b 4).
Lemma ex_works_kept s e : ex_kept s -> ex_works (trial_H off_fit (2 - 0) (fst (fst s)) (fst e)) (trial_H off_fit (2 - 0) (snd (fst s)) (snd e)).
Proof.
  intros (S1 & S2 & _). rewrite (off_trial _ (fst e) (2 - 0) 0), (off_trial _ (snd e) (2 - 0) 0) by (auto; lra).
  pose proof (fld_workable 0 (fun _ _ _ => Err ValueError) (fun _ _ => Err ValueError)) as W. rewrite Ropp_0 in W. exact W.
Qed.
Lemma ex_along dist tol max_iter mix fuel a it : ex_kept a -> along ex_step dist tol max_iter mix (fun a delta => ex_works (trial_H off_fit (2 - 0) (fst (fst a)) (fst delta)) (trial_H off_fit (2 - 0) (snd (fst a)) (snd delta))) fuel [] (a, it).
Proof. intros H. exact (along_inv ex_step dist tol max_iter mix _ ex_kept ex_works_kept (ex_step_kept ex_solver (matsubara 4 10)) fuel [] a it H). Qed.
Lemma ex_works_start g0 field zs : shaped 3 4 g0 -> forall u0 d0 l0 dl, spin_initialize zs (g0, g0) ex_loc 4 (fun _ => rcx 2) (Some 2) = Ok ((u0, d0), l0, dl) ->
  ex_works (trial_H off_fit (2 + 1 * field - 0) u0 dl) (trial_H off_fit (2 - 1 * field - 0) u0 dl).
Proof.
  intros SG u0 d0 l0 dl EI. destruct (start_ok 3 4 ltac:(lia) zs g0 g0 ex_loc (fun _ => rcx 2) (Some 2) 0 SG SG eq_refl) as (u1 & d1 & l1 & dl1 & EI' & SU & _). pose proof (eq_trans (eq_sym EI) EI') as Q. injection Q as <- <- <- <-.
  rewrite (off_trial u0 dl (2 + 1 * field - 0) field), (off_trial u0 dl (2 - 1 * field - 0) (- field)) by (auto; lra). apply fld_workable.
Qed.
Lemma ex_mix_facing k d : facing_data k d -> forall hist t, (forall a b, In (a, b) hist -> facing_data k a /\ facing_data k b) -> ex_mix d hist = Some t -> facing_data k t.
Proof. intros FD hist t HH. unfold ex_mix. destruct hist as [|[o w] hist]; [intros [= <-]; exact FD|]. intros [= <-]. destruct (HH o w (or_introl eq_refl)) as [A1 A2]. now apply C132_mixing. Qed.
Lemma ex_opposed a : opposed 3 4 2 0 false a -> ex_kept a.
Proof. destruct a as [[u w] l]. intros (S1 & S2 & _ & EM & EE & _). split; [exact S1|]. split; [exact S2|]. split; [exact EM|exact EE]. Qed.
Lemma ex_start g0 field : shaped 3 4 g0 -> exists a d, initialize_magnetic off_fit ex_solver (matsubara 4 10) (g0, g0) ex_loc 4 (fun _ => rcx 2) 1 field (Some 2) = Ok (fst a, snd a, d) /\
  opposed 3 4 2 0 false a /\ facing_data (length (matsubara 4 10)) d.
Proof.
  intros SG. apply (C132_start (fun _ => true) (/ 2) real_eigh (fun _ _ _ => Err ValueError) (fun _ _ => Err ValueError) real_eight tri_fl false 3 10 4 off_fit 2 0 (matsubara 4 10) g0 g0 ex_loc (fun _ => rcx 2) 1 field).
  - lia.
  - lra.
  - exact real_eigh_contract.
  - exact real_eight_sound.
  - unfold centre. lra.
  - apply matsubara_points. lra.
  - apply off_facing.
  - lia.
  - exact SG.
  - exact SG.
  - reflexivity.
  - apply C132_bethe; intros w; apply csqrt_std_ok.
  - intros w _. unfold centre. cbn. lra.
  - exact (ex_works_start g0 field (matsubara 4 10) SG).
Qed.
Lemma ex_loop a d dist tol a' it ev r : opposed 3 4 2 0 false a -> facing_data (length (matsubara 4 10)) d -> drive _ _ ex_step dist tol 2 (ex_mix d) 3 [] (a, 0%nat) = ((a', it), ev, r) ->
  (forall t, In t ev -> snd t = map over (fst t)) /\ opposed 3 4 2 0 false a'.
Proof.
  intros OP FD E.
  destruct (C132_loop (fun _ => true) (/ 2) real_eigh (fun _ _ _ => Err ValueError) (fun _ _ => Err ValueError) real_eight tri_fl false 3 10 4 off_fit 2 0 (matsubara 4 10) dist tol 2 (ex_mix d) 3 a 0 a' it ev r
    ltac:(lia) ltac:(lra) real_eigh_contract real_eight_sound ltac:(unfold centre; lra) ltac:(apply matsubara_points; lra) (off_facing _) (ex_mix_facing _ d FD) OP (ex_along dist tol 2 (ex_mix d) 3 a 0%nat (ex_opposed a OP)) E) as (OP' & FD' & _).
  split; [intros t I; exact (proj2 (FD' t I))|exact OP'].
Qed.
Example C132_ex field : exists g0 a d, imp_init 3 4 [0; 0; 0; 0] = Ok g0 /\
  initialize_magnetic off_fit ex_solver (matsubara 4 10) (g0, g0) ex_loc 4 (fun _ => rcx 2) 1 field (Some 2) = Ok (fst a, snd a, d) /\ snd d = map over (fst d) /\
  forall dist tol, exists a' it ev r, drive _ _ ex_step dist tol 2 (ex_mix d) 3 [] (a, 0%nat) = ((a', it), ev, r) /\
    (forall t, In t ev -> snd t = map over (fst t)) /\ opposed 3 4 2 0 false a'.
Proof.
  assert (I0 : exists g0, imp_init 3 4 [0; 0; 0; 0] = Ok g0) by (eexists; reflexivity). destruct I0 as (g0 & E0). exists g0.
  assert (SG : shaped 3 4 g0) by (apply (shaped_init 3 4 [0; 0; 0; 0]); [lia|reflexivity|exact E0]).
  destruct (ex_start g0 field SG) as (a & d & EI & OP & FD). exists a, d. split; [exact E0|]. split; [exact EI|]. split; [exact (proj2 FD)|].
  intros dist tol. destruct (drive _ _ ex_step dist tol 2 (ex_mix d) 3 [] (a, 0%nat)) as [[[a' it] ev] r] eqn:E. exists a', it, ev, r. split; [reflexivity|]. exact (ex_loop a d dist tol a' it ev r OP FD E).
Qed.
