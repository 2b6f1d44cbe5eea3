(** C121-C123: models related by renumbering, spin exchange, orbital signs and exchange of electrons and holes. *)
From Coq Require Import String Reals List Arith NArith ZArith Bool Lia Lra.
From Verif Require Import Base RBase RLin CBase LocalModel CsrSpec MbModel MbSpec MatvecModel EspaceModel ProjSpec CfModel GfModel GfSpec GmModel GmSpec ExactSpec EighProofs ExactProps
  ObsModel ObsSpec OccSpec OccProofs SymSpec RelSpec RelHamProofs RelGfProofs RelFinalProofs RelCorProofs.
Import ListNotations.
Local Open Scope R_scope.
Local Notation build := (build_espace RRing Rleb).
Local Notation stores es scts := (Forall2 (fun e o => stored (snd e) o) es scts).

(** C121: Green's functions and occupations do not depend on the eigenvectors the solver returns. *)
Theorem C121_green n big half h fl V hf mu z U eigh eigsh es e eigh' eigsh' es' e' beta s : model_ok half n h fl V U -> eigh_contract eigh -> eigh_contract eigh' -> (s <= 1)%nat ->
  build big half eigh eigsh n h fl V hf mu z None "sz" = Ok (es, Some e) -> build big half eigh' eigsh' n h fl V hf mu z None "sz" = Ok (es', Some e') ->
  exists g g', build_gf2_exact n es beta e (Z.of_nat s) = Ok g /\ build_gf2_exact n es' beta e' (Z.of_nat s) = Ok g' /\
  forall E eta, exists G G', gm_call g E eta = Ok G /\ gm_call g' E eta = Ok G' /\ forall x y, (x < n)%nat -> (y < n)%nat -> GmSpec.entry G' x y = GmSpec.entry G x y.
Proof. exact (fun MO HC HC' Hs HB HB' => solver_green n big half h fl V hf mu z U MO eigh eigsh HC es e HB eigh' eigsh' es' e' beta s HC' Hs HB'). Qed.
Theorem C121_occupation n big half h fl V hf mu z U eigh eigsh es e eigh' eigsh' es' e' beta scts scts' : model_ok half n h fl V U -> eigh_contract eigh -> eigh_contract eigh' ->
  build big half eigh eigsh n h fl V hf mu z None "sz" = Ok (es, Some e) -> build big half eigh' eigsh' n h fl V hf mu z None "sz" = Ok (es', Some e') ->
  stores es scts -> stores es' scts' ->
  exists ud ud', fst (get_occupation scts e beta n) = Ok ud /\ fst (get_occupation scts' e' beta n) = Ok ud' /\ forall s x, (s <= 1)%nat -> (x < n)%nat -> nth x (pick s ud') 0 = nth x (pick s ud) 0.
Proof. exact (fun MO HC HC' HB HB' S1 S2 => solver_occupation n big half h fl V hf mu z U MO eigh eigsh HC es e HB eigh' eigsh' es' e' beta scts scts' HC' HB' S1 S2). Qed.
(** The matrix is symmetric, and conjugate at the conjugate point. *)
Theorem C121_reciprocal n big half h fl V hf mu z U eigh eigsh es e beta s : model_ok half n h fl V U -> eigh_contract eigh -> (s <= 1)%nat ->
  build big half eigh eigsh n h fl V hf mu z None "sz" = Ok (es, Some e) -> exists g, build_gf2_exact n es beta e (Z.of_nat s) = Ok g /\
  forall E eta E' eta', zpoint E' eta' = cxconj (zpoint E eta) -> exists G G', gm_call g E eta = Ok G /\ gm_call g E' eta' = Ok G' /\
    forall x y, (x < n)%nat -> (y < n)%nat -> GmSpec.entry G x y = GmSpec.entry G y x /\ GmSpec.entry G' x y = cxconj (GmSpec.entry G x y).
Proof. exact (fun MO HC Hs HB => reciprocal_build n big half h fl V hf mu z U MO eigh eigsh HC es e HB beta s Hs). Qed.
Print Assumptions C121_green.
Print Assumptions C121_occupation.
Print Assumptions C121_reciprocal.

(** C122: the results for two related models. *)
Theorem C122_spectrum n hole sw rho sg big half h fl V hf mu z U big' half' h' fl' V' hf' mu' z' U' eigh eigsh eigh' eigsh' es es' egs egs' :
  let P := params_of big h V hf mu z U in let P' := params_of big' h' V' hf' mu' z' U' in
  model_ok half n h fl V U -> model_ok half' n h' fl' V' U' -> related n hole sw rho sg P P' -> eigh_contract eigh -> eigh_contract eigh' ->
  build big half eigh eigsh n h fl V hf mu z None "sz" = Ok (es, egs) -> build big' half' eigh' eigsh' n h' fl' V' hf' mu' z' None "sz" = Ok (es', egs') ->
  exists e, egs = Some e /\ egs' = Some (e + (offset n P' - offset n P)) /\
  forall p q s s', In ([p; q], s) es -> In ([image_up n hole sw p q; image_dw n hole sw p q], s') es' -> s_vals RRing s' = map (fun v => v + (offset n P' - offset n P)) (s_vals RRing s).
Proof. exact (fun MO MO' HR HC HC' HB HB' => related_spectrum n hole sw rho sg big half h fl V hf mu z U big' half' h' fl' V' hf' mu' z' U' MO MO' HR eigh eigh' eigsh eigsh' HC HC' es es' egs egs' HB HB'). Qed.
Theorem C122_green n hole sw rho sg big half h fl V hf mu z U big' half' h' fl' V' hf' mu' z' U' eigh eigsh eigh' eigsh' es es' e e' beta s :
  model_ok half n h fl V U -> model_ok half' n h' fl' V' U' -> related n hole sw rho sg (params_of big h V hf mu z U) (params_of big' h' V' hf' mu' z' U') -> eigh_contract eigh -> eigh_contract eigh' ->
  build big half eigh eigsh n h fl V hf mu z None "sz" = Ok (es, Some e) -> build big' half' eigh' eigsh' n h' fl' V' hf' mu' z' None "sz" = Ok (es', Some e') -> (s <= 1)%nat ->
  exists g g', build_gf2_exact n es beta e (Z.of_nat s) = Ok g /\ build_gf2_exact n es' beta e' (Z.of_nat (spin' sw s)) = Ok g' /\
  forall E eta E' eta', zpoint E' eta' = image_z hole (zpoint E eta) -> exists G G', gm_call g E eta = Ok G /\ gm_call g' E' eta' = Ok G' /\
    forall x y, (x < n)%nat -> (y < n)%nat -> GmSpec.entry G' (rho x) (rho y) = cxmul (rcx (pm hole * (pm (sg x) * pm (sg y)))) (GmSpec.entry G x y).
Proof. exact (fun MO MO' HR HC HC' HB HB' Hs => related_green n hole sw rho sg big half h fl V hf mu z U big' half' h' fl' V' hf' mu' z' U' MO MO' HR eigh eigh' eigsh eigsh' HC HC' es es' (Some e) (Some e') HB HB' beta s e e' Hs eq_refl eq_refl). Qed.
Theorem C122_occupation n hole sw rho sg big half h fl V hf mu z U big' half' h' fl' V' hf' mu' z' U' eigh eigsh eigh' eigsh' es es' e e' beta scts scts' :
  model_ok half n h fl V U -> model_ok half' n h' fl' V' U' -> related n hole sw rho sg (params_of big h V hf mu z U) (params_of big' h' V' hf' mu' z' U') -> eigh_contract eigh -> eigh_contract eigh' ->
  build big half eigh eigsh n h fl V hf mu z None "sz" = Ok (es, Some e) -> build big' half' eigh' eigsh' n h' fl' V' hf' mu' z' None "sz" = Ok (es', Some e') ->
  stores es scts -> stores es' scts' ->
  exists ud ud', fst (get_occupation scts e beta n) = Ok ud /\ fst (get_occupation scts' e' beta n) = Ok ud' /\
  forall s x, (s <= 1)%nat -> (x < n)%nat -> nth (rho x) (pick (spin' sw s) ud') 0 = image_occ hole (nth x (pick s ud) 0).
Proof. exact (fun MO MO' HR HC HC' HB HB' S1 S2 => related_occupation n hole sw rho sg big half h fl V hf mu z U big' half' h' fl' V' hf' mu' z' U' MO MO' HR eigh eigh' eigsh eigsh' HC HC' es es' (Some e) (Some e') HB HB' beta e e' scts scts' eq_refl eq_refl S1 S2). Qed.
(** The mean-field mode ([hf=True]) is the plain mode with every level lowered by half of the
    interaction with a filled shell. *)
Theorem C122_mean_field n big h h' V mu U :
  (forall s i j, (s < 2)%nat -> (i < n)%nat -> (j < n)%nat -> hspin RRing h' s i j = hspin RRing h s i j - (if (i =? j)%nat then lowered n U i else 0)) ->
  related n false false (fun x => x) (fun _ => false) (params_of big h V true mu None U) (params_of big h' V false mu None U).
Proof. exact (rel_hf n big h h' V mu U). Qed.
Print Assumptions C122_spectrum.
Print Assumptions C122_green.
Print Assumptions C122_occupation.
Print Assumptions C122_mean_field.

(** C123: spin symmetry and particle-hole symmetry of one model. *)
Theorem C123_spin n big half h fl V hf mu z U eigh eigsh es e beta scts : model_ok half n h fl V U -> eigh_contract eigh ->
  build big half eigh eigsh n h fl V hf mu z None "sz" = Ok (es, Some e) -> spin_free n h -> stores es scts ->
  (exists g g', build_gf2_exact n es beta e 0%Z = Ok g /\ build_gf2_exact n es beta e 1%Z = Ok g' /\
    forall E eta, exists G G', gm_call g E eta = Ok G /\ gm_call g' E eta = Ok G' /\ forall x y, (x < n)%nat -> (y < n)%nat -> GmSpec.entry G' x y = GmSpec.entry G x y) /\
  (exists u d, fst (get_occupation scts e beta n) = Ok (u, d) /\ forall x, (x < n)%nat -> nth x d 0 = nth x u 0).
Proof. exact (fun MO HC HB HS ST => conj (spin_green n big half h fl V hf mu z U MO eigh eigsh HC es e HB beta HS) (spin_occupation n big half h fl V hf mu z U MO eigh eigsh HC es e HB beta scts HS ST)). Qed.
Theorem C123_half_spectrum n big half h fl V hf mu z U eigh eigsh es e sg p q s s' : model_ok half n h fl V U -> eigh_contract eigh ->
  build big half eigh eigsh n h fl V hf mu z None "sz" = Ok (es, Some e) -> half_filled n big h V hf mu z U sg ->
  In ([p; q], s) es -> In ([(n - p)%nat; (n - q)%nat], s') es -> s_vals RRing s' = s_vals RRing s.
Proof. exact (fun MO HC HB => half_spectrum n big half h fl V hf mu z U MO eigh eigsh HC es e HB sg p q s s'). Qed.
Theorem C123_half_green n big half h fl V hf mu z U eigh eigsh es e sg beta s : model_ok half n h fl V U -> eigh_contract eigh ->
  build big half eigh eigsh n h fl V hf mu z None "sz" = Ok (es, Some e) -> half_filled n big h V hf mu z U sg -> (s <= 1)%nat ->
  exists g, build_gf2_exact n es beta e (Z.of_nat s) = Ok g /\
  (forall E eta E' eta', zpoint E' eta' = cxopp (zpoint E eta) -> exists G G', gm_call g E eta = Ok G /\ gm_call g E' eta' = Ok G' /\
    forall x y, (x < n)%nat -> (y < n)%nat -> GmSpec.entry G' x y = cxmul (rcx (- (pm (sg x) * pm (sg y)))) (GmSpec.entry G x y)) /\
  (forall w eta, exists G G', gm_call g (rcx w) eta = Ok G /\ gm_call g (rcx (- w)) eta = Ok G' /\
    forall x y, (x < n)%nat -> (y < n)%nat -> GmSpec.entry G' x y = cxmul (rcx (- (pm (sg x) * pm (sg y)))) (cxconj (GmSpec.entry G x y))).
Proof. exact (fun MO HC HB => half_green n big half h fl V hf mu z U MO eigh eigsh HC es e HB sg beta s). Qed.
Theorem C123_half_occupation n big half h fl V hf mu z U eigh eigsh es e sg beta scts : model_ok half n h fl V U -> eigh_contract eigh ->
  build big half eigh eigsh n h fl V hf mu z None "sz" = Ok (es, Some e) -> half_filled n big h V hf mu z U sg -> stores es scts ->
  exists u d, fst (get_occupation scts e beta n) = Ok (u, d) /\ forall x, (x < n)%nat -> nth x u 0 = / 2 /\ nth x d 0 = / 2.
Proof. exact (fun MO HC HB => half_occupation n big half h fl V hf mu z U MO eigh eigsh HC es e HB sg beta scts). Qed.
(** Where the levels lie in the two modes. *)
Theorem C123_centred n big h V mu U s i : centred n (params_of big h V true mu None U) s i = hspin RRing h s i i + mu /\
  centred n (params_of big h V false mu None U) s i = hspin RRing h s i i + mu + / 2 * U i i + / 2 * rsum n (fun j => if (i =? j)%nat then 0 else U i j + U j i).
Proof. exact (conj (centred_hf n big h V mu U s i) (centred_plain n big h V mu U s i)). Qed.
Print Assumptions C123_spin.
Print Assumptions C123_half_spectrum.
Print Assumptions C123_half_green.
Print Assumptions C123_half_occupation.
Print Assumptions C123_centred.

(** The dimer of C85 at mu = -3/2, U = 3: half filled with opposite signs of the two sites.  At every
    temperature both sites hold half an electron of each spin, and the Green's functions of the two
    spins coincide. *)
Definition dim_sg (x : nat) : bool := (x =? 0)%nat.
Lemma dim_half : half_filled 2 (fun _ => true) dim_h (VArray RRing dim_U) false (-(3 / 2)) None dim_U dim_sg.
Proof.
  split; [|split; [|reflexivity]].
  - intros s x y _ Hx Hy Hxy Q. exfalso. apply Hxy. unfold dim_sg in Q. destruct x as [|[|]], y as [|[|]]; cbn in Q; try lia; discriminate.
  - intros s x _ Hx. rewrite (proj2 (C123_centred 2 _ _ _ _ _ s x)). destruct x as [|[|]]; [| |lia]; unfold dim_U, dim_h, rsum, nsum; cbn; lra.
Qed.
Lemma dim_run mu : exists es e scts, build (fun _ => true) (/ 2) real_eigh (fun _ _ _ => Err ValueError) 2 dim_h dim_fl (VArray RRing dim_U) false mu None None "sz" = Ok (es, Some e) /\ stores es scts.
Proof.
  destruct (C85_ground (fun _ => true) (/ 2) 2 dim_h dim_fl (VArray RRing dim_U) false mu None dim_U real_eigh (fun _ _ _ => Err ValueError) dim_ok C85_contract) as (es & e & E & _).
  destruct (exact_solved (fun _ => true) (/ 2) 2 dim_h dim_fl (VArray RRing dim_U) false mu None dim_U dim_ok real_eigh (fun _ _ _ => Err ValueError) C85_contract es (Some e) E) as (F & LF & _).
  exists es, e, (map (fun e => as_array (snd e)) es). split; [exact E|]. exact (as_array_family 2 es F LF).
Qed.
Example C123_ex : exists es e scts u d g, build (fun _ => true) (/ 2) real_eigh (fun _ _ _ => Err ValueError) 2 dim_h dim_fl (VArray RRing dim_U) false (-(3 / 2)) None None "sz" = Ok (es, Some e) /\
  fst (get_occupation scts e 5 2) = Ok (u, d) /\ nth 0 u 0 = / 2 /\ nth 1 d 0 = / 2 /\ build_gf2_exact 2 es 5 e 0%Z = Ok g /\
  forall w eta, exists G G', gm_call g (rcx w) eta = Ok G /\ gm_call g (rcx (- w)) eta = Ok G' /\ GmSpec.entry G' 0 0 = cxmul (rcx (-1)) (cxconj (GmSpec.entry G 0 0)) /\ GmSpec.entry G' 0 1 = cxconj (GmSpec.entry G 0 1).
Proof.
  destruct (dim_run (-(3 / 2))) as (es & e & scts & E & ST).
  destruct (C123_half_occupation _ _ _ _ _ _ _ _ _ _ _ _ _ _ _ 5 _ dim_ok C85_contract E dim_half ST) as (u & d & EO & HO).
  destruct (C123_half_green _ _ _ _ _ _ _ _ _ _ _ _ _ _ _ 5 0 dim_ok C85_contract E dim_half ltac:(lia)) as (g & EG & _ & HG).
  exists es, e, scts, u, d, g. split; [exact E|]. split; [exact EO|]. split; [apply HO; lia|]. split; [apply HO; lia|]. split; [exact EG|].
  intros w eta. destruct (HG w eta) as (G & G' & C & C' & Q). exists G, G'. split; [exact C|]. split; [exact C'|]. split; rewrite Q by lia; unfold dim_sg, pm; cbn [Nat.eqb].
  - do 2 f_equal. ring.
  - destruct (GmSpec.entry G 0 1) as [a b]. apply cx_eq; cbv [cxmul cxconj rcx re im fst snd]; ring.
Qed.
(** Renumbering the dimer and changing the sign of its hopping: the Green's function between the sites
    changes sign.  Levels 0 and 2, so that the two sites differ. *)
Definition tilt_h (a b t : R) : hmat RRing := H2 RRing (fun i j => if (i =? j)%nat then (if (i =? 0)%nat then a else b) else t).
Lemma tilt_ok a b t : model_ok (/ 2) 2 (tilt_h a b t) dim_fl (VArray RRing dim_U) dim_U.
Proof.
  split; [split; [lia|split; [lia|lra]]|]. split; [reflexivity|]. split; [auto|]. split; [split; exact I|]. split; [|reflexivity].
  intros sp i j _ _. cbn. rewrite (Nat.eqb_sym j i). destruct (i =? j)%nat eqn:E; [apply Nat.eqb_eq in E; now subst|reflexivity].
Qed.
Definition tilt_rho (x : nat) : nat := match x with 0 => 1 | 1 => 0 | _ => x end%nat.
Lemma tilt_related : related 2 false false tilt_rho dim_sg (params_of (fun _ => true) (tilt_h 0 2 (-1)) (VArray RRing dim_U) false 0 None dim_U) (params_of (fun _ => true) (tilt_h 2 0 1) (VArray RRing dim_U) false 0 None dim_U).
Proof.
  split.
  - split; intros x; [intros Hx; destruct x as [|[|]]; cbn; lia|]. intros y Hx Hy. destruct x as [|[|]], y as [|[|]]; cbn; lia.
  - intros s x y _ Hx Hy. destruct x as [|[|]], y as [|[|]]; try lia; cbn; lra.
  - intros x y Hx Hy. destruct x as [|[|]], y as [|[|]]; try lia; reflexivity.
  - intros s x _ Hx. rewrite !(proj2 (C123_centred 2 _ _ _ _ _ _ _)). destruct x as [|[|]]; try lia; unfold dim_U, tilt_h, rsum, nsum, pm, spin'; cbn; lra.
  - intros x y _ _. split; [reflexivity|discriminate].
  - intros x y _ _. split; [reflexivity|discriminate].
Qed.
Example C122_ex : exists es e es' e' g g', build (fun _ => true) (/ 2) real_eigh (fun _ _ _ => Err ValueError) 2 (tilt_h 0 2 (-1)) dim_fl (VArray RRing dim_U) false 0 None None "sz" = Ok (es, Some e) /\
  build (fun _ => true) (/ 2) real_eigh (fun _ _ _ => Err ValueError) 2 (tilt_h 2 0 1) dim_fl (VArray RRing dim_U) false 0 None None "sz" = Ok (es', Some e') /\
  build_gf2_exact 2 es 5 e 0%Z = Ok g /\ build_gf2_exact 2 es' 5 e' 0%Z = Ok g' /\ e' = e /\
  exists G G', gm_call g (rcx 1) 1 = Ok G /\ gm_call g' (rcx 1) 1 = Ok G' /\ GmSpec.entry G' 1 1 = GmSpec.entry G 0 0 /\ GmSpec.entry G' 1 0 = cxopp (GmSpec.entry G 0 1).
Proof.
  destruct (C85_ground (fun _ => true) (/ 2) 2 (tilt_h 0 2 (-1)) dim_fl (VArray RRing dim_U) false 0 None dim_U real_eigh (fun _ _ _ => Err ValueError) (tilt_ok _ _ _) C85_contract) as (es & e & E & _).
  destruct (C85_ground (fun _ => true) (/ 2) 2 (tilt_h 2 0 1) dim_fl (VArray RRing dim_U) false 0 None dim_U real_eigh (fun _ _ _ => Err ValueError) (tilt_ok _ _ _) C85_contract) as (es' & e' & E' & _).
  destruct (C122_green 2 false false tilt_rho dim_sg _ _ _ _ _ _ _ _ _ _ _ _ _ _ _ _ _ _ _ _ _ _ es es' e e' 5 0 (tilt_ok _ _ _) (tilt_ok _ _ _) tilt_related C85_contract C85_contract E E' ltac:(lia)) as (g & g' & B & B' & H).
  destruct (C122_spectrum 2 false false tilt_rho dim_sg _ _ _ _ _ _ _ _ _ _ _ _ _ _ _ _ _ _ _ _ _ _ es es' _ _ (tilt_ok _ _ _) (tilt_ok _ _ _) tilt_related C85_contract C85_contract E E') as (e0 & E0 & E1 & _).
  destruct (H (rcx 1) 1 (rcx 1) 1 eq_refl) as (G & G' & C & C' & Q).
  exists es, e, es', e', g, g'. split; [exact E|]. split; [exact E'|]. split; [exact B|]. split; [exact B'|]. split.
  - injection E0 as <-. injection E1 as ->. unfold offset, p_shift, tilt_h, dim_U, rsum, nsum; cbn; lra.
  - exists G, G'. split; [exact C|]. split; [exact C'|].
    pose proof (Q 0%nat 0%nat ltac:(lia) ltac:(lia)) as Q1. pose proof (Q 0%nat 1%nat ltac:(lia) ltac:(lia)) as Q2. cbn [tilt_rho] in Q1, Q2. rewrite Q1, Q2.
    destruct (GmSpec.entry G 0 0) as [a b]. destruct (GmSpec.entry G 0 1) as [c d]. split; apply cx_eq; cbv [cxmul cxopp rcx re im fst snd pm dim_sg Nat.eqb]; ring.
Qed.
(** Two solvers that return different eigenvectors: one changes the sign of every vector. *)
Definition minus_eigh (D : dense RRing) : res (list R * list (list R)) :=
  match real_eigh D with Ok (w, v) => Ok (w, map (map Ropp) v) | Err x => Err x end.
Lemma minus_at l k i : nth i (nth k (map (map Ropp) l) []) 0 = - nth i (nth k l []) 0.
Proof. change (@nil R) with (map Ropp []) at 1. rewrite map_nth. rewrite <- Ropp_0 at 1. apply map_nth. Qed.
Lemma minus_contract : eigh_contract minus_eigh.
Proof.
  intros D d EC SY. destruct (C85_contract D EC SY) as (w & v & E & LW & LV & LN & ON & EV & AS). exists w, (map (map Ropp) v). unfold minus_eigh. rewrite E.
  split; [reflexivity|]. split; [exact LW|]. split; [now rewrite map_length|]. split; [|split; [|split; [|exact AS]]].
  - intros k Hk. change (@nil R) with (map Ropp []). rewrite map_nth, map_length. now apply LN.
  - intros j k Hj Hk. rewrite <- (ON j k Hj Hk). apply rsum_ext. intros i _. rewrite !minus_at. ring.
  - intros k a Hk Ha. rewrite minus_at. transitivity (- (nth k w 0 * nth a (nth k v []) 0)); [|ring]. rewrite <- (EV k a Hk Ha). transitivity (- (1) * rsum d (fun b => d_at RRing D a b * nth b (nth k v []) 0)); [|match goal with |- @eq _ (_ * ?a) _ => change (- (1) * a = - a) end; ring]. rewrite <- rsum_scal_l.
    apply rsum_ext. intros b _. rewrite minus_at. change (d_at RRing D a b * - nth b (nth k v []) 0 = - (1) * (d_at RRing D a b * nth b (nth k v []) 0)). ring.
Qed.
Lemma minus_other D : (0 < d_rows RRing D)%nat -> d_cols RRing D = d_rows RRing D -> (forall a b, (a < d_rows RRing D)%nat -> (b < d_rows RRing D)%nat -> d_at RRing D a b = d_at RRing D b a) -> minus_eigh D <> real_eigh D.
Proof.
  intros H0 EC SY Q. destruct (C85_contract D EC SY) as (w & v & E & _ & _ & _ & ON & _). unfold minus_eigh in Q. rewrite E in Q. injection Q as Q.
  specialize (ON 0%nat 0%nat H0 H0). rewrite rsum_0 in ON; [cbn in ON; lra|]. intros i _. assert (Z : nth i (nth 0 v []) 0 = 0); [|rewrite Z; ring]. pose proof (minus_at v 0 i) as A. rewrite Q in A. lra.
Qed.
Example C121_ex : exists es e es' e' g g', build (fun _ => true) (/ 2) real_eigh (fun _ _ _ => Err ValueError) 2 dim_h dim_fl (VArray RRing dim_U) false (-1) None None "sz" = Ok (es, Some e) /\
  build (fun _ => true) (/ 2) minus_eigh (fun _ _ _ => Err ValueError) 2 dim_h dim_fl (VArray RRing dim_U) false (-1) None None "sz" = Ok (es', Some e') /\
  build_gf2_exact 2 es 5 e 1%Z = Ok g /\ build_gf2_exact 2 es' 5 e' 1%Z = Ok g' /\
  exists G G', gm_call g (rcx 1) 1 = Ok G /\ gm_call g' (rcx 1) 1 = Ok G' /\ GmSpec.entry G' 0 1 = GmSpec.entry G 0 1.
Proof.
  destruct (C85_ground (fun _ => true) (/ 2) 2 dim_h dim_fl (VArray RRing dim_U) false (-1) None dim_U real_eigh (fun _ _ _ => Err ValueError) dim_ok C85_contract) as (es & e & E & _).
  destruct (C85_ground (fun _ => true) (/ 2) 2 dim_h dim_fl (VArray RRing dim_U) false (-1) None dim_U minus_eigh (fun _ _ _ => Err ValueError) dim_ok minus_contract) as (es' & e' & E' & _).
  destruct (C121_green 2 _ _ _ _ _ _ _ _ _ _ _ es e _ _ es' e' 5 1 dim_ok C85_contract minus_contract ltac:(lia) E E') as (g & g' & B & B' & H). destruct (H (rcx 1) 1) as (G & G' & C & C' & Q).
  exists es, e, es', e', g, g'. split; [exact E|]. split; [exact E'|]. split; [exact B|split; [exact B'|exists G, G'; split; [exact C|split; [exact C'|apply Q; lia]]]].
Qed.
