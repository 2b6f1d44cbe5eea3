(** What the code returns for two related models. *)
From Coq Require Import String Reals List Arith NArith ZArith Bool Lia Lra Ring Permutation.
From Verif Require Import Base RBase RLin CBase OperatorsModel OperatorsSpec OperatorsProofs LookupModel LookupSpec LookupProofs SectorModel SectorSpec SectorProofs FockSpec FockProofs LocalModel LocalSpec HoppingModel CsrSpec NonLocalSpec
  MatvecModel MbModel MbSpec EspaceModel ProjModel ProjSpec ProjProofs ProjFinalProofs CfModel CfMoreProofs GfModel GfSpec GfProofs GfSumProofs GfMoreProofs GmModel GmSpec GmFockProofs GmProofs SpectralProofs ExactSpec ExactProofs ExactMoreProofs
  ObsModel ObsSpec ObsProofs ObsMoreProofs OccSpec OccProofs FlipProofs SymSpec SymProofs RelSpec RelLinProofs RelFockProofs RelHamProofs RelProofs RelGfProofs.
Import ListNotations.
Local Open Scope R_scope.

(** Occupation of an orbital from the stored sectors. *)
Lemma thermal_mean n Hm es F scts beta egs orb : lists_family n es F -> solved n Hm F -> Forall2 (fun e o => stored (snd e) o) es scts ->
  thermal scts egs beta n orb = occ_mean n F orb (weight beta egs) / Zsum n beta egs F.
Proof.
  intros LF SO HS. unfold thermal. rewrite (scts_Z n es F beta egs LF scts HS). f_equal. unfold occ_mean.
  apply (scts_bsum n es F LF scts HS _ (fun p q => rsum (nvals (F p q)) (fun j => weight beta egs (energy (F p q) j) *
    rsum (sdim RRing (F p q)) (fun a => rnum (basis RRing n (F p q) a) orb * (nth a (vec RRing (F p q) j) 0 * nth a (vec RRing (F p q) j) 0))))).
  intros p q o Hp Hq (SS & SV & MA & EN). destruct (proj2 (proj2 LF) p q Hp Hq) as (_ & _ & _ & P4 & _). rewrite SV. apply rsum_ext. intros j Hj. unfold boltzmann. rewrite SV. unfold weight, energy. f_equal.
  unfold sector_expect. rewrite SS, P4, SV. unfold expect. change (@nsum RRing) with rsum. change (length (dws RRing (F p q)) * length (ups RRing (F p q)))%nat with (sdim RRing (F p q)).
  apply rsum_ext. intros a Ha. rewrite (Nat.mul_comm (length (ups RRing (F p q)))). change (length (dws RRing (F p q)) * length (ups RRing (F p q)))%nat with (sdim RRing (F p q)). change (length (s_vals RRing (F p q))) with (nvals (F p q)).
  rewrite EN by auto. change (fock_at n (ups RRing (F p q)) (dws RRing (F p q)) a) with (basis RRing n (F p q) a). unfold rnum. destruct (occ _ orb); change (c0 RRing) with 0; change (cmul RRing) with Rmult; rring.
Qed.

Section Final.
Variables (n : nat) (hole sw : bool) (rho : nat -> nat) (sg : nat -> bool).
Variables (big : R -> bool) (half : R) (h : hmat RRing) (fl : hflags) (V : inter RRing) (hf : bool) (mu : R) (z : option (nat -> R)) (U : nat -> nat -> R).
Variables (big' : R -> bool) (half' : R) (h' : hmat RRing) (fl' : hflags) (V' : inter RRing) (hf' : bool) (mu' : R) (z' : option (nat -> R)) (U' : nat -> nat -> R).
Notation P := (params_of big h V hf mu z U). Notation P' := (params_of big' h' V' hf' mu' z' U').
Hypothesis MO : model_ok half n h fl V U. Hypothesis MO' : model_ok half' n h' fl' V' U'.
Hypothesis HRel : related n hole sw rho sg P P'.
Variables (eigh eigh' : dense RRing -> res (list R * list (list R))) (eigsh eigsh' : nat -> Z -> (list R -> res (list R)) -> res (list R * list (list R))).
Hypothesis HC : eigh_contract eigh. Hypothesis HC' : eigh_contract eigh'.
Variables (es es' : espace RRing) (egs egs' : option R).
Hypothesis HB : build_espace RRing Rleb big half eigh eigsh n h fl V hf mu z None "sz" = Ok (es, egs).
Hypothesis HB' : build_espace RRing Rleb big' half' eigh' eigsh' n h' fl' V' hf' mu' z' None "sz" = Ok (es', egs').
Notation shift0 := (offset n P' - offset n P).
Notation iu := (image_up n hole sw). Notation idw := (image_dw n hole sw).

Definition connected (F F' : family) : Prop := exists tau th,
  trafo (2 * n) hole (rho2 n sw rho) (fun k => zpm (sg (site n k))) tau th /\
  (forall p q t s, sec n p q t -> sec n p q s -> Hmat n P' (tau t) (tau s) = rth th t * rth th s * Hmat n P t s + (if N.eqb t s then shift0 else 0)) /\
  lists_family n es F /\ lists_family n es' F' /\ solved n (Hmat n P) F /\ solved n (Hmat n P') F'.
Lemma families : exists F F' e e', connected F F' /\ egs = Some e /\ egs' = Some e' /\
  (forall p q k, (p <= n)%nat -> (q <= n)%nat -> (k < nvals (F p q))%nat -> e <= energy (F p q) k) /\ (exists p q, (p <= n)%nat /\ (q <= n)%nat /\ (0 < nvals (F p q))%nat /\ e = energy (F p q) 0) /\
  (forall p q k, (p <= n)%nat -> (q <= n)%nat -> (k < nvals (F' p q))%nat -> e' <= energy (F' p q) k) /\ (exists p q, (p <= n)%nat /\ (q <= n)%nat /\ (0 < nvals (F' p q))%nat /\ e' = energy (F' p q) 0).
Proof.
  destruct (exact_solved big half n h fl V hf mu z U MO eigh eigsh HC es egs HB) as (F & LF & SO & LB & p & q & Hp & Hq & NV & E).
  destruct (exact_solved big' half' n h' fl' V' hf' mu' z' U' MO' eigh' eigsh' HC' es' egs' HB') as (F' & LF' & SO' & LB' & p' & q' & Hp' & Hq' & NV' & E').
  destruct (trafo_exists n hole sw rho sg (rel_rho _ _ _ _ _ _ _ HRel)) as (tau & th & HT).
  exists F, F', (energy (F p q) 0), (energy (F' p' q') 0). split; [|split; [exact E|split; [exact E'|split; [|split; [exists p, q; auto|split; [|exists p', q'; auto]]]]]].
  - exists tau, th. split; [exact HT|]. split; [|auto].
    intros a b t s S1 S2. pose proof (sec_small n _ _ _ S1) as B1. pose proof (sec_small n _ _ _ S2) as B2.
    destruct (small_split n (tau t) (tf_lt _ _ _ _ _ _ HT t B1)) as (ub' & db' & Eb' & Bub' & Bdb'). destruct (small_split n (tau s) (tf_lt _ _ _ _ _ _ HT s B2)) as (ua' & da' & Ea' & Bua' & Bda').
    destruct (small_split n t B1) as (ub & db & Eb & Bub & Bdb). destruct (small_split n s B2) as (ua & da & Ea & Bua & Bda).
    unfold Hmat. rewrite Eb', Ea'. destruct (combine_parts n ub' db' Bub') as [-> ->]. destruct (combine_parts n ua' da' Bua') as [-> ->]. subst t s. destruct (combine_parts n ub db Bub) as [-> ->]. destruct (combine_parts n ua da Bua) as [-> ->].
    unfold shift0. apply (ham_rel n hole sw rho sg P P' tau th HRel HT); auto.
    + intros k x y _ Hx Hy. cbn [params_of P_T]. destruct MO as (_ & _ & _ & _ & HS & _). unfold offdiag. rewrite (HS k x y Hx Hy), (Nat.eqb_sym y x). reflexivity.
    + intros k x _ _. cbn [params_of P_T]. unfold offdiag. rewrite Nat.eqb_refl. reflexivity.
  - intros a b k Ha Hb Hk. destruct (LB a b k Ha Hb Hk) as (e & E1 & L). rewrite E in E1. injection E1 as ->. exact L.
  - intros a b k Ha Hb Hk. destruct (LB' a b k Ha Hb Hk) as (e & E1 & L). rewrite E' in E1. injection E1 as ->. exact L.
Qed.
Lemma preimage p' q' : (p' <= n)%nat -> (q' <= n)%nat -> exists p q, (p <= n)%nat /\ (q <= n)%nat /\ iu p q = p' /\ idw p q = q'.
Proof.
  intros Hp Hq. exists (let r := if sw then q' else p' in if hole then (n - r)%nat else r), (let r := if sw then p' else q' in if hole then (n - r)%nat else r).
  unfold image_up, image_dw. destruct hole, sw; repeat split; lia.
Qed.
Theorem related_spectrum : exists e, egs = Some e /\ egs' = Some (e + shift0) /\
  forall p q s s', In ([p; q], s) es -> In ([iu p q; idw p q], s') es' -> s_vals RRing s' = map (fun v => v + shift0) (s_vals RRing s).
Proof.
  destruct families as (F & F' & e & e' & (tau & th & HT & HH & LF & LF' & SO & SO') & E & E' & LB & (p & q & Hp & Hq & NV & EM) & LB' & (p' & q' & Hp' & Hq' & NV' & EM')).
  pose proof (energy_image n hole sw rho sg tau th (Hmat n P) (Hmat n P') shift0 (rel_rho _ _ _ _ _ _ _ HRel) HT HH F F' SO SO') as EI.
  pose proof (image_vals n hole sw rho sg tau th (Hmat n P) (Hmat n P') shift0 HT HH F F' SO SO') as IV.
  exists e. split; [exact E|]. split.
  - rewrite E'. f_equal. apply Rle_antisym.
    + rewrite EM, <- EI by (auto; destruct (SO p q Hp Hq) as (_ & <- & _); exact NV). destruct (image_le n hole sw rho sg tau th (Hmat n P) (Hmat n P') shift0 HT HH p q Hp Hq) as [A B]. apply LB'; auto. rewrite IV by auto. exact NV.
    + destruct (preimage p' q' Hp' Hq') as (a & b & Ha & Hb & <- & <-). rewrite IV in NV' by auto. rewrite EM', EI by (auto; destruct (SO a b Ha Hb) as (_ & <- & _); exact NV'). apply Rplus_le_compat_r. now apply LB.
  - intros a b s s' I I'. apply (proj1 (proj2 LF)) in I. destruct I as (a1 & b1 & Ha & Hb & K & ->). injection K as <- <-. apply (proj1 (proj2 LF')) in I'. destruct I' as (a2 & b2 & _ & _ & K & ->). injection K as <- <-.
    pose proof (IV a b Ha Hb) as L. apply (nth_ext _ _ 0 ((fun v => v + shift0) 0)); [rewrite map_length; exact L|]. intros k Hk. rewrite (map_nth (fun v => v + shift0)). apply (EI a b k Ha Hb). destruct (SO a b Ha Hb) as (_ & <- & _). rewrite <- L. exact Hk.
Qed.
Lemma entry_map (f : nat -> nat -> cx) x y : (x < n)%nat -> (y < n)%nat -> GmSpec.entry (map (fun x => map (fun y => f x y) (seq 0 n)) (seq 0 n)) x y = f x y.
Proof.
  intros Hx Hy. unfold GmSpec.entry. rewrite (nth_indep _ [] (map (fun y => f 0%nat y) (seq 0 n))) by (now rewrite map_length, seq_length).
  rewrite (map_nth (fun x => map (fun y => f x y) (seq 0 n)) (seq 0 n) 0%nat x), seq_nth by auto. rewrite (nth_indep _ (rcx 0) (f (0 + x)%nat 0%nat)) by (now rewrite map_length, seq_length).
  rewrite (map_nth (fun y => f (0 + x)%nat y) (seq 0 n) 0%nat y), seq_nth by auto. reflexivity.
Qed.
Theorem related_green beta s e e' : (s <= 1)%nat -> egs = Some e -> egs' = Some e' ->
  exists g g', build_gf2_exact n es beta e (Z.of_nat s) = Ok g /\ build_gf2_exact n es' beta e' (Z.of_nat (spin' sw s)) = Ok g' /\
  forall E eta E' eta', zpoint E' eta' = image_z hole (zpoint E eta) -> exists G G', gm_call g E eta = Ok G /\ gm_call g' E' eta' = Ok G' /\
    forall x y, (x < n)%nat -> (y < n)%nat -> GmSpec.entry G' (rho x) (rho y) = cxmul (rcx (pm hole * (pm (sg x) * pm (sg y)))) (GmSpec.entry G x y).
Proof.
  intros Hs EE EE'. destruct related_spectrum as (e0 & E0 & E1 & _). rewrite EE in E0. injection E0 as <-. rewrite EE' in E1. injection E1 as ->.
  destruct families as (F & F' & e1 & e1' & (tau & th & HT & HH & LF & LF' & SO & SO') & _).
  assert (Hs' : (spin' sw s <= 1)%nat) by (unfold spin'; destruct sw; lia).
  destruct (gm_lehmann n es F beta e s LF Hs) as (g & BG & _ & GC). destruct (gm_lehmann n es' F' beta (e + shift0) (spin' sw s) LF' Hs') as (g' & BG' & _ & GC').
  exists g, g'. split; [exact BG|]. split; [exact BG'|]. intros E eta E' eta' HZ. eexists _, _. split; [apply GC|]. split; [apply GC'|]. intros x y Hx Hy. set (HRr := rel_rho _ _ _ _ _ _ _ HRel). pose proof (proj1 HRr x Hx) as Bx. pose proof (proj1 HRr y Hy) as By.
  rewrite (entry_map (fun x y => cxdiv (lehmann n s x y beta e F (zpoint E eta)) (rcx (Zsum n beta e F))) x y Hx Hy).
  rewrite (entry_map (fun x y => cxdiv (lehmann n (spin' sw s) x y beta (e + shift0) F' (zpoint E' eta')) (rcx (Zsum n beta (e + shift0) F'))) (rho x) (rho y) Bx By).
  rewrite HZ, (lehmann_image n hole sw rho sg tau th (Hmat n P) (Hmat n P') shift0 HRr HT HH F F' SO SO' s x y beta e) by (auto; lia).
  rewrite (Z_image n hole sw rho sg tau th (Hmat n P) (Hmat n P') shift0 HRr HT HH F F' SO SO'). unfold cxdiv. generalize (lehmann n s x y beta e F (zpoint E eta)) (cxinv (rcx (Zsum n beta e F))). intros [a b] [c d]. apply cx_eq; cbv [cxmul rcx re CBase.im fst snd]; ring.
Qed.
Lemma solved_basis Hm F : solved n Hm F -> forall p q, (p <= n)%nat -> (q <= n)%nat -> eigenbasis (F p q).
Proof. intros SO p q Hp Hq. destruct (SO p q Hp Hq) as (_ & NV & _ & [ON _] & _). split; auto. Qed.
Theorem related_occupation beta e e' scts scts' : egs = Some e -> egs' = Some e' -> Forall2 (fun e o => stored (snd e) o) es scts -> Forall2 (fun e o => stored (snd e) o) es' scts' ->
  exists ud ud', fst (get_occupation scts e beta n) = Ok ud /\ fst (get_occupation scts' e' beta n) = Ok ud' /\
  forall s x, (s <= 1)%nat -> (x < n)%nat -> nth (rho x) (pick (spin' sw s) ud') 0 = image_occ hole (nth x (pick s ud) 0).
Proof.
  intros EE EE' ST ST'. destruct related_spectrum as (e0 & E0 & E1 & _). rewrite EE in E0. injection E0 as <-. rewrite EE' in E1. injection E1 as ->.
  destruct families as (F & F' & e1 & e1' & (tau & th & HT & HH & LF & LF' & SO & SO') & _). set (HRr := rel_rho _ _ _ _ _ _ _ HRel).
  assert (H0 : (0 < n)%nat) by (destruct MO as ((Hn & _) & _); lia).
  destruct (thermal_ok scts e beta n (scts_ok n es F LF (solved_basis _ F SO) scts ST) (scts_nonempty n es F beta e 0 LF H0 (solved_basis _ F SO) scts ST)) as (u & d & EO & _ & _ & HK).
  destruct (thermal_ok scts' (e + shift0) beta n (scts_ok n es' F' LF' (solved_basis _ F' SO') scts' ST') (scts_nonempty n es' F' beta (e + shift0) 0 LF' H0 (solved_basis _ F' SO') scts' ST')) as (u' & d' & EO' & _ & _ & HK').
  exists (u, d), (u', d'). split; [exact EO|]. split; [exact EO'|]. intros s x Hs Hx. pose proof (proj1 HRr x Hx) as Bx.
  assert (Q1 : nth x (pick s (u, d)) 0 = thermal scts e beta n (x + s * n)).
  { destruct s as [|[|]]; [| |lia]; cbn [pick fst snd]; [rewrite (proj1 (HK x Hx)); f_equal; lia|rewrite (proj1 (proj2 (HK x Hx))); f_equal; lia]. }
  assert (Q2 : nth (rho x) (pick (spin' sw s) (u', d')) 0 = thermal scts' (e + shift0) beta n (rho x + spin' sw s * n)).
  { assert (Hs' : (spin' sw s <= 1)%nat) by (unfold spin'; destruct sw; lia). destruct (spin' sw s) as [|[|]]; [| |lia]; cbn [pick fst snd]; [rewrite (proj1 (HK' _ Bx)); f_equal; lia|rewrite (proj1 (proj2 (HK' _ Bx))); f_equal; lia]. }
  rewrite Q1, Q2, (thermal_mean n (Hmat n P) es F scts beta e _ LF SO ST), (thermal_mean n (Hmat n P') es' F' scts' beta (e + shift0) _ LF' SO' ST').
  rewrite (Z_image n hole sw rho sg tau th (Hmat n P) (Hmat n P') shift0 HRr HT HH F F' SO SO').
  rewrite (occ_image n hole sw rho sg tau th (Hmat n P) (Hmat n P') shift0 HRr HT HH F F' SO SO' s x (weight beta e)) by (auto; try lia; intros a; unfold weight; f_equal; ring).
  pose proof (Zsum_pos n es F beta e 0 LF H0 (solved_basis _ F SO)) as ZP. unfold image_occ. destruct hole; [|reflexivity]. change (phi_sum n F (weight beta e)) with (Zsum n beta e F). field. lra.
Qed.
End Final.
