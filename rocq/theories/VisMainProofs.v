(** The partition functions of the visited and of the final dictionary. *)
From Coq Require Import String Reals List Arith NArith ZArith Bool Lia Lra Psatz Ring.
From Verif Require Import Base RBase RLin CBase OperatorsModel OperatorsSpec LookupModel SectorModel SectorSpec SectorProofs FockSpec LocalModel MatvecModel EspaceModel
  ProjModel ProjSpec ProjProofs LanczosModel LanczosSpec CfModel CfSpec GfModel GfSpec GfSumProofs GflModel GflSpec GflProofs GflLoopProofs GflMainProofs GflInstProofs GflExProofs VisSpec VisProofs.
Import ListNotations.
Local Open Scope R_scope.

Lemma bessel_vec d m (v : nat -> nat -> R) (x : nat -> R) : orthonormal d m v ->
  rsum m (fun k => rsum d (fun a => v k a * x a) ^ 2) <= rsum d (fun a => x a * x a).
Proof.
  intros HO. set (c := fun k => rsum d (fun a => v k a * x a)). set (g := fun a => rsum m (fun k => c k * v k a)).
  assert (G1 : rsum d (fun a => g a * x a) = rsum m (fun k => c k ^ 2)).
  { unfold g. rewrite (rsum_ext d _ (fun a => rsum m (fun k => c k * (v k a * x a)))) by (intros a _; rewrite <- rsum_scal_r; apply rsum_ext; intros; ring).
    rewrite rsum_swap. apply rsum_ext. intros k _. rewrite rsum_scal_l. fold (c k). ring. }
  assert (G2 : rsum d (fun a => g a * g a) = rsum m (fun k => c k ^ 2)).
  { unfold g at 2. rewrite (rsum_ext d _ (fun a => rsum m (fun k => c k * (v k a * g a)))) by (intros a _; rewrite Rmult_comm, <- rsum_scal_r; apply rsum_ext; intros; ring).
    rewrite rsum_swap. apply rsum_ext. intros k Hk. rewrite rsum_scal_l. replace (rsum d (fun a => v k a * g a)) with (c k); [ring|]. unfold g.
    rewrite (rsum_ext d _ (fun a => rsum m (fun l => c l * (v k a * v l a)))) by (intros a _; rewrite <- rsum_scal_l; apply rsum_ext; intros; ring).
    rewrite rsum_swap. rewrite (rsum_single m _ k Hk).
    2:{ intros l Hl NE. rewrite rsum_scal_l, (HO k l Hk Hl). destruct (Nat.eqb_spec k l); [congruence|ring]. }
    rewrite rsum_scal_l, (HO k k Hk Hk), Nat.eqb_refl. ring. }
  assert (P : 0 <= rsum d (fun a => (x a - g a) * (x a - g a))) by (apply rsum_nonneg; intros; apply Rle_0_sqr).
  rewrite (rsum_ext d _ (fun a => x a * x a - 2 * (g a * x a) + g a * g a)) in P by (intros; ring).
  rewrite rsum_add, rsum_sub, rsum_scal_l, G1, G2 in P. change (rsum m (fun k => c k ^ 2) <= rsum d (fun a => x a * x a)). lra.
Qed.

(** Any orthonormal eigenvectors weigh at most as much as a complete set. *)
Lemma trace_le d m M (v : nat -> nat -> R) (E : nat -> R) w U (f : R -> R) : matrix_symmetric d M -> orthonormal d m v ->
  (forall i a, (i < m)%nat -> (a < d)%nat -> rsum d (fun b => M a b * v i b) = E i * v i a) -> eigensystem d M w U -> (forall x, 0 <= f x) ->
  rsum m (fun i => f (E i)) <= rsum d (fun k => f (nth k w 0)).
Proof.
  intros HM HO HE (Lw & LU & Lu & HU & HV) Hf. set (u := fun k a => nth a (nth k U []) 0). set (o := fun k i => rsum d (fun a => u k a * v i a)).
  assert (SAME : forall k i, (k < d)%nat -> (i < m)%nat -> f (E i) * o k i ^ 2 = f (nth k w 0) * o k i ^ 2).
  { intros k i Hk Hi. assert (X : E i * o k i = nth k w 0 * o k i).
    { unfold o. rewrite <- !rsum_scal_l.
      rewrite (rsum_ext d (fun a => E i * _) (fun a => rsum d (fun b => u k a * M a b * v i b))) by
        (intros a Ha; rewrite (rsum_ext d _ (fun b => u k a * (M a b * v i b))) by (intros; ring); rewrite rsum_scal_l, HE by auto; ring).
      rewrite rsum_swap. apply rsum_ext. intros b Hb.
      rewrite (rsum_ext d _ (fun a => v i b * (M b a * nth a (nth k U []) 0))) by (intros a Ha; rewrite (HM a b) by auto; unfold u; ring).
      rewrite rsum_scal_l, (HV k b Hk Hb). unfold u. ring. }
    destruct (Req_dec (o k i) 0) as [-> |N]; [ring|]. apply Rmult_eq_reg_r in X; [now rewrite X|exact N]. }
  rewrite (rsum_ext m _ (fun i => rsum d (fun k => f (nth k w 0) * o k i ^ 2))).
  - rewrite rsum_swap. apply rsum_le. intros k Hk. rewrite rsum_scal_l. rewrite <- (Rmult_1_r (f (nth k w 0))) at 2. apply Rmult_le_compat_l; [apply Hf|].
    pose proof (bessel_vec d m v (u k) HO) as B. pose proof (HU k k Hk Hk) as N1. rewrite Nat.eqb_refl in N1. fold (u k) in N1. unfold u at 2 3 in B. rewrite N1 in B.
    erewrite rsum_ext; [exact B|]. intros i _. cbv beta. f_equal. unfold o. apply rsum_ext. intros; ring.
  - intros i Hi. rewrite (rsum_ext d _ (fun k => f (E i) * o k i ^ 2)) by (intros k Hk; symmetry; now apply SAME). rewrite rsum_scal_l.
    unfold o. rewrite (parseval d u (v i) HU). pose proof (HO i i Hi Hi) as N1. rewrite Nat.eqb_refl in N1.
    rewrite (rsum_ext d _ (fun a => v i a * v i a)) by (intros; ring). rewrite N1. ring.
Qed.
Lemma weight_pos beta egs x : 0 < weight beta egs x. Proof. apply exp_pos. Qed.
Lemma rsuml_le {A} (f g : A -> R) l : (forall x, In x l -> f x <= g x) -> rsuml (map f l) <= rsuml (map g l).
Proof. induction l as [|x l IH]; intros H; cbn [map rsuml fold_right]; [lra|]. apply Rplus_le_compat; [apply H; now left|]. apply IH. intros y I. apply H. now right. Qed.

Section Main.
Variable solve : states_t -> res (list R * list (list R)).
Variable mvop : states_t -> res (list R -> res (list R)).
Variable n : nat.
Variable M : nat -> nat -> nat -> nat -> R.
Hypothesis Hn : (n <= 32)%nat.
Hypothesis Hop : operators n mvop M.
Hypothesis Hsolve : solver n solve M.
Variable ispin : Z.
Notation visits := (visits solve n ispin).
Notation finally := (finally solve n ispin).
Notation refreshed := (refreshed solve n).

Lemma refreshed_eigen hits e : (exists p q, fst e = [p; q] /\ is_sector RRing n p q (snd e)) -> eigenstates n M [e] -> eigenstates n M [refreshed hits e].
Proof.
  destruct e as [key s]. cbn [fst snd]. intros (p0 & q0 & -> & HI) HE p q t [E|[]]. revert E. unfold VisSpec.refreshed. cbn [fst snd dim_of].
  destruct (Nat.leb_spec (dimn n p0 q0) 10) as [Hd|Hd]; cbn [andb]; [destruct (listed _ _)|]; intros E; injection E as -> -> E; [|rewrite <- E; apply HE; now left|rewrite <- E; apply HE; now left].
  destruct (renewed_sector solve n M Hn Hsolve p q s Hd HI) as (_ & w & U & _ & (Lw & LU & Lu & HU & HV) & ER). rewrite ER in E. subst t.
  assert (NV : nvals (mksct RRing (s_states RRing (bare n p q)) w (Cols RRing U)) = dimn n p q) by exact Lw. rewrite NV. split; [exact HU|exact HV].
Qed.
Lemma eigen_all es : (forall e, In e es -> eigenstates n M [e]) -> eigenstates n M es.
Proof. intros H p q s I. exact (H _ I p q s (or_introl eq_refl)). Qed.
Lemma eigen_one es e : eigenstates n M es -> In e es -> eigenstates n M [e].
Proof. intros H I p q s [-> |[]]. now apply H. Qed.
Lemma visits_eigen hits es : sectors n es -> eigenstates n M es -> eigenstates n M (visits hits es).
Proof.
  intros HES HE. apply eigen_all. intros e I. destruct (visits_in solve n ispin es hits e I) as (h & [key s] & I0 & ->). apply refreshed_eigen; [exact (proj2 HES _ _ I0)|].
  exact (eigen_one es _ HE I0).
Qed.

(** Completing more sectors weighs more. *)
Variables beta egs : R.
Notation Z1 := (fun e : qnums * sct RRing => rsum (nvals (snd e)) (fun i => weight beta egs (energy (snd e) i))).
Lemma refreshed_le h1 h2 e : (exists p q, fst e = [p; q] /\ is_sector RRing n p q (snd e)) -> eigenstates n M [e] -> incl h1 h2 -> Z1 (refreshed h1 e) <= Z1 (refreshed h2 e).
Proof.
  destruct e as [key s]. cbn [fst snd]. intros (p & q & -> & HI) HE HH. pose proof HI as (Hp & Hq & _). unfold VisSpec.refreshed. cbn [fst snd dim_of].
  destruct (Nat.leb_spec (dimn n p q) 10) as [Hd|Hd]; cbn [andb]; [|apply Rle_refl].
  destruct (listed [p; q] h1) eqn:L1.
  - apply listed_spec, HH, listed_spec in L1. rewrite L1. apply Rle_refl.
  - destruct (listed [p; q] h2); [|apply Rle_refl]. cbn [snd]. destruct (renewed_sector solve n M Hn Hsolve p q s Hd HI) as (_ & w & U & _ & HS & ->).
    destruct (HE p q s (or_introl eq_refl)) as [HO HV]. pose proof (proj1 (Hop p q Hp Hq)) as HM.
    pose proof (trace_le (dimn n p q) (nvals s) (M p q) _ (energy s) w U (weight beta egs) HM HO HV HS (fun x => Rlt_le _ _ (weight_pos beta egs x))) as T.
    assert (NV : nvals (mksct RRing (s_states RRing (bare n p q)) w (Cols RRing U)) = dimn n p q) by exact (proj1 HS). rewrite NV. exact T.
Qed.
Lemma none_listed e : refreshed [] e = e.
Proof. unfold VisSpec.refreshed, listed. cbn [existsb]. now rewrite andb_false_r. Qed.
Lemma visits_le es : sectors n es -> eigenstates n M es -> Zof beta egs es <= Zof beta egs (visits [] es) <= Zof beta egs (finally es).
Proof.
  intros HES HE. unfold Zof, VisSpec.finally. rewrite map_map. set (all := flat_map (targets n ispin) (map fst es)).
  cut (forall l hits, incl l es -> incl hits all -> (forall e, In e l -> incl (targets n ispin (fst e)) all) ->
    rsuml (map Z1 l) <= rsuml (map Z1 (visits hits l)) <= rsuml (map (fun x => Z1 (refreshed all x)) l)).
  { intros H. apply H; [apply incl_refl|intros x []|]. intros e I x Ix. unfold all. apply in_flat_map. exists (fst e). split; [now apply in_map|exact Ix]. }
  induction l as [|e l IH]; intros hits HL HH HT; [cbn; lra|]. cbn [VisSpec.visits map rsuml fold_right].
  assert (I : In e es) by (apply HL; now left). destruct e as [key s].
  pose proof (refreshed_le [] hits (key, s) (proj2 HES _ _ I) (eigen_one es _ HE I) (incl_nil_l _)) as A. rewrite none_listed in A.
  pose proof (refreshed_le hits all (key, s) (proj2 HES _ _ I) (eigen_one es _ HE I) HH) as B.
  destruct (IH (hits ++ targets n ispin key)) as [C D].
  - intros x Ix. apply HL. now right.
  - apply incl_app; [exact HH|]. apply (HT (key, s)). now left.
  - intros x Ix. apply HT. now right.
  - unfold rsuml in C, D. cbn [fst]. lra.
Qed.

(** A dictionary whose small sectors are complete is averaged over as it is. *)
Lemma renewed_settled key s es : In (key, s) es -> sectors n es -> settled n solve es -> (dim_of n key <= 10)%nat -> renewed solve s = s.
Proof.
  intros I HES HS Hd. destruct (proj2 HES _ _ I) as (p & q & -> & HI). cbn [dim_of] in Hd. destruct (HS p q s I Hd) as (U & E1 & E2). unfold renewed. rewrite E2.
  destruct s as [st w vs]. cbn in *. now rewrite <- E1.
Qed.
Lemma refreshed_settled es hits e : sectors n es -> settled n solve es -> In e es -> refreshed hits e = e.
Proof.
  intros HES HS I. destruct e as [key s]. unfold VisSpec.refreshed. cbn [fst snd]. destruct (Nat.leb_spec (dim_of n key) 10); [|reflexivity]. cbn [andb].
  destruct (listed key hits); [|reflexivity]. f_equal. now apply (renewed_settled key s es).
Qed.
Lemma visits_settled es : sectors n es -> settled n solve es -> visits [] es = es /\ finally es = es.
Proof.
  intros HES HS. split.
  - cut (forall l hits, incl l es -> visits hits l = l); [intros H; apply H, incl_refl|]. induction l as [|e l IH]; intros hits HL; [reflexivity|]. cbn [VisSpec.visits].
    rewrite (refreshed_settled es) by (auto; apply HL; now left). f_equal. apply IH. intros x Ix. apply HL. now right.
  - unfold VisSpec.finally. etransitivity; [|apply map_id]. apply map_ext_in. intros e I. now apply (refreshed_settled es).
Qed.
End Main.

Theorem gf_lanczos_visits solve mvop tridiag eigh n M es beta egs ispin pos repr separate :
  (n <= 32)%nat -> (pos < n)%nat -> (ispin = 0 \/ ispin = 1)%Z -> repr = "cf"%string \/ repr = "sp"%string /\ eigh_sound eigh ->
  sectors n es -> operators n mvop M -> solver n solve M ->
  krylov n mvop tridiag ispin (visits solve n ispin [] es) (fun op p' q' s i a => exc n op ispin pos p' q' s i a) 11 ->
  exists ge gh, build_gf_lanczos solve mvop tridiag eigh n es beta egs pos repr ispin separate = Ok (finally solve n ispin es, ge, gh) /\
  forall e eta X, im (zpoint e eta) <> 0 -> resolved n M ispin (visits solve n ispin [] es) pos (zpoint e eta) X ->
    gl_call ge e eta = Ok (green_over n beta egs ispin (visits solve n ispin [] es) (finally solve n ispin es) pos X (ops_e separate)) /\
    gl_call gh e eta = Ok (green_over n beta egs ispin (visits solve n ispin [] es) (finally solve n ispin es) pos X (ops_h separate)).
Proof.
  intros Hn Hpos Hsp HR HES Hop Hs HK. destruct (repr_cases repr eigh HR) as (k & ER & Hk).
  exact (visits_k solve mvop tridiag eigh n M beta egs ispin k Hn Hop Hsp Hk pos Hpos Hs es repr separate HES ER HK).
Qed.
Theorem visits_resolved solve n mvop M es ispin pos z : (n <= 32)%nat -> sectors n es -> operators n mvop M -> solver n solve M -> im z <> 0 ->
  exists X, resolved n M ispin (visits solve n ispin [] es) pos z X.
Proof. intros Hn HES Hop Hs Hz. apply (resolved_exists n mvop M); auto. now apply (visits_sectors solve n M ispin Hn Hs). Qed.
