(** The loop of [build_gf_lanczos] over an arbitrary dictionary. *)
From Coq Require Import Reals String List Arith NArith ZArith Bool Lia Lra Psatz Ring Field.
From Verif Require Import Base RBase RLin CBase OperatorsModel OperatorsSpec OperatorsProofs LookupModel SectorModel SectorSpec SectorProofs FockSpec LocalModel MatvecModel EspaceModel
  ProjModel ProjSpec ProjProofs ProjMoreProofs ProjFinalProofs LanczosSpec CfModel CfSpec CfProofs CfMoreProofs GfModel GfSpec GfProofs GfMoreProofs GflModel GflSpec DmftProofs GflProofs GflLoopProofs GflMainProofs VisSpec.
Import ListNotations.
Local Open Scope R_scope.

Section Vis.
Variable solve : states_t -> res (list R * list (list R)).
Variable mvop : states_t -> res (list R -> res (list R)).
Variable tridiag : (list R -> res (list R)) -> list R -> res (list R * list R).
Variable eigh : list R -> list R -> res (list R * list (list R)).
Variable n : nat.
Variable M : nat -> nat -> nat -> nat -> R.
Variables (beta egs : R) (ispin : Z) (k : kern).
Hypothesis Hn : (n <= 32)%nat.
Hypothesis Hop : operators n mvop M.
Hypothesis Hsp : (ispin = 0 \/ ispin = 1)%Z.
Hypothesis HK : k = KSp -> eigh_sound eigh.
Variable pos : nat.
Hypothesis Hpos : (pos < n)%nat.
Hypothesis Hsolve : solver n solve M.

Lemma listed_spec key hits : listed key hits = true <-> In key hits.
Proof.
  unfold listed. rewrite existsb_exists. split.
  - intros (x & I & E). destruct (list_eq_dec Nat.eq_dec key x); [now subst|discriminate].
  - intros I. exists key. split; [exact I|]. destruct (list_eq_dec Nat.eq_dec key key); congruence.
Qed.
Lemma renewed_sector p q s : (dimn n p q <= 10)%nat -> is_sector RRing n p q s -> is_sector RRing n p q (renewed solve s) /\
  exists w U, solve (s_states RRing (bare n p q)) = Ok (w, U) /\ eigensystem (dimn n p q) (M p q) w U /\ renewed solve s = mksct RRing (s_states RRing (bare n p q)) w (Cols RRing U).
Proof.
  intros Hd HI. pose proof HI as (Hp & Hq & _). destruct (Hsolve p q Hp Hq Hd) as (w & U & ES & HE). pose proof HE as (Lw & LU & Lu & _).
  pose proof (bare_states n Hn p q Hp Hq s HI) as EB. pose proof (bare_sector n Hn p q Hp Hq) as (_ & _ & _ & B1 & B2 & B3 & _).
  assert (E : renewed solve s = mksct RRing (s_states RRing (bare n p q)) w (Cols RRing U)) by (unfold renewed; now rewrite EB, ES).
  split; [|exists w, U; auto]. rewrite E. set (t := mksct RRing _ w _).
  split; [exact Hp|]. split; [exact Hq|]. split; [exact Hn|].
  assert (EU : ups RRing t = ups RRing (bare n p q)) by reflexivity. assert (ED : dws RRing t = dws RRing (bare n p q)) by reflexivity.
  rewrite EU, ED. split; [exact B1|]. split; [exact B2|]. split; [exact B3|]. exists U. split; [reflexivity|]. split; [transitivity (dimn n p q); [exact LU|symmetry; exact Lw]|].
  intros x Hx. rewrite Nat.mul_comm. exact (Lu x Hx).
Qed.
Lemma refreshed_key hits e : fst (refreshed solve n hits e) = fst e.
Proof. unfold refreshed. now destruct (_ && _). Qed.
Lemma refreshed_keys hits es : map fst (map (refreshed solve n hits) es) = map fst es.
Proof. rewrite map_map. apply map_ext. intros e. apply refreshed_key. Qed.
Lemma refreshed_sector hits p q s : is_sector RRing n p q s -> is_sector RRing n p q (snd (refreshed solve n hits ([p; q], s))).
Proof.
  intros HI. unfold refreshed. cbn [fst snd dim_of]. destruct (Nat.leb_spec (dimn n p q) 10); [|exact HI]. cbn [andb]. destruct (listed _ _); [|exact HI].
  now apply renewed_sector.
Qed.
Lemma refreshed_sectors hits es : sectors n es -> sectors n (map (refreshed solve n hits) es).
Proof.
  intros [ND H]. split; [now rewrite refreshed_keys|]. intros key s I. apply in_map_iff in I. destruct I as ([key' s'] & E & I).
  destruct (H _ _ I) as (p & q & -> & HI). exists p, q. split.
  - change key with (fst (key, s)). rewrite <- E, refreshed_key. reflexivity.
  - change s with (snd (key, s)). rewrite <- E. now apply refreshed_sector.
Qed.
Lemma visits_keys es : forall hits, map fst (visits solve n ispin hits es) = map fst es.
Proof. induction es as [|e es IH]; intros hits; [reflexivity|]. cbn [visits map]. now rewrite refreshed_key, IH. Qed.
Lemma visits_in es : forall hits e, In e (visits solve n ispin hits es) -> exists h e0, In e0 es /\ e = refreshed solve n h e0.
Proof.
  induction es as [|e0 es IH]; intros hits e; cbn [visits In]; [intros []|]. intros [<-|I]; [exists hits, e0; auto|].
  destruct (IH _ _ I) as (h & e1 & I1 & E). exists h, e1. auto.
Qed.
Lemma visits_sectors hits es : sectors n es -> sectors n (visits solve n ispin hits es).
Proof.
  intros [ND H]. split; [now rewrite visits_keys|]. intros key s I. destruct (visits_in es hits _ I) as (h & [key' s'] & I0 & E).
  destruct (H _ _ I0) as (p & q & -> & HI). exists p, q. split.
  - change key with (fst (key, s)). rewrite E, refreshed_key. reflexivity.
  - change s with (snd (key, s)). rewrite E. now apply refreshed_sector.
Qed.

(** Storing the completed sector. *)
Lemma put_refreshed hits es p' q' w U : sectors n es -> (dimn n p' q' <= 10)%nat -> solve (s_states RRing (bare n p' q')) = Ok (w, U) ->
  es_put (map (refreshed solve n hits) es) [p'; q'] (mksct RRing (s_states RRing (bare n p' q')) w (Cols RRing U)) = map (refreshed solve n (hits ++ [[p'; q']])) es.
Proof.
  intros HES Hd ES. unfold es_put. rewrite map_map. apply map_ext_in. intros [key s] I. rewrite refreshed_key. cbn [fst].
  destruct (proj2 HES _ _ I) as (p & q & -> & HI). unfold refreshed. cbn [fst snd dim_of].
  destruct (list_eq_dec Nat.eq_dec [p; q] [p'; q']) as [E|NE].
  - injection E as -> ->. destruct (Nat.leb_spec (dimn n p' q') 10); [|lia]. cbn [andb].
    replace (listed [p'; q'] (hits ++ [[p'; q']])) with true by (symmetry; apply listed_spec, in_or_app; right; now left).
    f_equal. destruct (renewed_sector p' q' s Hd HI) as (_ & w' & U' & ES' & _ & ->). rewrite ES in ES'. injection ES' as <- <-. reflexivity.
  - replace (listed [p; q] (hits ++ [[p'; q']])) with (listed [p; q] hits); [reflexivity|].
    unfold listed. rewrite existsb_app. cbn [existsb]. destruct (list_eq_dec Nat.eq_dec [p; q] [p'; q']); [congruence|]. now rewrite orb_false_r.
Qed.
(** Keys of large sectors do not matter. *)
Lemma put_large hits es p' q' : sectors n es -> (10 < dimn n p' q')%nat -> map (refreshed solve n hits) es = map (refreshed solve n (hits ++ [[p'; q']])) es.
Proof.
  intros HES Hd. apply map_ext_in. intros [key s] I. destruct (proj2 HES _ _ I) as (p & q & -> & HI). unfold refreshed. cbn [fst snd dim_of].
  destruct (Nat.leb_spec (dimn n p q) 10) as [L|]; [|reflexivity]. cbn [andb].
  replace (listed [p; q] (hits ++ [[p'; q']])) with (listed [p; q] hits); [reflexivity|].
  unfold listed. rewrite existsb_app. cbn [existsb]. destruct (list_eq_dec Nat.eq_dec [p; q] [p'; q']) as [E|]; [injection E as -> ->; lia|]. now rewrite orb_false_r.
Qed.

Definition hit (op : fop) (p q : nat) : list qnums := match moved n op ispin p q with Some (p', q') => [[p'; q']] | None => [] end.
Lemma side_ok es hits op p q sI : sectors n es -> In [p; q] (map fst es) -> is_sector RRing n p q sI ->
  krylov n mvop tridiag ispin [([p; q], sI)] (fun op p' q' s i a => exc n op ispin pos p' q' s i a) 11 ->
  exists fs, gl_side solve mvop tridiag eigh n k op pos ispin (map (refreshed solve n hits) es) p q sI (exponents beta egs sI) = Ok (map (refreshed solve n (hits ++ hit op p q)) es, fs) /\
  forall e eta X, im (zpoint e eta) <> 0 -> resolved n M ispin [([p; q], sI)] pos (zpoint e eta) X -> denotes fs e eta (contribution n beta egs ispin pos X op ([p; q], sI)).
Proof.
  intros HES IK HI HKr. pose proof HI as (Hp & Hq & _). pose proof (refreshed_sectors hits es HES) as HES'.
  unfold gl_side. rewrite (target_moved n Hn op p q ispin Hsp). cbn [bind]. unfold hit.
  destruct (moved n op ispin p q) as [[p' q']|] eqn:HM.
  2:{ exists []. rewrite app_nil_r. split; [reflexivity|]. intros. unfold contribution. cbn [fst]. rewrite HM. apply denotes_nil. }
  destruct (moved_spec n Hn op p q ispin p' q' Hp Hq HM) as (Hp' & Hq' & _).
  destruct (arrive_ok n Hn _ HES' p' q' Hp' Hq') as (sJ & EA & EJ). rewrite EA. cbn [bind].
  assert (D : s_d RRing sJ = dimn n p' q') by (unfold s_d; rewrite EJ; apply bare_dim). rewrite D.
  destruct (Nat.leb_spec (dimn n p' q') 10) as [Hd|Hd].
  - destruct (Hsolve p' q' Hp' Hq' Hd) as (w & U & ES & HE). pose proof HE as (Lw & LU & Lu & HO & HEig).
    unfold small_side. rewrite EJ, ES. cbn [bind].
    set (sJ' := mksct RRing (s_states RRing (bare n p' q')) w (Cols RRing U)).
    assert (HJ : is_sector RRing n p' q' sJ').
    { destruct (renewed_sector p' q' (bare n p' q') Hd (bare_sector n Hn p' q' Hp' Hq')) as (HB & w' & U' & ES' & _ & E). rewrite ES in ES'. injection ES' as <- <-. rewrite E in HB. exact HB. }
    destruct (project_exact_ok n Hn op ispin pos p q p' q' sI sJ' Hsp HI HJ HM Hpos) as (pr & sg & v & EP & Hsg & EV & LV & RV & HV).
    rewrite EP. cbn [bind]. rewrite EV. cbn [bind]. unfold sJ'. rewrite (put_refreshed hits es p' q' w U HES Hd ES). fold sJ'.
    eexists. split; [reflexivity|]. intros e eta X Hz HX. apply denotes_one. unfold exponents.
    rewrite spectral_sum; [|exact LV|exact RV]. f_equal. unfold contribution. cbn [fst snd]. rewrite HM.
    apply csum_ext. intros i Hi. f_equal. rewrite (eigen_resolvent (dimn n p' q') (M p' q') w U op (energy sI i) (zpoint e eta) (exc n op ispin pos p' q' sI i) (X op [p; q] i)).
    + rewrite Lw. apply csum_ext. intros j Hj. unfold energy. f_equal. f_equal.
      apply (sq_sign _ _ sg Hsg). rewrite HV; [reflexivity| |exact Hi]. change (nvals sJ') with (@length R w). rewrite Lw. exact Hj.
    + apply Hop; auto.
    + exact HE.
    + exact Hz.
    + apply (HX op p q sI i p' q'); auto. now left.
  - destruct (project_ok n Hn op ispin p q p' q' sI sJ Hsp HI HM EJ) as (pr & sg & EP & Hsg & HP). rewrite EP. cbn [bind].
    destruct (HP pos Hpos) as (v & EV & LV & HV). rewrite EV. cbn [bind].
    destruct (Hop p' q' Hp' Hq') as (HS & mv & Emv & Hmv).
    destruct (lanczos_side_ok mvop tridiag eigh true k op v sI (exponents beta egs sI) sJ (dimn n p' q') (M p' q') mv (fun i a => exc n op ispin pos p' q' sI i a) HK HS) as (fs & EF & HF).
    + now rewrite EJ.
    + exact Hmv.
    + intros i Hi. exists sg. split; [exact Hsg|]. apply HV. exact Hi.
    + intros i Hi. split; [|discriminate]. apply (HKr p' q'); [lia| |exact Emv]. exists op, p, q, sI, i, sg. repeat split; auto; try (apply HV; auto). now left.
    + rewrite EF. cbn [bind]. rewrite <- (put_large hits es p' q' HES Hd). exists fs. split; [reflexivity|]. intros e eta X Hz HX.
      unfold contribution. cbn [fst snd]. rewrite HM.
      rewrite (csum_ext (nvals sI) _ (fun i => rcx (nth i (exponents beta egs sI) 0) *c csum (dimn n p' q') (fun a => rcx (exc n op ispin pos p' q' sI i a) *c X op [p; q] i a))).
      * apply (HF e eta (fun i => X op [p; q] i) Hz). intros i Hi. apply (HX op p q sI i p' q'); auto. now left.
      * intros i Hi. now rewrite exponents_nth.
Qed.

Lemma targets_hits p q : targets n ispin [p; q] = hit OpCdg p q ++ hit OpC p q.
Proof. unfold targets, hit. cbn [flat_map]. now rewrite app_nil_r. Qed.

Lemma resolved_sub l l' z X : (forall x, In x l' -> In x l) -> resolved n M ispin l pos z X -> resolved n M ispin l' pos z X.
Proof. intros S H op p q s i p' q' I. apply H. auto. Qed.
Lemma krylov_sub l l' f least : (forall x, In x l' -> In x l) -> krylov n mvop tridiag ispin l f least -> krylov n mvop tridiag ispin l' f least.
Proof.
  intros S H p' q' phi mv Hd (op & p & q & s & i & sg & I & R) E. apply H; auto. exists op, p, q, s, i, sg. split; [now apply S|exact R].
Qed.

Lemma loop_ok separate es : sectors n es -> forall l hits fe fh, (forall x, In x l -> In x es) ->
  krylov n mvop tridiag ispin (visits solve n ispin hits l) (fun op p' q' s i a => exc n op ispin pos p' q' s i a) 11 ->
  exists ge gh, foldM (gl_step solve mvop tridiag eigh n k beta egs pos ispin separate) (map fst l) (map (refreshed solve n hits) es, fe, fh)
    = Ok (map (refreshed solve n (hits ++ flat_map (targets n ispin) (map fst l))) es, fe ++ ge, fh ++ gh) /\
  forall e eta X, im (zpoint e eta) <> 0 -> resolved n M ispin (visits solve n ispin hits l) pos (zpoint e eta) X ->
    denotes ge e eta (csuml (map (fun op => csuml (map (contribution n beta egs ispin pos X op) (visits solve n ispin hits l))) (ops_e separate))) /\
    (separate = true -> denotes gh e eta (csuml (map (fun op => csuml (map (contribution n beta egs ispin pos X op) (visits solve n ispin hits l))) (ops_h separate)))).
Proof.
  intros HES. induction l as [|[key s0] l IH]; intros hits fe fh Hl HKr.
  - exists [], []. cbn [map foldM flat_map]. rewrite !app_nil_r. split; [reflexivity|]. intros. split; intros; destruct separate; try discriminate;
      exists []; (split; [reflexivity|]); cbn [visits ops_e ops_h map csuml fold_right]; ring.
  - assert (I : In (key, s0) es) by (apply Hl; now left). destruct (proj2 HES _ _ I) as (p & q & -> & H0).
    cbn [visits] in *. cbn [fst] in HKr |- *. match type of HKr with krylov _ _ _ _ (?x :: _) _ _ => set (e0 := x) in * end. set (sI := snd e0).
    assert (EI : e0 = ([p; q], sI)). { unfold sI. pose proof (refreshed_key hits ([p; q], s0)) as F. cbn [fst] in F. change (fst e0 = [p; q]) in F. rewrite <- F. apply surjective_pairing. }
    assert (HI : is_sector RRing n p q sI) by (unfold sI, e0; now apply refreshed_sector).
    assert (IK : In [p; q] (map fst es)) by (change [p; q] with (fst ([p; q], s0)); now apply in_map).
    assert (ID : In ([p; q], sI) (map (refreshed solve n hits) es)) by (rewrite <- EI; unfold e0; now apply in_map).
    assert (HK1 : krylov n mvop tridiag ispin [([p; q], sI)] (fun op p' q' s i a => exc n op ispin pos p' q' s i a) 11).
    { eapply krylov_sub; [|exact HKr]. intros x [<-|[]]. left. exact EI. }
    destruct (side_ok es hits OpCdg p q sI HES IK HI HK1) as (f1 & E1 & H1). destruct (side_ok es (hits ++ hit OpCdg p q) OpC p q sI HES IK HI HK1) as (f2 & E2 & H2).
    cbn [map foldM fst flat_map]. unfold gl_step at 1. unfold es_get. rewrite (es_find_in n _ (refreshed_sectors hits es HES) _ _ ID). cbn [bind]. rewrite E1. cbn [bind]. rewrite E2. cbn [bind].
    replace ((hits ++ hit OpCdg p q) ++ hit OpC p q) with (hits ++ targets n ispin [p; q]) by (rewrite targets_hits; apply app_assoc).
    assert (HKl : krylov n mvop tridiag ispin (visits solve n ispin (hits ++ targets n ispin [p; q]) l) (fun op p' q' s i a => exc n op ispin pos p' q' s i a) 11).
    { eapply krylov_sub; [|exact HKr]. intros x Hx. now right. }
    assert (SP : forall z X, resolved n M ispin (e0 :: visits solve n ispin (hits ++ targets n ispin [p; q]) l) pos z X ->
      resolved n M ispin [([p; q], sI)] pos z X /\ resolved n M ispin (visits solve n ispin (hits ++ targets n ispin [p; q]) l) pos z X).
    { intros z X HX. split; (eapply resolved_sub; [|exact HX]); intros x Hx; [|now right]. destruct Hx as [<-|[]]. left. exact EI. }
    rewrite EI in SP |- *.
    destruct separate.
    + destruct (IH (hits ++ targets n ispin [p; q]) (fe ++ f1) (fh ++ f2)) as (ge & gh & E & H); [intros; apply Hl; now right|exact HKl|]. exists (f1 ++ ge), (f2 ++ gh).
      split; [etransitivity; [exact E|now rewrite !app_assoc]|]. intros e eta X Hz HX. destruct (SP _ _ HX) as [HX1 HXl]. destruct (H e eta X Hz HXl) as [A B]. specialize (B eq_refl). cbn [ops_e ops_h map csuml fold_right] in *.
      fold (csuml (map (contribution n beta egs ispin pos X OpCdg) (visits solve n ispin (hits ++ targets n ispin [p; q]) l)))
        (csuml (map (contribution n beta egs ispin pos X OpC) (visits solve n ispin (hits ++ targets n ispin [p; q]) l))) in *.
      split; [|intros _]; (match goal with |- denotes _ _ _ ?v => match v with (?a +c ?b) +c ?c => replace v with (a +c (b +c c)) by ring end end);
        apply denotes_app; auto.
    + destruct (IH (hits ++ targets n ispin [p; q]) (fe ++ f1 ++ f2) fh) as (ge & gh & E & H); [intros; apply Hl; now right|exact HKl|]. exists (f1 ++ f2 ++ ge), gh.
      split; [etransitivity; [exact E|now rewrite !app_assoc]|]. intros e eta X Hz HX. destruct (SP _ _ HX) as [HX1 HXl]. destruct (H e eta X Hz HXl) as [A _]. cbn [ops_e ops_h map csuml fold_right] in *.
      fold (csuml (map (contribution n beta egs ispin pos X OpCdg) (visits solve n ispin (hits ++ targets n ispin [p; q]) l)))
        (csuml (map (contribution n beta egs ispin pos X OpC) (visits solve n ispin (hits ++ targets n ispin [p; q]) l))) in *.
      split; [|discriminate].
      match goal with |- denotes _ _ _ ((?a +c ?b) +c ((?c +c ?d) +c ?z)) => replace ((a +c b) +c ((c +c d) +c z)) with (a +c (c +c (b +c (d +c z)))) by ring end.
      apply denotes_app; auto. apply denotes_app; auto.
Qed.

Lemma refreshed_none es : map (refreshed solve n []) es = es.
Proof. rewrite <- (map_id es) at 2. apply map_ext. intros e. unfold refreshed. cbn [listed existsb]. now rewrite andb_false_r. Qed.

Lemma visits_k es repr separate : sectors n es -> repr_of repr = Ok k ->
  krylov n mvop tridiag ispin (visits solve n ispin [] es) (fun op p' q' s i a => exc n op ispin pos p' q' s i a) 11 ->
  exists ge gh, build_gf_lanczos solve mvop tridiag eigh n es beta egs pos repr ispin separate = Ok (finally solve n ispin es, ge, gh) /\
  forall e eta X, im (zpoint e eta) <> 0 -> resolved n M ispin (visits solve n ispin [] es) pos (zpoint e eta) X ->
    gl_call ge e eta = Ok (green_over n beta egs ispin (visits solve n ispin [] es) (finally solve n ispin es) pos X (ops_e separate)) /\
    gl_call gh e eta = Ok (green_over n beta egs ispin (visits solve n ispin [] es) (finally solve n ispin es) pos X (ops_h separate)).
Proof.
  intros HES ER HKr. unfold build_gf_lanczos. rewrite ER. cbn [bind]. assert (EP : pick ispin tt tt = Ok tt) by (destruct Hsp as [-> | ->]; reflexivity). rewrite EP. cbn [bind].
  destruct (loop_ok separate es HES es [] [] [] (fun x H => H) HKr) as (ge & gh & E & H). rewrite refreshed_none in E.
  match goal with |- context[foldM ?f ?l ?a] => assert (E' : foldM f l a = Ok (finally solve n ispin es, ge, gh)) by exact E; rewrite E' end. cbn [bind app].
  rewrite partition_Zof.
  eexists _, _. split; [reflexivity|]. intros e eta X Hz HX. destruct (H e eta X Hz HX) as [A B]. split.
  - unfold green_over. apply denotes_call. exact A.
  - unfold green_over. destruct separate; apply denotes_call; auto.
Qed.
End Vis.
