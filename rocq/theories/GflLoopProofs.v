(** The loops of the Lanczos Green's function builders. *)
From Coq Require Import Reals String List Arith NArith ZArith Bool Lia Lra Psatz Ring Field.
From Verif Require Import Base RBase RLin CBase OperatorsModel OperatorsSpec OperatorsProofs LookupModel SectorModel SectorSpec SectorProofs FockSpec LocalModel MatvecModel EspaceModel
  ProjModel ProjSpec ProjProofs ProjMoreProofs ProjFinalProofs LanczosSpec CfModel CfSpec CfProofs CfMoreProofs GfModel GfSpec GfProofs GfMoreProofs GflModel GflSpec DmftProofs GflProofs.
Import ListNotations.
Local Open Scope R_scope.

Lemma op_side op : op_sign op = side op.
Proof. now destruct op. Qed.

(** The functions [fs] evaluate without error and sum to [v]. *)
Definition denotes (fs : list func) (e : cx) (eta : R) (v : cx) : Prop :=
  exists xs, mapM (fun f => func_call f e eta) fs = Ok xs /\ csuml xs = v.
Lemma mapM_app {A B} (f : A -> res B) l m xs ys : mapM f l = Ok xs -> mapM f m = Ok ys -> mapM f (l ++ m) = Ok (xs ++ ys).
Proof.
  revert xs. induction l as [|a l IH]; intros xs; cbn [mapM app].
  - intros E E'. apply ok_inj in E. now subst.
  - destruct (f a) as [b|]; cbn [bind]; [|discriminate]. destruct (mapM f l) as [bs|]; cbn [bind]; [|discriminate].
    intros E E'. apply ok_inj in E. subst. now rewrite (IH bs eq_refl E').
Qed.
Lemma csuml_app l m : csuml (l ++ m) = csuml l +c csuml m.
Proof. induction l as [|a l IH]; cbn [csuml fold_right app]; [fold (csuml m); ring|]. fold (csuml (l ++ m)) (csuml l). rewrite IH. ring. Qed.
Lemma denotes_nil e eta : denotes [] e eta (rcx 0).
Proof. exists []. split; reflexivity. Qed.
Lemma denotes_app fs gs e eta u v : denotes fs e eta u -> denotes gs e eta v -> denotes (fs ++ gs) e eta (u +c v).
Proof. intros (xs & E & H) (ys & E' & H'). exists (xs ++ ys). split; [now apply mapM_app|]. rewrite csuml_app. now subst. Qed.
Lemma denotes_one f e eta v : func_call f e eta = Ok v -> denotes [f] e eta v.
Proof. intros E. exists [v]. cbn [mapM]. rewrite E. split; [reflexivity|]. cbn [csuml fold_right]. ring. Qed.
Lemma fold_csuml xs s : fold_left cxadd xs s = s +c csuml xs.
Proof. revert s. induction xs as [|x xs IH]; intros s; cbn [fold_left csuml fold_right]; [ring|]. fold (csuml xs). rewrite IH. ring. Qed.
Lemma denotes_call fs Z e eta v : denotes fs e eta v -> gl_call (mkgl fs Z) e eta = Ok (v /c rcx Z).
Proof. intros (xs & E & H). unfold gl_call. cbn [gl_funcs gl_Z]. rewrite E. cbn [bind]. rewrite fold_csuml, H. do 2 f_equal. ring. Qed.

Section Sides.
Variable solve : states_t -> res (list R * list (list R)).
Variable mvop : states_t -> res (list R -> res (list R)).
Variable tridiag : (list R -> res (list R)) -> list R -> res (list R * list R).
Variable eigh : list R -> list R -> res (list R * list (list R)).

Lemma coeff_ok k d M mv (phi a b : list R) (vs : list (list R)) (rv : list R) op E ex : (k = KSp -> eigh_sound eigh) -> matrix_symmetric d M -> multiplies d M mv ->
  @lanczos RField d mv phi a b vs rv -> (0 < length vs)%nat -> (forall i, (i < d)%nat -> nth i rv 0 = 0) ->
  exists ac bc, coeff eigh k a b E ex (side op) = Ok (ac, bc) /\
  forall e eta x, im (zpoint e eta) <> 0 -> solves d (shifted (side op) E M) (zpoint e eta) x (fun i => rcx (nth i phi 0)) ->
    func_call (Func k ac bc) e eta = Ok (rcx ex *c csum d (fun i => rcx (nth i phi 0) *c x i)).
Proof.
  intros HK HM Hmv HL Hn Hr.
  assert (La : length a = length vs) by apply HL. assert (Lb : length b = length vs) by apply HL.
  assert (Lba : @length R b = @length R a) by (etransitivity; [exact Lb|symmetry; exact La]).
  assert (Pa : (0 < @length R a)%nat) by (eapply Nat.lt_le_trans; [exact Hn|]; apply Nat.eq_le_incl; symmetry; exact La).
  assert (Z1 : im (zpoint ci 0) <> 0) by (unfold zpoint; simpl; lra).
  destruct k; cbn [coeff func_call].
  - destruct (krylov_coeff d M mv phi a b vs rv op E ex ci 0 HM Hmv HL Hn Hr Z1) as (ac & bc & EC & _).
    exists ac, bc. split; [exact EC|]. intros e eta x Hz Hx.
    destruct (krylov_coeff d M mv phi a b vs rv op E ex e eta HM Hmv HL Hn Hr Hz) as (ac' & bc' & EC' & H).
    rewrite EC in EC'. apply ok_inj in EC'. injection EC' as <- <-. now apply H.
  - destruct (HK eq_refl a (skipn 1 b) Pa) as (w & U & EU & LW & TE); [rewrite skipn_length; lia|].
    destruct (sp_is_cf eigh a b w U E ex (side op) ci 0 Lba Pa EU LW TE Z1) as (l & q & _ & _ & _ & ES & _).
    exists l, q. split; [exact ES|]. intros e eta x Hz Hx.
    destruct (sp_is_cf eigh a b w U E ex (side op) e eta Lba Pa EU LW TE Hz) as (l' & q' & ac & bc & G & ES' & EC & EG & EG').
    rewrite ES in ES'. apply ok_inj in ES'. injection ES' as <- <-. rewrite EG.
    destruct (krylov_coeff d M mv phi a b vs rv op E ex e eta HM Hmv HL Hn Hr Hz) as (ac' & bc' & EC' & H).
    rewrite EC in EC'. apply ok_inj in EC'. injection EC' as <- <-. rewrite <- (H x Hx). symmetry. exact EG'.
Qed.

(** The loop over the eigenstates of the departing sector. *)
Lemma lanczos_side_ok catch k op v0 (sI : sct RRing) exps (sJ : sct RRing) d M mv (f : nat -> nat -> R) :
  (k = KSp -> eigh_sound eigh) -> matrix_symmetric d M -> mvop (s_states RRing sJ) = Ok mv -> multiplies d M mv ->
  (forall i, (i < nvals sI)%nat -> exists sg, sg * sg = 1 /\ forall a, (a < d)%nat -> nth a (nth i v0 []) 0 = sg * f i a) ->
  (forall i, (i < nvals sI)%nat -> exhausts d mv (nth i v0 []) (tridiag mv (nth i v0 [])) /\ (catch = false -> tridiag mv (nth i v0 []) <> Err ZeroNormInitialVector)) ->
  exists fs, lanczos_side mvop tridiag eigh catch k op v0 sI exps sJ = Ok fs /\
  forall e eta X, im (zpoint e eta) <> 0 ->
    (forall i, (i < nvals sI)%nat -> solves d (shifted (side op) (energy sI i) M) (zpoint e eta) (X i) (fun a => rcx (f i a))) ->
    denotes fs e eta (csum (nvals sI) (fun i => rcx (nth i exps 0) *c csum d (fun a => rcx (f i a) *c X i a))).
Proof.
  intros HK HM Emv Hmv HV HX. unfold lanczos_side. rewrite Emv. cbn [bind].
  set (G := fun acc iL => match tridiag mv (nth iL v0 []) with
      | Ok (a, b) => do (a, b) <- coeff eigh k a b (nth iL (s_vals RRing sI) 0) (nth iL exps 0) (op_sign op); Ok (acc ++ [Func k a b])
      | Err ZeroNormInitialVector => if catch then Ok acc else Err ZeroNormInitialVector
      | Err e => Err e end).
  fold (nvals sI).
  assert (L : forall m s acc, (s + m <= nvals sI)%nat -> exists fs, foldM G (seq s m) acc = Ok (acc ++ fs) /\
    forall e eta X, im (zpoint e eta) <> 0 ->
    (forall i, (i < nvals sI)%nat -> solves d (shifted (side op) (energy sI i) M) (zpoint e eta) (X i) (fun a => rcx (f i a))) ->
    denotes fs e eta (csum m (fun i => rcx (nth (s + i) exps 0) *c csum d (fun a => rcx (f (s + i)%nat a) *c X (s + i)%nat a)))).
  { induction m as [|m IH]; intros s acc Hs.
    - exists []. split; [cbn [seq foldM]; now rewrite app_nil_r|]. intros. apply denotes_nil.
    - cbn [seq foldM].
      destruct (HV s ltac:(lia)) as (sg & Hsg & Hphi). destruct (HX s ltac:(lia)) as (HE & HC).
      assert (STEP : exists f1, G acc s = Ok (acc ++ f1) /\ forall e eta X, im (zpoint e eta) <> 0 ->
        solves d (shifted (side op) (energy sI s) M) (zpoint e eta) X (fun a => rcx (f s a)) ->
        denotes f1 e eta (rcx (nth s exps 0) *c csum d (fun a => rcx (f s a) *c X a))).
      { unfold G. destruct (tridiag mv (nth s v0 [])) as [[a b]|er] eqn:ET.
        - destruct HE as (vs & rv & HL & Hn & Hr).
          destruct (coeff_ok k d M mv _ a b vs rv op (nth s (s_vals RRing sI) 0) (nth s exps 0) HK HM Hmv HL Hn Hr) as (ac & bc & EC & HCC).
          rewrite op_side. rewrite EC. cbn [bind]. exists [Func k ac bc]. split; [reflexivity|].
          intros e eta X Hz Hx. apply denotes_one.
          pose proof (solves_scal d _ _ (rcx sg) X _ Hx) as Hx'.
          rewrite (HCC e eta (fun a => rcx sg *c X a) Hz).
          2:{ apply (solves_ext _ _ _ _ (fun i => rcx sg *c rcx (f s i))); [|exact Hx']. intros i Hi. rewrite (Hphi i Hi), rcx_mul. reflexivity. }
          do 2 f_equal. apply csum_ext. intros i Hi. rewrite (Hphi i Hi), rcx_mul.
          transitivity ((rcx sg *c rcx sg) *c (rcx (f s i) *c X i)); [ring|]. rewrite <- rcx_mul, Hsg. ring.
        - destruct HE as (-> & H0). destruct catch; [|exfalso; now apply HC]. exists []. split; [now rewrite app_nil_r|].
          intros e eta X Hz Hx. rewrite (csum_0 d).
          + replace (rcx (nth s exps 0) *c rcx 0) with (rcx 0) by ring. apply denotes_nil.
          + intros i Hi. specialize (H0 i Hi). rewrite (Hphi i Hi) in H0.
            assert (f s i = 0) as -> by (destruct (Rmult_integral _ _ H0) as [Z|Z]; [rewrite Z in Hsg; lra|exact Z]). ring. }
      destruct STEP as (f1 & E1 & H1). rewrite E1. cbn [bind].
      destruct (IH (S s) (acc ++ f1) ltac:(lia)) as (fs & E2 & H2). exists (f1 ++ fs). rewrite E2, app_assoc. split; [reflexivity|].
      intros e eta X Hz Hx. rewrite csum_S_l. rewrite Nat.add_0_r. apply denotes_app.
      + apply H1; auto. apply Hx. lia.
      + rewrite (csum_ext m _ (fun i => rcx (nth (S s + i) exps 0) *c csum d (fun a => rcx (f (S s + i)%nat a) *c X (S s + i)%nat a))).
        * now apply H2.
        * intros i _. now replace (s + S i)%nat with (S s + i)%nat by lia. }
  destruct (L (nvals sI) 0%nat [] ltac:(lia)) as (fs & E & H). exists fs. split; [exact E|]. exact H.
Qed.

End Sides.

(** ** Sectors *)
Section Sectors.
Variable n : nat.
Hypothesis Hn : (n <= 32)%nat.
Lemma bare_sector p q : (p <= n)%nat -> (q <= n)%nat -> is_sector RRing n p q (bare n p q).
Proof.
  intros Hp Hq. unfold bare.
  destruct (generate_states_spec n p Hp Hn) as (u & Eu & _). destruct (generate_states_spec n q Hq Hn) as (w & Ew & _).
  rewrite Eu, Ew. unfold is_sector, ups, dws. cbn [s_states s_vecs s_vals]. repeat split; auto.
  exists []. repeat split; auto. intros x [].
Qed.
Lemma bare_states p q : (p <= n)%nat -> (q <= n)%nat -> forall s, is_sector RRing n p q s -> s_states RRing s = s_states RRing (bare n p q).
Proof.
  intros Hp Hq s (_ & _ & _ & E & E1 & E2 & _). destruct (bare_sector p q Hp Hq) as (_ & _ & _ & E' & E1' & E2' & _).
  rewrite E1 in E1'. rewrite E2 in E2'. apply ok_inj in E1'. apply ok_inj in E2'. rewrite E, E'. congruence.
Qed.
Lemma bare_dim p q : s_d RRing (bare n p q) = dimn n p q.
Proof.
  unfold dimn, sdim, s_d, bare, ups, dws. destruct (generate_states n p), (generate_states n q); cbn [s_states states_dim]; try reflexivity. apply Nat.mul_comm.
Qed.

Lemma target_moved op p q ispin : (ispin = 0 \/ ispin = 1)%Z ->
  target n op p q ispin = Ok (match moved n op ispin p q with Some (p', q') => Some [p'; q'] | None => None end).
Proof.
  intros [-> | ->]; unfold target, moved, get_cdg_sector, get_c_sector; destruct op; cbn [Z.eqb Pos.eqb]; cbv zeta.
  - destruct p as [|p].
    + reflexivity.
    + destruct (Z.ltb_spec (Z.of_nat (S p) - 1) 0); [lia|]. cbn beta iota. replace (Z.to_nat (Z.of_nat (S p) - 1)) with p by lia. rewrite Nat2Z.id. reflexivity.
  - destruct (Z.ltb_spec (Z.of_nat n) (Z.of_nat p + 1)); destruct (Nat.ltb_spec p n); try lia; [reflexivity|]. cbn beta iota. replace (Z.to_nat (Z.of_nat p + 1)) with (S p) by lia. rewrite Nat2Z.id. reflexivity.
  - destruct q as [|q].
    + reflexivity.
    + destruct (Z.ltb_spec (Z.of_nat (S q) - 1) 0); [lia|]. cbn beta iota. replace (Z.to_nat (Z.of_nat (S q) - 1)) with q by lia. rewrite Nat2Z.id. reflexivity.
  - destruct (Z.ltb_spec (Z.of_nat n) (Z.of_nat q + 1)); destruct (Nat.ltb_spec q n); try lia; [reflexivity|]. cbn beta iota. replace (Z.to_nat (Z.of_nat q + 1)) with (S q) by lia. rewrite Nat2Z.id. reflexivity.
Qed.
Lemma moved_spec op p q ispin p' q' : (p <= n)%nat -> (q <= n)%nat -> moved n op ispin p q = Some (p', q') ->
  (p' <= n)%nat /\ (q' <= n)%nat /\ (if (ispin =? 0)%Z then q' = q /\ neighbour op p p' else p' = p /\ neighbour op q q').
Proof.
  unfold moved, neighbour. intros Hp Hq. destruct op, (ispin =? 0)%Z.
  - destruct p; [discriminate|]. intros [= <- <-]. repeat split; lia.
  - destruct q; [discriminate|]. intros [= <- <-]. repeat split; lia.
  - destruct (Nat.ltb_spec p n); [|discriminate]. intros [= <- <-]. repeat split; lia.
  - destruct (Nat.ltb_spec q n); [|discriminate]. intros [= <- <-]. repeat split; lia.
Qed.

Variable es : espace RRing.
Hypothesis HES : sectors n es.
Lemma es_find_in key s : In (key, s) es -> es_find es key = Some s.
Proof.
  intros I. unfold es_find. match goal with |- context[find ?f es] => destruct (find f es) as [[k t]|] eqn:E end.
  - apply find_some in E. destruct E as [I' E]. cbn [fst] in E. destruct (list_eq_dec _ k key) as [->|]; [|discriminate]. cbn [snd]. f_equal.
    destruct HES as [ND _]. revert I I' ND. clear. induction es as [|[k0 s0] l IH]; cbn [map In fst]; intros I I' ND; [tauto|].
    inversion ND as [|? ? NI ND']; subst. destruct I as [E|I], I' as [E'|I'].
    + congruence.
    + injection E as -> ->. exfalso. apply NI. change key with (fst (key, t)). now apply in_map.
    + injection E' as -> ->. exfalso. apply NI. change key with (fst (key, s)). now apply in_map.
    + auto.
  - exfalso. apply (find_none _ _ E) in I. cbn [fst] in I. destruct (list_eq_dec _ key key); [discriminate|tauto].
Qed.
Lemma es_find_some key s : es_find es key = Some s -> In (key, s) es.
Proof.
  unfold es_find. match goal with |- context[find ?f es] => destruct (find f es) as [[k t]|] eqn:E end; [|discriminate].
  intros [= <-]. apply find_some in E. destruct E as [I E]. cbn [fst] in E. destruct (list_eq_dec _ k key) as [->|]; [|discriminate]. exact I.
Qed.
Lemma arrive_ok p q : (p <= n)%nat -> (q <= n)%nat -> exists s, arrive n es [p; q] = Ok s /\ s_states RRing s = s_states RRing (bare n p q).
Proof.
  intros Hp Hq. unfold arrive. destruct (es_find es [p; q]) as [s|] eqn:E.
  - exists s. split; [reflexivity|]. apply es_find_some in E. destruct HES as [_ H]. destruct (H _ _ E) as (p' & q' & EK & HS). injection EK as <- <-. now apply bare_states.
  - cbn [qns_states]. unfold bare. destruct (generate_states_spec n p Hp Hn) as (u & Eu & _). destruct (generate_states_spec n q Hq Hn) as (w & Ew & _).
    rewrite Eu, Ew. cbn [bind]. eexists. split; reflexivity.
Qed.

(** ** Projections *)
Lemma project_up_states pos op sI sJ sJ' : s_states RRing sJ = s_states RRing sJ' -> project_up RRing pos n op sI sJ = project_up RRing pos n op sI sJ'.
Proof. intros E. unfold project_up, s_d. now rewrite E. Qed.
Lemma project_dw_states pos op sI sJ sJ' : s_states RRing sJ = s_states RRing sJ' -> project_dw RRing pos n op sI sJ = project_dw RRing pos n op sI sJ'.
Proof. intros E. unfold project_dw, s_d. now rewrite E. Qed.
Lemma applied_states o (J J' I : sct RRing) phi a : s_states RRing J = s_states RRing J' -> applied RRing n o J I phi a = applied RRing n o J' I phi a.
Proof. intros E. unfold applied, basis, ups, dws. now rewrite E. Qed.
Lemma sdim_states (J J' : sct RRing) : s_states RRing J = s_states RRing J' -> sdim RRing J = sdim RRing J'.
Proof. intros E. unfold sdim, ups, dws. now rewrite E. Qed.

Lemma project_ok op ispin p q p' q' (sI sJ : sct RRing) : (ispin = 0 \/ ispin = 1)%Z -> is_sector RRing n p q sI -> moved n op ispin p q = Some (p', q') ->
  s_states RRing sJ = s_states RRing (bare n p' q') ->
  exists pr sg, pick ispin (project_up RRing) (project_dw RRing) = Ok pr /\ sg * sg = 1 /\
  forall pos, (pos < n)%nat -> exists v, pr pos n op sI sJ = Ok v /\ length v = nvals sI /\
    forall i, (i < nvals sI)%nat -> length (nth i v []) = dimn n p' q' /\
      forall a, (a < dimn n p' q')%nat -> nth a (nth i v []) 0 = sg * exc n op ispin pos p' q' sI i a.
Proof.
  intros Hs HI HM EJ. pose proof HI as (Hp & Hq & _). destruct (moved_spec op p q ispin p' q' Hp Hq HM) as (Hp' & Hq' & Hnb).
  pose proof (bare_sector p' q' Hp' Hq') as HJ. destruct Hs as [-> | ->]; cbn [Z.eqb] in Hnb; destruct Hnb as [-> Hnb].
  - exists (project_up RRing), (@z2k RRing (parity_sign q)). split; [reflexivity|]. split; [apply sgn_sq|]. intros pos Hpos.
    destruct (project_up_spec RRing n p p' q pos op sI (bare n p' q) HI HJ Hnb Hpos) as (v & EV & LV & RV & HV).
    exists v. rewrite (project_up_states pos op sI sJ _ EJ). split; [exact EV|]. split; [exact LV|]. intros i Hi. split.
    + apply RV. apply nth_In. rewrite LV. exact Hi.
    + intros a Ha. exact (HV i a Hi Ha).
  - exists (project_dw RRing), 1. split; [reflexivity|]. split; [ring|]. intros pos Hpos.
    destruct (project_dw_spec RRing n p q q' pos op sI (bare n p q') HI HJ Hnb Hpos) as (v & EV & LV & RV & HV).
    exists v. rewrite (project_dw_states pos op sI sJ _ EJ). split; [exact EV|]. split; [exact LV|]. intros i Hi. split.
    + apply RV. apply nth_In. rewrite LV. exact Hi.
    + intros a Ha. rewrite Rmult_1_l. exact (HV i a Hi Ha).
Qed.
Lemma project_exact_ok op ispin pos p q p' q' (sI sJ : sct RRing) : (ispin = 0 \/ ispin = 1)%Z -> is_sector RRing n p q sI -> is_sector RRing n p' q' sJ ->
  moved n op ispin p q = Some (p', q') -> (pos < n)%nat ->
  exists pr sg v, pick ispin (project_exact_up RRing) (project_exact_dw RRing) = Ok pr /\ sg * sg = 1 /\ pr pos n op sI sJ = Ok v /\ length v = nvals sJ /\
    (forall x, In x v -> length x = nvals sI) /\
    forall j i, (j < nvals sJ)%nat -> (i < nvals sI)%nat ->
      nth i (nth j v []) 0 = sg * rsum (dimn n p' q') (fun a => nth a (vec RRing sJ j) 0 * exc n op ispin pos p' q' sI i a).
Proof.
  intros Hs HI HJ HM Hpos. pose proof HI as (Hp & Hq & _). destruct (moved_spec op p q ispin p' q' Hp Hq HM) as (Hp' & Hq' & Hnb).
  pose proof (bare_states p' q' Hp' Hq' _ HJ) as EJ.
  assert (BR : forall o j i, bracket RRing n o sJ sI (vec RRing sJ j) (vec RRing sI i) = rsum (dimn n p' q') (fun a => nth a (vec RRing sJ j) 0 * applied RRing n o (bare n p' q') sI (vec RRing sI i) a)).
  { intros o j i. unfold bracket. rewrite (sdim_states _ _ EJ). apply rsum_ext. intros a _. rewrite (applied_states _ _ _ _ _ _ EJ). reflexivity. }
  destruct Hs as [-> | ->]; cbn [Z.eqb] in Hnb; destruct Hnb as [-> Hnb].
  - destruct (project_exact_up_spec RRing n p p' q pos op sI sJ HI HJ Hnb Hpos) as (v & EV & LV & RV & HV).
    exists (project_exact_up RRing), (@z2k RRing (parity_sign q)), v. split; [reflexivity|]. split; [apply sgn_sq|]. repeat split; auto.
    intros j i Hj Hi. etransitivity; [exact (HV j i Hj Hi)|]. rewrite BR. reflexivity.
  - destruct (project_exact_dw_spec RRing n p q q' pos op sI sJ HI HJ Hnb Hpos) as (v & EV & LV & RV & HV).
    exists (project_exact_dw RRing), 1, v. split; [reflexivity|]. split; [ring|]. repeat split; auto.
    intros j i Hj Hi. etransitivity; [exact (HV j i Hj Hi)|]. rewrite BR. rewrite Rmult_1_l. reflexivity.
Qed.
End Sectors.
