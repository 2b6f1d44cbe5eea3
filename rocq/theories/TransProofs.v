From Coq Require Import Reals List Arith NArith ZArith Bool Lia Lra Sorted.
From Verif Require Import Base RBase RLin OperatorsSpec FockSpec SectorModel MatvecModel MatvecProofs EspaceModel ProjModel ProjSpec ProjFinalProofs
  GfModel GfSpec RateModel RateSpec RateProofs RateActiveProofs TransModel TransSpec.
Import ListNotations.
Local Open Scope R_scope.

(** * Dictionaries *)
Lemma dput_keys {V} (d : list (key2 * V)) k v x : In x (map fst (dput d k v)) <-> x = k \/ In x (map fst d).
Proof.
  induction d as [|[k' v'] d IH]; cbn [dput map In fst]; [intuition|]. destruct (key_eqb_spec k' k) as [->|N]; cbn [map In fst]; [|rewrite IH]; intuition.
Qed.
Lemma dput_NoDup {V} (d : list (key2 * V)) k v : NoDup (map fst d) -> NoDup (map fst (dput d k v)).
Proof.
  induction d as [|[k' v'] d IH]; cbn [dput map fst]; intros H; [constructor; auto; constructor|]. inversion H as [|? ? N H']; subst.
  destruct (key_eqb_spec k' k) as [->|NE]; cbn [map fst]; constructor; auto. rewrite dput_keys. intros [->|?]; auto.
Qed.
Lemma dput_In {V} (d : list (key2 * V)) k v x y : In (x, y) (dput d k v) -> (x = k /\ y = v) \/ In (x, y) d.
Proof.
  induction d as [|[k' v'] d IH]; cbn [dput In]; [intros [E|[]]; injection E as <- <-; now left|].
  destruct (key_eqb_spec k' k) as [->|N]; cbn [In]; [intros [E|?]; [injection E as <- <-; now left|right; now right]|].
  intros [?|?]; [right; now left|]. destruct (IH H); [now left|right; now right].
Qed.

Definition putl (l : list gfel) (d : list (key2 * gfel)) := fold_left (fun d gf => dput d (g_F gf, g_I gf) gf) l d.
Lemma putl_keys l : forall d x, In x (map fst (putl l d)) <-> In x (map fst d) \/ exists g, In g l /\ x = (g_F g, g_I g).
Proof.
  induction l as [|g l IH]; intros d x; cbn [putl fold_left]; [split; [now left|intros [?|(? & [] & _)]; auto]|].
  fold (putl l (dput d (g_F g, g_I g) g)). rewrite IH, dput_keys. split.
  - intros [[->|?]|(g' & ? & ->)]; [right; exists g|now left|right; exists g']; split; auto; [now left|now right].
  - intros [?|(g' & [<-|?] & ->)]; [left; now right|left; now left|right; exists g'; auto].
Qed.
Lemma putl_NoDup l : forall d, NoDup (map fst d) -> NoDup (map fst (putl l d)).
Proof. induction l as [|g l IH]; intros d H; cbn [putl fold_left]; auto. apply IH. now apply dput_NoDup. Qed.
Lemma putl_In l : forall d k g, In (k, g) (putl l d) -> In (k, g) d \/ (In g l /\ k = (g_F g, g_I g)).
Proof.
  induction l as [|g l IH]; intros d k g' H; cbn [putl fold_left] in H; [now left|].
  apply IH in H. destruct H as [H|[H ->]]; [|right; split; auto; now right]. apply dput_In in H. destruct H as [[-> ->]|H]; [right; split; auto; now left|now left].
Qed.

(** * One move *)
Lemma es_get_In es q s : NoDup (map fst es) -> In (q, s) es -> es_get es q = Ok s.
Proof.
  unfold es_get, es_find. intros ND. induction es as [|[k x] es IH]; cbn [find fst In map]; [intros []|]. inversion ND as [|? ? N ND']; subst.
  destruct (list_eq_dec Nat.eq_dec k q) as [->|NE]; intros [E|H].
  - injection E as <-. reflexivity.
  - exfalso. apply N. apply in_map_iff. exists (q, s). auto.
  - injection E as -> <-. congruence.
  - now apply IH.
Qed.
Lemma in_ndindex a b i j : In (i, j) (ndindex a b) <-> (i < a)%nat /\ (j < b)%nat.
Proof.
  unfold ndindex. rewrite in_flat_map. split.
  - intros (x & Hx & H). apply in_map_iff in H. destruct H as (y & E & Hy). injection E as <- <-. apply in_seq in Hx. apply in_seq in Hy. lia.
  - intros [A B]. exists i. split; [apply in_seq; lia|]. apply in_map_iff. exists j. split; auto. apply in_seq. lia.
Qed.
Lemma elements_In kind pJ qJ pI qI nJ nI vs E g : In g (elements kind pJ qJ pI qI nJ nI vs E) <->
  exists j i, (j < nJ)%nat /\ (i < nI)%nat /\ g = mkgfel kind [pJ; qJ; j] [pI; qI; i] (map (fun v : list (list R) => nth i (nth j v []) 0) vs) (E j i).
Proof.
  unfold elements. rewrite in_map_iff. split.
  - intros ([j i] & <- & H). apply in_ndindex in H. exists j, i. tauto.
  - intros (j & i & A & B & ->). exists (j, i). split; auto. apply in_ndindex. auto.
Qed.
Lemma Forall2_map {A B} (P : A -> B -> Prop) (h : B -> R) (f : A -> R) l bs : Forall2 P l bs -> (forall a b, In a l -> P a b -> h b = f a) -> map h bs = map f l.
Proof. induction 1 as [|a b l bs H F IH]; intros Q; cbn [map]; [reflexivity|]. rewrite (Q a b), IH; auto; [intros; apply Q; auto; now right|now left]. Qed.

Section Move.
Variables (n : nat) (es : espace RRing).
Hypothesis ND : NoDup (map fst es).

Lemma vals_up op p p' q I J : is_sector RRing n p q I -> is_sector RRing n p' q J -> neighbour op p p' ->
  exists vs, mapM (fun i => project_exact 0 i n op I J) (seq 0 n) = Ok vs /\
  forall j i, (j < nvals J)%nat -> (i < nvals I)%nat -> map (fun v : list (list R) => nth i (nth j v []) 0) vs = amps_up n q op J I j i.
Proof.
  intros HI HJ Hn.
  destruct (mapM_exists (fun i => project_exact 0 i n op I J) (fun pos v => forall j i, (j < nvals J)%nat -> (i < nvals I)%nat ->
     nth i (nth j v []) 0 = z2k (K := RRing) (parity_sign q) * bracket RRing n (lad op pos) J I (vec RRing J j) (vec RRing I i)) (seq 0 n)) as (vs & E & F).
  { intros pos Hp. apply in_seq in Hp. destruct (project_exact_up_spec RRing n p p' q pos op I J HI HJ Hn ltac:(lia)) as (v & E & _ & _ & H). exists v. split; [exact E|]. intros j i Hj Hi. exact (H j i Hj Hi). }
  exists vs. split; [exact E|]. intros j i Hj Hi. unfold amps_up. apply (Forall2_map _ _ _ _ _ F). intros a b _ P. now apply P.
Qed.
Lemma vals_dw op p q q' I J : is_sector RRing n p q I -> is_sector RRing n p q' J -> neighbour op q q' ->
  exists vs, mapM (fun i => project_exact 1 i n op I J) (seq 0 n) = Ok vs /\
  forall j i, (j < nvals J)%nat -> (i < nvals I)%nat -> map (fun v : list (list R) => nth i (nth j v []) 0) vs = amps_dw n op J I j i.
Proof.
  intros HI HJ Hn.
  destruct (mapM_exists (fun i => project_exact 1 i n op I J) (fun pos v => forall j i, (j < nvals J)%nat -> (i < nvals I)%nat ->
     nth i (nth j v []) 0 = bracket RRing n (lad op (pos + n)) J I (vec RRing J j) (vec RRing I i)) (seq 0 n)) as (vs & E & F).
  { intros pos Hp. apply in_seq in Hp. destruct (project_exact_dw_spec RRing n p q q' pos op I J HI HJ Hn ltac:(lia)) as (v & E & _ & _ & H). exists v. split; [exact E|]. intros j i Hj Hi. exact (H j i Hj Hi). }
  exists vs. split; [exact E|]. intros j i Hj Hi. unfold amps_dw. apply (Forall2_map _ _ _ _ _ F). intros a b _ P. now apply P.
Qed.

(** Lists of elements between two sectors. *)
Definition between (p q p' q' : nat) (I J : sct RRing) (l : list gfel) : Prop :=
  (forall g, In g l -> exact_element n es g /\ exists j i, (j < nvals J)%nat /\ (i < nvals I)%nat /\ g_F g = [p'; q'; j] /\ g_I g = [p; q; i]) /\
  (forall j i, (j < nvals J)%nat -> (i < nvals I)%nat -> exists g, In g l /\ g_F g = [p'; q'; j] /\ g_I g = [p; q; i]).

Lemma move_ok dn spin p q p' q' I J m : In m dns_all -> getdns (fst m) (snd m) = Ok (dn, spin) ->
  Z.of_nat p' = (Z.of_nat p + fst m)%Z -> Z.of_nat q' = (Z.of_nat q + snd m)%Z ->
  In ([p; q], I) es -> In ([p'; q'], J) es -> is_sector RRing n p q I -> is_sector RRing n p' q' J ->
  exists l, (if (0 <? dn)%Z then project_add ((- spin + 1) / 2) n p q es else project_sub ((- spin + 1) / 2) n p q es) = Ok l /\ between p q p' q' I J l.
Proof.
  intros Hm Hd Ep Eq II IJ HI HJ. pose proof (es_get_In _ _ _ ND II) as GI. pose proof (es_get_In _ _ _ ND IJ) as GJ.
  pose proof HI as (PI & QI & _). pose proof HJ as (PJ & QJ & _).
  rewrite dns_all_eq in Hm. destruct Hm as [<-|[<-|[<-|[<-|[]]]]]; cbn [fst snd] in *; vm_compute in Hd; injection Hd as <- <-.
  - (* remove up *)
    assert (P : p = S p') by lia. assert (q = q') by lia. subst q' p. change ((- (1) + 1) / 2)%Z with 0%Z. cbn [Z.ltb Z.compare]. unfold project_sub.
    unfold get_c_sector. cbn [Z.eqb]. destruct (Z.ltb_spec (Z.of_nat (S p') - 1) 0); [lia|]. cbn [bind fst snd].
    replace (Z.to_nat (Z.of_nat (S p') - 1)) with p' by lia. rewrite Nat2Z.id, GI, GJ. cbn [bind].
    destruct (vals_up OpC (S p') p' q I J HI HJ eq_refl) as (vs & -> & Hv). cbn [bind]. eexists. split; [reflexivity|]. split.
    + intros g Hg. apply elements_In in Hg. destruct Hg as (j & i & Hj & Hi & ->). split; [|exists j, i; auto].
      exists (S p'), q, i, p', q, j, I, J, OpC. cbn [g_I g_F g_v g_kind g_E]. repeat split; auto; [left; repeat split; auto|unfold energy; ring].
    + intros j i Hj Hi. eexists. split; [apply elements_In; exists j, i; split; [exact Hj|split; [exact Hi|reflexivity]]|]. split; reflexivity.
  - assert (P : q = S q') by lia. assert (p = p') by lia. subst p' q. change ((- -1 + 1) / 2)%Z with 1%Z. cbn [Z.ltb Z.compare]. unfold project_sub.
    unfold get_c_sector. cbn [Z.eqb Pos.eqb]. destruct (Z.ltb_spec (Z.of_nat (S q') - 1) 0); [lia|]. cbn [bind fst snd].
    replace (Z.to_nat (Z.of_nat (S q') - 1)) with q' by lia. rewrite Nat2Z.id, GI, GJ. cbn [bind].
    destruct (vals_dw OpC p (S q') q' I J HI HJ eq_refl) as (vs & -> & Hv). cbn [bind]. eexists. split; [reflexivity|]. split.
    + intros g Hg. apply elements_In in Hg. destruct Hg as (j & i & Hj & Hi & ->). split; [|exists j, i; auto].
      exists p, (S q'), i, p, q', j, I, J, OpC. cbn [g_I g_F g_v g_kind g_E]. repeat split; auto; [right; repeat split; auto|unfold energy; ring].
    + intros j i Hj Hi. eexists. split; [apply elements_In; exists j, i; split; [exact Hj|split; [exact Hi|reflexivity]]|]. split; reflexivity.
  - assert (P : p' = S p) by lia. assert (q = q') by lia. subst q' p'. change ((- (1) + 1) / 2)%Z with 0%Z. cbn [Z.ltb Z.compare]. unfold project_add.
    unfold get_cdg_sector. cbn [Z.eqb]. destruct (Z.ltb_spec (Z.of_nat n) (Z.of_nat p + 1)); [lia|]. cbn [bind fst snd].
    replace (Z.to_nat (Z.of_nat p + 1)) with (S p) by lia. rewrite Nat2Z.id, GI, GJ. cbn [bind].
    destruct (vals_up OpCdg p (S p) q I J HI HJ eq_refl) as (vs & -> & Hv). cbn [bind]. eexists. split; [reflexivity|]. split.
    + intros g Hg. apply elements_In in Hg. destruct Hg as (j & i & Hj & Hi & ->). split; [|exists j, i; auto].
      exists p, q, i, (S p), q, j, I, J, OpCdg. cbn [g_I g_F g_v g_kind g_E]. repeat split; auto; left; repeat split; auto.
    + intros j i Hj Hi. eexists. split; [apply elements_In; exists j, i; split; [exact Hj|split; [exact Hi|reflexivity]]|]. split; reflexivity.
  - assert (P : q' = S q) by lia. assert (p = p') by lia. subst p' q'. change ((- -1 + 1) / 2)%Z with 1%Z. cbn [Z.ltb Z.compare]. unfold project_add.
    unfold get_cdg_sector. cbn [Z.eqb Pos.eqb]. destruct (Z.ltb_spec (Z.of_nat n) (Z.of_nat q + 1)); [lia|]. cbn [bind fst snd].
    replace (Z.to_nat (Z.of_nat q + 1)) with (S q) by lia. rewrite Nat2Z.id, GI, GJ. cbn [bind].
    destruct (vals_dw OpCdg p q (S q) I J HI HJ eq_refl) as (vs & -> & Hv). cbn [bind]. eexists. split; [reflexivity|]. split.
    + intros g Hg. apply elements_In in Hg. destruct Hg as (j & i & Hj & Hi & ->). split; [|exists j, i; auto].
      exists p, q, i, p, (S q), j, I, J, OpCdg. cbn [g_I g_F g_v g_kind g_E]. repeat split; auto; right; repeat split; auto.
    + intros j i Hj Hi. eexists. split; [apply elements_In; exists j, i; split; [exact Hj|split; [exact Hi|reflexivity]]|]. split; reflexivity.
Qed.
End Move.
