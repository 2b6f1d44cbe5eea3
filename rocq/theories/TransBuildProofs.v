From Coq Require Import Reals List Arith NArith ZArith Bool Lia Lra Sorted.
From Verif Require Import Base RBase RLin OperatorsSpec FockSpec SectorModel MatvecModel MatvecProofs EspaceModel ProjModel ProjSpec ProjFinalProofs
  GfModel GfSpec RateModel RateSpec RateProofs RateActiveProofs TransModel TransSpec TransProofs.
Import ListNotations.
Local Open Scope R_scope.

(** * The ground sectors *)
Lemma fold_Rmin l : forall x, (fold_left Rmin l x = x \/ In (fold_left Rmin l x) l) /\ fold_left Rmin l x <= x /\ forall y, In y l -> fold_left Rmin l x <= y.
Proof.
  induction l as [|z l IH]; intros x; cbn [fold_left]; [repeat split; auto; [lra|intros ? []]|].
  destruct (IH (Rmin x z)) as (A & B & C). pose proof (Rmin_l x z). pose proof (Rmin_r x z). repeat split.
  - destruct A as [A|A]; [|right; now right]. rewrite A. unfold Rmin. destruct (Rle_dec x z); [now left|right; now left].
  - lra.
  - intros y [<-|Hy]; [lra|auto].
Qed.
Lemma rmin_ok l : (0 < length l)%nat -> exists m, rmin l = Ok m /\ In m l /\ forall x, In x l -> m <= x.
Proof.
  destruct l as [|x l]; cbn [length]; [lia|]. intros _. eexists. split; [reflexivity|]. destruct (fold_Rmin l x) as (A & B & C). split.
  - destruct A as [->|A]; [now left|now right].
  - intros y [<-|H]; auto.
Qed.

Definition zz (p q : nat) : Z * Z := (Z.of_nat p, Z.of_nat q).
Lemma ground_ok egs l : (forall key s, In (key, s) l -> (0 < nvals s)%nat /\ exists p q, key = [p; q]) ->
  exists ngs, ground_sectors egs l = Ok ngs /\ forall s, In s ngs <-> exists p q, s = zz p q /\ is_ground l egs p q.
Proof.
  unfold ground_sectors.
  assert (G : forall acc, (forall key s, In (key, s) l -> (0 < nvals s)%nat /\ exists p q, key = [p; q]) ->
    exists r, foldM (fun acc e => do m <- rmin (s_vals RRing (snd e));
      if Rltb (Rabs (m - egs)) (1 / 1000000000) then match fst e with [nup; ndw] => Ok (acc ++ [(Z.of_nat nup, Z.of_nat ndw)]) | _ => Err ValueError end else Ok acc) l acc = Ok (acc ++ r) /\
    forall s, In s r <-> exists p q, s = zz p q /\ is_ground l egs p q).
  2: { intros H. destruct (G [] H) as (r & E & S). exists r. auto. }
  induction l as [|[k s] l IH]; intros acc H; cbn [foldM].
  - exists []. rewrite app_nil_r. split; [reflexivity|]. intros x. split; [intros []|intros (p & q & _ & (s & m & [] & _))].
  - destruct (H k s (or_introl eq_refl)) as (NV & p & q & ->). cbn [fst snd]. destruct (rmin_ok (s_vals RRing s) NV) as (m & -> & Im & Lm). cbn [bind].
    assert (H' : forall key s, In (key, s) l -> (0 < nvals s)%nat /\ exists p q, key = [p; q]) by (intros; apply H; now right).
    destruct (Rltb (Rabs (m - egs)) (1 / 1000000000)) eqn:L; [apply Rltb_spec in L|]; cbn [bind].
    + destruct (IH (acc ++ [(Z.of_nat p, Z.of_nat q)]) H') as (r & -> & S). exists ((Z.of_nat p, Z.of_nat q) :: r). split; [now rewrite <- app_assoc|].
      intros x. cbn [In]. rewrite S. split.
      * intros [<-|(p' & q' & -> & s' & m' & I & R)]; [exists p, q; split; [reflexivity|]; exists s, m; repeat split; auto; now left|].
        exists p', q'. split; auto. exists s', m'. split; [now right|exact R].
      * intros (p' & q' & -> & s' & m' & [I|I] & R); [injection I as <- <- <-; now left|right]. exists p', q'. split; auto. exists s', m'. auto.
    + destruct (IH acc H') as (r & -> & S). exists r. split; [reflexivity|]. intros x. rewrite S. split.
      * intros (p' & q' & -> & s' & m' & I & R). exists p', q'. split; auto. exists s', m'. split; [now right|exact R].
      * intros (p' & q' & -> & s' & m' & [I|I] & R); [|exists p', q'; split; auto; exists s', m'; auto].
        injection I as <- <- <-. destruct R as (I' & M' & L'). exfalso. assert (m' = m) by (apply Rle_antisym; auto). subst m'. apply Rltb_spec in L'. congruence.
Qed.

Lemma apart_one p q p' q' : apart p q p' q' <-> one_electron (zz p q) (zz p' q').
Proof.
  unfold apart, one_electron, zz, neighbour. cbn [fst snd]. split.
  - intros ([|] & [[A B]|[A B]]); lia.
  - intros H. destruct (Nat.eq_dec q q') as [->|N].
    + destruct (Nat.lt_ge_cases p p'); [exists OpCdg|exists OpC]; left; split; lia.
    + destruct (Nat.lt_ge_cases q q'); [exists OpCdg|exists OpC]; right; split; lia.
Qed.
Lemma apart_sym p q p' q' : apart p q p' q' -> apart p' q' p q.
Proof. rewrite !apart_one. unfold one_electron. lia. Qed.
Lemma zz_inj p q p' q' : zz p q = zz p' q' -> p = p' /\ q = q'.
Proof. unfold zz. intros E. injection E. lia. Qed.

Section Build.
Variables (n : nat) (es : espace RRing) (egs : R).
Hypothesis HS : solved n es egs.
Let ND : NoDup (map fst es) := proj1 HS.
Let SEC := proj1 (proj2 HS).
Let REACH := proj2 (proj2 HS).

Lemma sector_of p q s : In ([p; q], s) es -> is_sector RRing n p q s.
Proof. intros H. destruct (SEC _ _ H) as (_ & p' & q' & E & S). injection E as <- <-. exact S. Qed.
Lemma stored_unique k s s' : In (k, s) es -> In (k, s') es -> s = s'.
Proof. intros A B. pose proof (es_get_In _ _ _ ND A). pose proof (es_get_In _ _ _ ND B). congruence. Qed.

Definition key_ok (M : nat -> nat -> nat -> nat -> Prop) (F I : label) : Prop :=
  exists p q i p' q' j sI sJ, F = [p'; q'; j] /\ I = [p; q; i] /\ In ([p; q], sI) es /\ In ([p'; q'], sJ) es /\ (i < nvals sI)%nat /\ (j < nvals sJ)%nat /\ M p q p' q'.
Definition Inv (d : list (key2 * gfel)) (M : nat -> nat -> nat -> nat -> Prop) : Prop :=
  NoDup (map fst d) /\ (forall k g, In (k, g) d -> k = (g_F g, g_I g) /\ exact_element n es g) /\
  (forall F I, In (F, I) (map fst d) <-> key_ok M F I).
Lemma Inv_ext d M M' : (forall p q p' q', M p q p' q' <-> M' p q p' q') -> Inv d M -> Inv d M'.
Proof.
  intros E (A & B & C). split; [exact A|]. split; [exact B|]. intros F I. rewrite C. unfold key_ok.
  split; intros (p & q & i & p' & q' & j & sI & sJ & H); exists p, q, i, p', q', j, sI, sJ; decompose [and] H; repeat split; auto; now apply E.
Qed.

Definition sec_body (p q : nat) (d : list (key2 * gfel)) (m : Z * Z) : res (list (key2 * gfel)) :=
  do ds <- getdns (fst m) (snd m);
  let '(dn, spin) := ds in
  let ispin := ((- spin + 1) / 2)%Z in
  match (if (0 <? dn)%Z then project_add ispin n p q es else project_sub ispin n p q es) with
  | Err OutOfHilbertError => Ok d
  | Err e => Err e
  | Ok gflist => Ok (fold_left (fun d gf => dput d (g_F gf, g_I gf) gf) gflist d)
  end.
Lemma step_ok d M p q p' q' I J m : Inv d M -> In m dns_all -> Z.of_nat p' = (Z.of_nat p + fst m)%Z -> Z.of_nat q' = (Z.of_nat q + snd m)%Z ->
  In ([p; q], I) es -> In ([p'; q'], J) es ->
  exists d', sec_body p q d m = Ok d' /\ Inv d' (fun a b a' b' => M a b a' b' \/ (a = p /\ b = q /\ a' = p' /\ b' = q')).
Proof.
  intros (A & B & C) Hm E1 E2 HI HJ.
  assert (D : exists dn spin, getdns (fst m) (snd m) = Ok (dn, spin)).
  { rewrite dns_all_eq in Hm. destruct Hm as [<-|[<-|[<-|[<-|[]]]]]; vm_compute; eauto. }
  destruct D as (dn & spin & D). unfold sec_body. rewrite D. cbn [bind].
  destruct (move_ok n es ND dn spin p q p' q' I J m Hm D E1 E2 HI HJ (sector_of _ _ _ HI) (sector_of _ _ _ HJ)) as (l & -> & B1 & B2).
  eexists. split; [reflexivity|]. fold (putl l d). split; [now apply putl_NoDup|]. split.
  - intros k g H. apply putl_In in H. destruct H as [H|[H ->]]; auto. split; auto. now apply B1.
  - intros F I'. rewrite putl_keys, C. split.
    + intros [K|(g & Hg & E)].
      * destruct K as (a & b & i & a' & b' & j & sI & sJ & H). exists a, b, i, a', b', j, sI, sJ. tauto.
      * injection E as -> ->. destruct (B1 g Hg) as (_ & j & i & Hj & Hi & -> & ->). exists p, q, i, p', q', j, I, J. repeat split; auto.
    + intros (a & b & i & a' & b' & j & sI & sJ & -> & -> & SI & SJ & Hi & Hj & [K|(-> & -> & -> & ->)]).
      * left. exists a, b, i, a', b', j, sI, sJ. repeat split; auto.
      * right. rewrite (stored_unique _ _ _ SI HI) in Hi. rewrite (stored_unique _ _ _ SJ HJ) in Hj. destruct (B2 j i Hj Hi) as (g & Hg & E & E'). exists g. split; auto. now rewrite E, E'.
Qed.
Lemma sector_ok p q I : In ([p; q], I) es -> forall ms, (forall m, In m ms -> In m dns_all) ->
  (forall m, In m ms -> exists p' q' J, Z.of_nat p' = (Z.of_nat p + fst m)%Z /\ Z.of_nat q' = (Z.of_nat q + snd m)%Z /\ In ([p'; q'], J) es) ->
  forall d M, Inv d M -> exists d', project_sector n p q es d ms = Ok d' /\
   Inv d' (fun a b a' b' => M a b a' b' \/ (a = p /\ b = q /\ exists m, In m ms /\ zz a' b' = zadd2 (zz a b) m)).
Proof.
  intros HI. change (project_sector n p q es) with (fun d ms => foldM (sec_body p q) ms d). cbv beta.
  induction ms as [|m ms IH]; intros H1 H2 d M HInv; cbn [foldM].
  - exists d. split; [reflexivity|]. apply (Inv_ext d M); auto. intros. split; [now left|]. intros [?|(_ & _ & m & [] & _)]. auto.
  - destruct (H2 m (or_introl eq_refl)) as (p' & q' & J & E1 & E2 & HJ).
    destruct (step_ok d M p q p' q' I J m HInv (H1 m (or_introl eq_refl)) E1 E2 HI HJ) as (d1 & -> & I1). cbn [bind].
    destruct (IH ltac:(intros; apply H1; now right) ltac:(intros; apply H2; now right) d1 _ I1) as (d2 & -> & I2). exists d2. split; [reflexivity|].
    revert I2. apply Inv_ext. intros a b a' b'. split.
    + intros [[?|(-> & -> & -> & ->)]|(-> & -> & m' & Hm' & E)]; [now left|right|right]; repeat split; [exists m; split; [now left|unfold zz, zadd2; cbn [fst snd]; f_equal; lia]|exists m'; split; auto; now right].
    + intros [?|(-> & -> & m' & [<-|Hm'] & E)]; [left; now left|left; right|right; repeat split; auto; exists m'; auto].
      unfold zz, zadd2 in E. cbn [fst snd] in E. injection E as X Y. repeat split; lia.
Qed.
End Build.

Lemma z2_eqb_spec a b : reflect (a = b) (z2_eqb a b).
Proof.
  unfold z2_eqb. destruct a as [a a'], b as [b b']. cbn [fst snd]. destruct (Z.eqb_spec a b), (Z.eqb_spec a' b'); constructor; congruence.
Qed.
Lemma existsb_z2 x l : existsb (z2_eqb x) l = true <-> In x l.
Proof.
  rewrite existsb_exists. split; [intros (y & H & E); destruct (z2_eqb_spec x y); congruence|intros H; exists x; split; auto; now destruct (z2_eqb_spec x x)].
Qed.

Section Main.
Variables (n : nat) (es : espace RRing) (egs : R).
Hypothesis HS : solved n es egs.

Lemma active_reach ngs : (forall s, In s ngs <-> exists p q, s = zz p q /\ is_ground es egs p q) ->
  (forall p q, In (zz p q) (find_active_sectors (Z.of_nat n) ngs) <-> reachable n es egs p q) /\
  (forall s, In s (find_active_sectors (Z.of_nat n) ngs) -> exists p q, s = zz p q).
Proof.
  intros HG. split.
  - intros p q. rewrite active_iff. unfold active, reachable. rewrite HG. split.
    + intros [(a & b & E & G)|(g & Hg & O & L)]; [apply zz_inj in E; destruct E as [-> ->]; now left|right].
      apply HG in Hg. destruct Hg as (a & b & -> & G). exists a, b. split; auto. split; [now apply apart_one|]. unfold legal, zz in L. cbn [fst snd] in L. lia.
    + intros [G|(a & b & G & O & L1 & L2)]; [left; exists p, q; auto|right]. exists (zz a b). split; [apply HG; exists a, b; auto|]. split; [now apply apart_one|]. unfold legal, zz. cbn [fst snd]. lia.
  - intros s. rewrite active_iff. intros [H|(g & _ & _ & L)]; [apply HG in H; destruct H as (a & b & -> & _); eauto|].
    exists (Z.to_nat (fst s)), (Z.to_nat (snd s)). destruct s as [a b]. unfold zz, legal in *. cbn [fst snd] in *. f_equal; lia.
Qed.

Lemma in_dns m : In m dns_all <-> (Z.abs (fst m) + Z.abs (snd m) = 1)%Z.
Proof.
  rewrite dns_all_eq. destruct m as [a b]. cbn [fst snd]. split.
  - intros [E|[E|[E|[E|[]]]]]; injection E as <- <-; reflexivity.
  - intros H. assert ((a = -1 /\ b = 0) \/ (a = 0 /\ b = -1) \/ (a = 1 /\ b = 0) \/ (a = 0 /\ b = 1))%Z as [[-> ->]|[[-> ->]|[[-> ->]|[-> ->]]]] by lia; cbn [In]; tauto.
Qed.

Theorem build_ok : exists d, build_transition_elements n egs es None = Ok d /\ Inv n es d (fun p q p' q' => reachable n es egs p q /\ reachable n es egs p' q' /\ apart p q p' q').
Proof.
  pose proof HS as (ND & SEC & REACH). unfold build_transition_elements.
  destruct (ground_ok egs es) as (ngs & -> & HG).
  { intros key s H. destruct (SEC _ _ H) as (A & p & q & E & _). split; auto. eauto. }
  cbn [bind]. destruct (active_reach ngs HG) as [AR AZ]. set (act := find_active_sectors (Z.of_nat n) ngs) in *.
  match goal with |- context[foldM ?f ?l []] => set (body := f); set (L := l) end.
  assert (HL : forall s, In s L <-> exists p q, s = [p; q] /\ reachable n es egs p q).
  { intros s. unfold L. rewrite usort_In, in_map_iff. split.
    - intros (x & <- & Hx). destruct (AZ x Hx) as (p & q & ->). exists p, q. split; [unfold zz; cbn [fst snd]; now rewrite !Nat2Z.id|now apply AR].
    - intros (p & q & -> & Rq). exists (zz p q). split; [unfold zz; cbn [fst snd]; now rewrite !Nat2Z.id|now apply AR]. }
  assert (G : forall l, (forall s, In s l -> In s L) -> forall d M, Inv n es d M -> exists d', foldM body l d = Ok d' /\
    Inv n es d' (fun p q p' q' => M p q p' q' \/ (In [p; q] l /\ reachable n es egs p' q' /\ apart p q p' q'))).
  { induction l as [|s l IH]; intros Hl d M HI; cbn [foldM].
    - exists d. split; [reflexivity|]. revert HI. apply Inv_ext. intros. split; [now left|intros [?|[[] _]]; auto].
    - destruct (proj1 (HL s) (Hl s (or_introl eq_refl))) as (p & q & -> & Rpq). destruct (REACH p q Rpq) as (I & II).
      unfold body at 1. cbv beta zeta.
      match goal with |- context[project_sector n p q es d ?ms] => set (dns := ms) end.
      assert (HD : forall m, In m dns <-> In m dns_all /\ In (zadd2 (zz p q) m) act).
      { intros m. unfold dns. rewrite filter_In, existsb_z2. unfold zadd2, zz. reflexivity. }
      destruct (sector_ok n es egs HS p q I II dns) with (d := d) (M := M) as (d1 & -> & I1); auto.
      + intros m Hm. now apply HD in Hm.
      + intros m Hm. apply HD in Hm. destruct Hm as [_ Hm]. destruct (AZ _ Hm) as (p' & q' & E). rewrite E in Hm. apply AR in Hm. destruct (REACH _ _ Hm) as (J & HJ).
        exists p', q', J. unfold zz, zadd2 in E. cbn [fst snd] in E. injection E as X Y. repeat split; auto.
      + cbn [bind]. destruct (IH ltac:(intros; apply Hl; now right) d1 _ I1) as (d2 & -> & I2). exists d2. split; [reflexivity|].
        revert I2. apply Inv_ext. intros a b a' b'. split.
        * intros [[?|(-> & -> & m & Hm & E)]|(H1 & H2)]; [now left|right|right; split; [now right|auto]].
          apply HD in Hm. destruct Hm as [Hm Ha]. rewrite <- E in Ha. split; [now left|]. split; [now apply AR|]. apply apart_one. apply in_dns in Hm. unfold one_electron.
          unfold zadd2, zz in *. cbn [fst snd] in *. injection E as X Y. lia.
        * intros [?|([E|H1] & H2 & H3)]; [left; now left| |right; auto]. injection E as <- <-. left. right. repeat split.
          exists (Z.of_nat a' - Z.of_nat p, Z.of_nat b' - Z.of_nat q)%Z. apply apart_one in H3. unfold one_electron, zz in H3. cbn [fst snd] in H3.
          assert (E : zz a' b' = zadd2 (zz p q) (Z.of_nat a' - Z.of_nat p, Z.of_nat b' - Z.of_nat q)%Z) by (unfold zz, zadd2; cbn [fst snd]; f_equal; lia).
          split; [|exact E]. apply HD. split; [apply in_dns; cbn [fst snd]; lia|]. rewrite <- E. now apply AR. }
  destruct (G L (fun s H => H) [] (fun _ _ _ _ => False)) as (d & E & I).
  { split; [constructor|]. split; [intros ? ? []|]. intros F I. split; [intros []|intros (? & ? & ? & ? & ? & ? & ? & ? & ? & ? & ? & ? & ? & ? & [])]. }
  rewrite E. exists d. split; [reflexivity|]. revert I. apply Inv_ext. intros p q p' q'. split.
  - intros [[]|(H1 & H2 & H3)]. repeat split; auto. apply HL in H1. destruct H1 as (a & b & X & Y). injection X as <- <-. exact Y.
  - intros (H1 & H2 & H3). right. repeat split; auto. apply HL. exists p, q. auto.
Qed.
End Main.
