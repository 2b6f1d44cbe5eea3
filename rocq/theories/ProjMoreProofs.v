(** The four projections against second quantisation. *)
From Coq Require Import List Arith NArith ZArith Bool Lia Sorted Psatz Ring.
From Verif Require Import Base OperatorsModel OperatorsSpec OperatorsProofs LookupModel LookupSpec LookupProofs SectorModel SectorSpec SectorProofs
  FockSpec FockProofs LocalModel MatvecModel EspaceModel ProjModel ProjSpec ProjProofs.
Import ListNotations.

Section More.
Variable K : CRing.
Add Ring Kr : (cth K).
Local Open Scope cr_scope.
Notation ent2 v j i := (nth i (nth j v []) (c0 K)).

(** ** Loops that overwrite disjoint parts *)
Lemma fold_set {A} (step : list (list K) -> A -> res (list (list K))) (hit : A -> nat -> bool) (g : A -> nat -> nat -> K) nr nc (l : list A) :
  NoDup l ->
  (forall p p' a, In p l -> In p' l -> (a < nc)%nat -> hit p a = true -> hit p' a = true -> p = p') ->
  (forall p j a, In p l -> (j < nr)%nat -> (a < nc)%nat -> hit p a = false -> g p j a = 0) ->
  (forall v p, In p l -> shape2 K v nr nc -> exists v', step v p = Ok v' /\ shape2 K v' nr nc /\
     forall j a, (j < nr)%nat -> (a < nc)%nat -> ent2 v' j a = if hit p a then g p j a else ent2 v j a) ->
  forall v, shape2 K v nr nc -> (forall p j a, In p l -> (j < nr)%nat -> (a < nc)%nat -> hit p a = true -> ent2 v j a = 0) ->
  exists v', foldM step l v = Ok v' /\ shape2 K v' nr nc /\
     forall j a, (j < nr)%nat -> (a < nc)%nat -> ent2 v' j a = ent2 v j a + bsum (fun p => g p j a) l.
Proof.
  intros ND D Z. induction l as [|p l IH]; intros H v Sv V0.
  - exists v. repeat split; auto; try apply Sv. intros. simpl. ring.
  - inversion ND as [|? ? Hni ND']; subst. destruct (H v p (or_introl eq_refl) Sv) as (v1 & E1 & S1 & H1). simpl. rewrite E1. cbn [bind].
    destruct (IH ND' (fun p p' a I I' => D p p' a (or_intror I) (or_intror I')) (fun p j a I => Z p j a (or_intror I)) (fun v p I => H v p (or_intror I)) v1 S1)
      as (v2 & E2 & S2 & H2).
    { intros q j a I Hj Ha Hq. rewrite H1 by auto. destruct (hit p a) eqn:Hp.
      - exfalso. apply Hni. rewrite (D p q a); simpl; auto.
      - apply (V0 q); simpl; auto. }
    exists v2. rewrite E2. repeat split; auto; try apply S2.
    intros j a Hj Ha. rewrite H2, H1 by auto. destruct (hit p a) eqn:Hp.
    + rewrite (V0 p j a) by (simpl; auto). ring.
    + rewrite (Z p j a) by (simpl; auto). ring.
Qed.

Lemma put_all_spec (x : list K) (f : nat -> nat) (h : nat -> K) w : (forall m, (m < w)%nat -> (f m < length x)%nat) ->
  (forall m m', (m < w)%nat -> (m' < w)%nat -> f m = f m' -> m = m') ->
  length (put_all K x (List.combine (map f (seq 0 w)) (map h (seq 0 w)))) = length x /\
  (forall m, (m < w)%nat -> nth (f m) (put_all K x (List.combine (map f (seq 0 w)) (map h (seq 0 w)))) 0 = h m) /\
  (forall a, (forall m, (m < w)%nat -> f m <> a) -> nth a (put_all K x (List.combine (map f (seq 0 w)) (map h (seq 0 w)))) 0 = nth a x 0).
Proof.
  induction w as [|w IH]; intros Hf Hi.
  - simpl. repeat split; auto. intros; lia.
  - destruct IH as (L & A & B). { intros; apply Hf; lia. } { intros; apply Hi; lia. }
    assert (P : put_all K x (List.combine (map f (seq 0 (S w))) (map h (seq 0 (S w)))) =
      upd_tot (put_all K x (List.combine (map f (seq 0 w)) (map h (seq 0 w)))) (f w) (h w)).
    { rewrite seq_S, !map_app. unfold put_all.
      assert (C : forall (l1 : list nat) (l2 : list K) a b, length l1 = length l2 -> List.combine (l1 ++ [a]) (l2 ++ [b]) = List.combine l1 l2 ++ [(a, b)]).
      { clear. induction l1; destruct l2; simpl; intros; try lia; auto. f_equal. apply IHl1. lia. }
      simpl. rewrite C by now rewrite !map_length. rewrite fold_left_app. reflexivity. }
    rewrite P. assert (Hw : (f w < length (put_all K x (List.combine (map f (seq 0 w)) (map h (seq 0 w)))))%nat) by (rewrite L; apply Hf; lia).
    split; [now rewrite upd_tot_length|]. split.
    + intros m Hm. rewrite nth_upd_tot by auto. destruct (Nat.eqb_spec (f w) (f m)) as [E|E].
      * apply Hi in E; try lia. now subst.
      * apply A. destruct (Nat.eq_dec m w); [subst; tauto|lia].
    + intros a Ha. rewrite nth_upd_tot by auto. destruct (Nat.eqb_spec (f w) a) as [E|E]; [apply Ha in E; [tauto|lia]|]. apply B. intros; apply Ha; lia.
Qed.

Lemma assign_ok nI d v0 sg cI (f r : nat -> nat) w : length cI = nI -> shape2 K v0 nI d ->
  (forall m, (m < w)%nat -> (f m < d)%nat) -> (forall m m', (m < w)%nat -> (m' < w)%nat -> f m = f m' -> m = m') ->
  exists v, assign K nI v0 sg cI (map f (seq 0 w)) (map r (seq 0 w)) = Ok v /\ shape2 K v nI d /\
    forall j, (j < nI)%nat ->
      (forall m, (m < w)%nat -> ent2 v j (f m) = z2k sg * nth (r m) (nth j cI []) 0) /\
      (forall a, (forall m, (m < w)%nat -> f m <> a) -> ent2 v j a = ent2 v0 j a).
Proof.
  intros LI [S1 S2] Hf Hi. unfold assign. rewrite !map_length, LI, !Nat.eqb_refl. simpl. eexists. split; [reflexivity|]. split.
  - split; [rewrite map_length, combine_length; lia|]. intros x Hx. apply in_map_iff in Hx. destruct Hx as ([y c] & <- & Hx).
    apply in_combine_l in Hx. apply S2 in Hx. cbn [fst snd]. rewrite map_map.
    rewrite (proj1 (put_all_spec y f (fun m => z2k sg * nth (r m) c 0) w ltac:(intros; rewrite Hx; auto) Hi)). exact Hx.
  - intros j Hj. assert (Lj : length (nth j v0 []) = d) by (apply S2, nth_In; lia).
    rewrite (nth_map_combine _ v0 cI j [] []) by lia. cbn [fst snd]. rewrite map_map.
    destruct (put_all_spec (nth j v0 []) f (fun m => z2k sg * nth (r m) (nth j cI []) 0) w ltac:(intros; rewrite Lj; auto) Hi) as (_ & A & B).
    split; auto.
Qed.

(** ** One species: overwriting loops *)
Section Species.
Variables (n p p' pos : nat) (op : fop) (lI lJ : list N).
Hypothesis Hp : (p <= n)%nat. Hypothesis Hp' : (p' <= n)%nat. Hypothesis Hn : (n <= 32)%nat. Hypothesis Hpos : (pos < n)%nat.
Hypothesis Hnb : neighbour op p p'.
Hypothesis EI : generate_states n p = Ok lI. Hypothesis EJ : generate_states n p' = Ok lJ.
Let o := lad op pos.
Notation e1 := (e1 K n pos op lJ).

(** [rowJ k m] is a bijection with inverse [ka, ma]. *)
Lemma proj_fold (cI : list (list K)) nI d w rowJ rowI (ka ma : nat -> nat) (step : list (list K) -> nat * N -> res (list (list K))) :
  length cI = nI ->
  (forall k m, (k < length lJ)%nat -> (m < w)%nat -> (rowJ k m < d)%nat /\ ka (rowJ k m) = k /\ ma (rowJ k m) = m) ->
  (forall a, (a < d)%nat -> (ka a < length lJ)%nat /\ (ma a < w)%nat /\ rowJ (ka a) (ma a) = a) ->
  (forall v i s, nth_error lI i = Some s -> check_occupation op s pos = false -> step v (i, s) = Ok v) ->
  (forall v i s sg t k, nth_error lI i = Some s -> check_occupation op s pos = true -> apply_op op s pos n = Ok (sg, t) -> binsearch lJ t = Ok (Z.of_nat k) ->
     (k < length lJ)%nat -> step v (i, s) = assign K nI v sg cI (map (rowJ k) (seq 0 w)) (map (rowI i) (seq 0 w))) ->
  exists v, foldM step (enum lI) (repeat (repeat 0 d) nI) = Ok v /\ shape2 K v nI d /\
  forall j a, (j < nI)%nat -> (a < d)%nat -> ent2 v j a = nsum (length lI) (fun i => e1 (ka a) (nth i lI 0%N) * nth (rowI i (ma a)) (nth j cI []) 0).
Proof.
  intros LI R1 R2 Hno Hyes.
  set (hit := fun (q : nat * N) (a : nat) => match app1 n o (snd q) with Some (_, t) => N.eqb t (nth (ka a) lJ 0%N) | None => false end).
  set (g := fun (q : nat * N) (j a : nat) => e1 (ka a) (snd q) * nth (rowI (fst q) (ma a)) (nth j cI []) 0).
  assert (NDI : NoDup lI) by (apply (nodup_of n p lI); auto).
  assert (NDE : NoDup (enum lI)).
  { unfold enum. assert (G : forall (l1 : list nat) (l2 : list N), NoDup l1 -> NoDup (List.combine l1 l2)).
    { clear. induction l1; intros [|] H; simpl; constructor; inversion H; subst; auto. intros I. apply in_combine_l in I. tauto. }
    apply G, seq_NoDup. }
  destruct (fold_set step hit g nI d (enum lI)) with (v := repeat (repeat (c0 K) d) nI) as (v & E & S & H); auto.
  - intros [i s] [i' s'] a I I' Ha H1 H2. apply in_enum in I. apply in_enum in I'. unfold hit in H1, H2. cbn [snd] in H1, H2.
    destruct (app1 n o s) as [[z t]|] eqn:A1; [|discriminate]. destruct (app1 n o s') as [[z' t']|] eqn:A2; [|discriminate].
    apply N.eqb_eq in H1, H2. subst t'. subst t. apply app1_adj in A1. apply app1_adj in A2. rewrite A1 in A2. injection A2 as _ <-. f_equal.
    apply (proj1 (NoDup_nth_error lI) NDI); [tauto|]. destruct I as [-> _], I' as [-> _]. reflexivity.
  - intros [i s] j a I Hj Ha H1. unfold hit in H1. unfold g, ProjProofs.e1. cbn [snd] in *. rewrite elem_single. fold o.
    destruct (app1 n o s) as [[z t]|] eqn:A1; [rewrite H1|]; simpl; ring.
  - intros v [i s] Hin Sv. apply in_enum in Hin. destruct Hin as [Hi _]. destruct (check_occupation op s pos) eqn:C.
    + destruct (contribution n p p' pos op lI lJ Hp Hp' Hn Hpos Hnb EI EJ i s Hi C) as (sg & t & k & A & B & Hk & D & F).
      rewrite (Hyes v i s sg t k) by auto.
      destruct (assign_ok nI d v sg cI (rowJ k) (rowI i) w) as (v' & E & S & H); auto.
      { intros m Hm. now apply R1. }
      { intros m m' Hm Hm' Em. pose proof (R1 k m Hk Hm) as (_ & _ & <-). pose proof (R1 k m' Hk Hm') as (_ & _ & <-). now rewrite Em. }
      exists v'. repeat split; auto; try apply S. intros j a Hj Ha. destruct (H j Hj) as [H1 H2]. destruct (R2 a Ha) as (Ka & Ma & Ra).
      unfold hit, g. cbn [snd fst]. fold o in F. rewrite F. destruct (N.eqb_spec t (nth (ka a) lJ 0%N)) as [Et|Et].
      * assert (ka a = k) as Ek.
        { apply (proj1 (NoDup_nth_error lJ) (nodup_of n p' lJ Hp' Hn EJ) _ _ Ka). rewrite D, Et. now apply nth_error_nth'. }
        rewrite (e1_found K n p' pos op lJ Hp' Hn EJ s sg t (ka a) k F D Ka), Ek, Nat.eqb_refl.
        rewrite <- (H1 (ma a) Ma). f_equal. rewrite <- Ek. now symmetry.
      * apply H2. intros m Hm Em. destruct (R1 k m Hk Hm) as (_ & K1 & _). rewrite Em in K1. subst k. apply Et. symmetry. now apply nth_error_nth.
    + rewrite (Hno v i s) by auto. exists v. repeat split; auto; try apply Sv. intros j a Hj Ha.
      unfold hit. cbn [snd]. rewrite (check_occ op s pos n) in C. fold o in C. destruct (app1 n o s) as [[? ?]|]; [discriminate|reflexivity].
  - apply zeros_shape.
  - intros q j a I Hj Ha _. now apply zeros_ent.
  - exists v. repeat split; auto; try apply S. intros j a Hj Ha. rewrite H, zeros_ent by auto. unfold g.
    rewrite (bsum_enum K lI 0%N (fun q s => e1 (ka a) s * nth (rowI q (ma a)) (nth j cI []) 0)). ring.
Qed.
End Species.
End More.
