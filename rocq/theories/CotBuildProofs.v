From Coq Require Import Reals List Arith NArith ZArith Bool Lia Lra Sorted.
From Verif Require Import Base RBase RLin OperatorsSpec FockSpec SectorModel MatvecModel MatvecProofs EspaceModel ProjModel ProjSpec ProjFinalProofs
  GfModel GfSpec GfProofs RateModel RateSpec RateProofs RateActiveProofs TransModel TransSpec TransProofs TransBuildProofs CotModel CotSpec CotProofs.
Import ListNotations.
Local Open Scope R_scope.

(** * Dictionaries of lists *)
Definition dlook (d : list (key2 * list sigma)) (k : key2) : list sigma := match find (fun e => key_eqb (fst e) k) d with Some e => snd e | None => [] end.
Lemma dlook_append d k v k' : dlook (dappend d k v) k' = if key_eqb k k' then dlook d k ++ [v] else dlook d k'.
Proof.
  unfold dlook. induction d as [|[k0 l] d IH]; cbn [dappend find fst snd]; [destruct (key_eqb_spec k k'); reflexivity|].
  destruct (key_eqb_spec k0 k) as [->|N]; cbn [find fst snd].
  - destruct (key_eqb_spec k k') as [->|N]; reflexivity.
  - destruct (key_eqb_spec k0 k') as [->|N']; cbn [snd]; [|exact IH]. destruct (key_eqb_spec k k'); [congruence|reflexivity].
Qed.
Lemma append_keys (d : list (key2 * list sigma)) k v x : In x (map fst (dappend d k v)) <-> x = k \/ In x (map fst d).
Proof.
  induction d as [|[k' v'] d IH]; cbn [dappend map In fst]; [intuition|]. destruct (key_eqb_spec k' k) as [->|N]; cbn [map In fst]; [|rewrite IH]; intuition.
Qed.
Lemma append_NoDup (d : list (key2 * list sigma)) k v : NoDup (map fst d) -> NoDup (map fst (dappend d k v)).
Proof.
  induction d as [|[k' v'] d IH]; cbn [dappend map fst]; intros H; [constructor; auto; constructor|]. inversion H as [|? ? N H']; subst.
  destruct (key_eqb_spec k' k) as [->|NE]; cbn [map fst]; constructor; auto. rewrite append_keys. intros [->|?]; auto.
Qed.
Definition full (d : list (key2 * list sigma)) : Prop := NoDup (map fst d) /\ forall k l, In (k, l) d -> l <> [].
Lemma append_full d k v : full d -> full (dappend d k v).
Proof.
  intros [ND F]. split; [now apply append_NoDup|]. clear ND. induction d as [|[k' v'] d IH]; cbn [dappend]; intros k0 l H.
  - destruct H as [H|[]]. injection H as <- <-. discriminate.
  - destruct (key_eqb_spec k' k); destruct H as [H|H].
    + injection H as <- <-. destruct v'; discriminate.
    + apply (F k0). now right.
    + injection H as <- <-. apply (F k'). now left.
    + apply (IH (fun k l H => F k l (or_intror H)) k0); auto.
Qed.
Lemma dlook_In d k l : full d -> (In (k, l) d <-> l <> [] /\ dlook d k = l).
Proof.
  intros [ND F]. unfold dlook. split.
  - intros H. split; [now apply (F k)|]. clear F. induction d as [|[k' v'] d IH]; [destruct H|]. cbn [find fst map] in *. inversion ND as [|? ? N ND']; subst.
    destruct (key_eqb_spec k' k) as [->|NE]; destruct H as [H|H]; cbn [snd].
    + now injection H.
    + exfalso. apply N. apply in_map_iff. exists (k, l). auto.
    + congruence.
    + auto.
  - intros [NE E]. destruct (find _ d) as [[k' l']|] eqn:Q; [|congruence]. apply find_some in Q. cbn [fst snd] in *. destruct Q as [Q Q']. destruct (key_eqb_spec k' k); [|discriminate]. now subst.
Qed.
Definition appl (l : list sigma) (d : list (key2 * list sigma)) := fold_left (fun d s => dappend d (skey s) s) l d.
Lemma appl_full l : forall d, full d -> full (appl l d).
Proof. induction l as [|s l IH]; intros d H; cbn [appl fold_left]; auto. apply IH. now apply append_full. Qed.
Lemma appl_look l k : forall d, dlook (appl l d) k = dlook d k ++ filter (fun s => key_eqb (skey s) k) l.
Proof.
  induction l as [|s l IH]; intros d; cbn [appl fold_left filter]; [now rewrite app_nil_r|]. fold (appl l (dappend d (skey s) s)). rewrite IH, dlook_append.
  destruct (key_eqb_spec (skey s) k) as [->|N]; [now rewrite <- app_assoc|reflexivity].
Qed.

Lemma filter_single {A} (P : A -> bool) l x : NoDup l -> In x l -> P x = true -> (forall y, In y l -> P y = true -> y = x) -> filter P l = [x].
Proof.
  induction l as [|y l IH]; intros ND H T U; [destruct H|]. cbn [filter]. inversion ND as [|? ? N ND']; subst. destruct H as [->|H].
  - rewrite T. f_equal. clear IH ND ND' T. induction l as [|z l IH]; [reflexivity|]. cbn [filter]. destruct (P z) eqn:Z.
    + exfalso. apply N. left. apply U; auto. right. now left.
    + apply IH; [intros Q; apply N; now right|]. intros w [->|Hw]; apply U; [now left|right; now right].
  - destruct (P y) eqn:Y; [exfalso; apply N; rewrite (U y (or_introl eq_refl) Y); exact H|]. apply IH; auto. intros z Hz. apply U. now right.
Qed.
Lemma filter_none {A} (P : A -> bool) l : (forall y, In y l -> P y = false) -> filter P l = [].
Proof. induction l as [|y l IH]; intros H; [reflexivity|]. cbn [filter]. rewrite (H y (or_introl eq_refl)). apply IH. intros; apply H; now right. Qed.
Lemma filter_map_comm {A B} (P : B -> bool) (f : A -> B) l : filter P (map f l) = map f (filter (fun x => P (f x)) l).
Proof. induction l as [|x l IH]; [reflexivity|]. cbn [map filter]. destruct (P (f x)); cbn [map]; now rewrite IH. Qed.
Lemma NoDup_ndindex a b : NoDup (ndindex a b).
Proof.
  unfold ndindex. assert (G : forall l : list nat, NoDup l -> NoDup (flat_map (fun i => map (fun f : nat => (i, f)) (seq 0 b)) l)); [|apply G, seq_NoDup].
  induction l as [|x l IH]; intros ND; cbn [flat_map]; [constructor|]. inversion ND as [|? ? N ND']; subst. specialize (IH ND').
  assert (IN : forall y, ~ In (x, y) (flat_map (fun i => map (fun f : nat => (i, f)) (seq 0 b)) l)).
  { intros y H. apply in_flat_map in H. destruct H as (z & Hz & H). apply in_map_iff in H. destruct H as (w & E & _). injection E as -> ->. contradiction. }
  revert IH IN. generalize (flat_map (fun i => map (fun f : nat => (i, f)) (seq 0 b)) l). intros r IH IN.
  induction (seq_NoDup b 0) as [|y m NY NM IHm]; cbn [map app]; [exact IH|]. constructor; [|exact IHm].
  rewrite in_app_iff. intros [H|H]; [|exact (IN _ H)]. apply in_map_iff in H. destruct H as (z & E & Hz). injection E as ->. contradiction.
Qed.

Section Build.
Variables (n : nat) (es : espace RRing) (egs : R).
Hypothesis Hn : (0 < n)%nat.
Hypothesis HS : co_solved n es egs.
Let ND : NoDup (map fst es) := proj1 HS.
Let SEC := proj1 (proj2 HS).
Let REACH := proj1 (proj2 (proj2 HS)).
Notation reach := (co_reach n es egs).

(** The elements found in one sector under the key. *)
Definition found (p q : nat) (cs : list (nat * nat)) (k : key2) (L : list sigma) : Prop :=
  (forall p' q' f i sI sF, k = ([p'; q'; f], [p; q; i]) -> In ([p; q], sI) es -> In ([p'; q'], sF) es -> (i < nvals sI)%nat -> (f < nvals sF)%nat ->
     Forall2 (exact_sigma n es (fst k) (snd k)) (filter (fun c => z2_eqb (zadd2 (zz p q) (delta c)) (zz p' q')) cs) L) /\
  (L <> [] -> exists p' q' f i sI sF c, k = ([p'; q'; f], [p; q; i]) /\ In ([p; q], sI) es /\ In ([p'; q'], sF) es /\ (i < nvals sI)%nat /\ (f < nvals sF)%nat /\
     In c cs /\ zadd2 (zz p q) (delta c) = zz p' q').
Lemma sector_found p q : reach p q -> forall cs, (forall c, In c cs -> In c spins /\ exists p' q', zz p' q' = zadd2 (zz p q) (delta c) /\ reach p' q') ->
  exists ls, mapM (channel n p q es) (map zsp cs) = Ok ls /\ forall k, found p q cs k (filter (fun s => key_eqb (skey s) k) (concat ls)).
Proof.
  intros RC. destruct (REACH p q RC) as (sI & HI). induction cs as [|c cs IH]; intros Hc; cbn [map mapM].
  - exists []. split; [reflexivity|]. intros k. split; [intros; constructor|]. cbn. congruence.
  - destruct IH as (ls & E & HF); [intros; apply Hc; now right|]. destruct (Hc c (or_introl eq_refl)) as (Hs & p1 & q1 & D & RF). destruct (REACH p1 q1 RF) as (F1 & HF1).
    destruct (channel_ok n es egs Hn HS c p q p1 q1 sI F1 Hs RC D HI HF1) as (G & -> & HG). cbn [bind]. rewrite E. cbn [bind]. eexists. split; [reflexivity|].
    intros k. cbn [concat]. rewrite filter_app, filter_map_comm.
    destruct (HF k) as [F1' F2']. split.
    + intros p' q' f i sI' sF -> HI' HF' Hi Hf. pose proof (co_stored_unique n es egs HS _ _ _ HI' HI). subst sI'. cbn [filter].
      destruct (z2_eqb_spec (zadd2 (zz p q) (delta c)) (zz p' q')) as [Z|Z].
      * rewrite Z in D. apply zz_inj in D. destruct D as [-> ->]. pose proof (co_stored_unique n es egs HS _ _ _ HF' HF1). subst sF.
        rewrite (filter_single _ (ndindex _ _) (f, i)).
        -- cbn [map app]. constructor; [apply HG; auto|]. apply (F1' p' q' f i sI F1); auto.
        -- apply NoDup_ndindex.
        -- apply in_ndindex. auto.
        -- destruct (HG f i Hf Hi) as [-> _]. now destruct (key_eqb_spec ([p'; q'; f], [p; q; i]) ([p'; q'; f], [p; q; i])).
        -- intros [f' i'] H. apply in_ndindex in H. destruct (HG f' i' ltac:(tauto) ltac:(tauto)) as [-> _]. destruct (key_eqb_spec ([p'; q'; f'], [p; q; i']) ([p'; q'; f], [p; q; i])) as [Q|]; [|discriminate]. intros _. congruence.
      * rewrite (filter_none _ (ndindex _ _)); [cbn [map app]; apply (F1' p' q' f i sI sF); auto|].
        intros [f' i'] H. apply in_ndindex in H. destruct (HG f' i' ltac:(tauto) ltac:(tauto)) as [-> _]. destruct (key_eqb_spec ([p1; q1; f'], [p; q; i']) ([p'; q'; f], [p; q; i])) as [Q|]; [|reflexivity].
        exfalso. injection Q as -> -> _ _. now symmetry in D.
    + intros NE. destruct (filter (fun x => key_eqb (skey (G x)) k) (ndindex (nvals F1) (nvals sI))) as [|[f i] r] eqn:Q.
      * cbn [map app] in NE. destruct (F2' NE) as (p' & q' & f & i & sI' & sF & c' & H). exists p', q', f, i, sI', sF, c'. cbn [In]. tauto.
      * assert (X : In (f, i) (filter (fun x => key_eqb (skey (G x)) k) (ndindex (nvals F1) (nvals sI)))) by (rewrite Q; now left).
        apply filter_In in X. destruct X as [X Y]. apply in_ndindex in X. destruct (HG f i ltac:(tauto) ltac:(tauto)) as [K _]. destruct (key_eqb_spec (skey (G (f, i))) k) as [K'|]; [|discriminate].
        rewrite K in K'. exists p1, q1, f, i, sI, F1, c. repeat split; auto; try tauto. now left.
Qed.

(** The elements of all sectors. *)
Definition good (P : nat -> nat -> Prop) (d : list (key2 * list sigma)) : Prop := full d /\
  (forall p q i p' q' f sI sF, P p q -> reach p' q' -> In ([p; q], sI) es -> In ([p'; q'], sF) es -> (i < nvals sI)%nat -> (f < nvals sF)%nat ->
     Forall2 (exact_sigma n es [p'; q'; f] [p; q; i]) (channels [p'; q'; f] [p; q; i]) (dlook d ([p'; q'; f], [p; q; i]))) /\
  (forall k, dlook d k <> [] -> exists p q i p' q' f sI sF, k = ([p'; q'; f], [p; q; i]) /\ P p q /\ reach p' q' /\ In ([p; q], sI) es /\ In ([p'; q'], sF) es /\
     (i < nvals sI)%nat /\ (f < nvals sF)%nat /\ channels [p'; q'; f] [p; q; i] <> []).

Lemma filter_channels p q p' q' f i (B : nat * nat -> bool) : (forall c, In c spins -> zadd2 (zz p q) (delta c) = zz p' q' -> B c = true) ->
  filter (fun c => z2_eqb (zadd2 (zz p q) (delta c)) (zz p' q')) (filter B spins) = channels [p'; q'; f] [p; q; i].
Proof.
  intros HB. assert (E : filter (fun c => z2_eqb (zadd2 (zz p q) (delta c)) (zz p' q')) (filter B spins) = filter (fun c => z2_eqb (zadd2 (zz p q) (delta c)) (zz p' q')) spins).
  { revert HB. generalize spins. induction l as [|c l IH]; intros HB; [reflexivity|]. cbn [filter]. destruct (z2_eqb_spec (zadd2 (zz p q) (delta c)) (zz p' q')) as [Q|Q].
    - rewrite (HB c (or_introl eq_refl) Q). cbn [filter]. destruct (z2_eqb_spec (zadd2 (zz p q) (delta c)) (zz p' q')); [|contradiction]. f_equal. apply IH. intros; apply HB; auto. now right.
    - destruct (B c); cbn [filter]; [destruct (z2_eqb_spec (zadd2 (zz p q) (delta c)) (zz p' q')); [contradiction|]|]; apply IH; intros; apply HB; auto; now right. }
  rewrite E. unfold spins, channels, z2_eqb, zadd2, zz. cbn [filter delta fst snd].
  destruct (Nat.eqb_spec p' p), (Nat.eqb_spec q' q); cbn [andb].
  - destruct (Z.eqb_spec (Z.of_nat p + 0) (Z.of_nat p')); [|lia]. destruct (Z.eqb_spec (Z.of_nat q + 0) (Z.of_nat q')); [|lia].
    destruct (Z.eqb_spec (Z.of_nat p + -1) (Z.of_nat p')); [lia|]. destruct (Z.eqb_spec (Z.of_nat p + 1) (Z.of_nat p')); [lia|]. reflexivity.
  - destruct (Z.eqb_spec (Z.of_nat p + 0) (Z.of_nat p')); [|lia]. destruct (Z.eqb_spec (Z.of_nat q + 0) (Z.of_nat q')); [lia|].
    destruct (Z.eqb_spec (Z.of_nat p + -1) (Z.of_nat p')); [lia|]. destruct (Z.eqb_spec (Z.of_nat p + 1) (Z.of_nat p')); [lia|].
    destruct (Nat.eqb_spec (S p') p); [lia|]. destruct (Nat.eqb_spec p' (S p)); [lia|]. reflexivity.
  - destruct (Z.eqb_spec (Z.of_nat p + 0) (Z.of_nat p')); [lia|].
    destruct (Z.eqb_spec (Z.of_nat q + 1) (Z.of_nat q')); [lia|]. destruct (Z.eqb_spec (Z.of_nat q + -1) (Z.of_nat q')); [lia|]. rewrite !andb_false_r.
    destruct (Nat.eqb_spec q' (S q)); [lia|]. destruct (Nat.eqb_spec (S q') q); [lia|]. rewrite !andb_false_r. reflexivity.
  - destruct (Z.eqb_spec (Z.of_nat p + 0) (Z.of_nat p')); [lia|]. cbn [andb].
    destruct (Z.eqb_spec (Z.of_nat p + -1) (Z.of_nat p')), (Nat.eqb_spec (S p') p); try lia;
    destruct (Z.eqb_spec (Z.of_nat q + 1) (Z.of_nat q')), (Nat.eqb_spec q' (S q)); try lia;
    destruct (Z.eqb_spec (Z.of_nat p + 1) (Z.of_nat p')), (Nat.eqb_spec p' (S p)); try lia;
    destruct (Z.eqb_spec (Z.of_nat q + -1) (Z.of_nat q')), (Nat.eqb_spec (S q') q); try lia; reflexivity.
Qed.

Lemma good_step P d p q (reached : list (Z * Z)) : good P d -> ~ P p q -> reach p q ->
  (forall a b, In (zz a b) reached <-> reach a b) -> (forall s, In s reached -> exists a b, s = zz a b) ->
  exists d', project_sector n p q es d (map fst (filter (fun id : (Z * Z) * (Z * Z) => existsb (z2_eqb (zadd2 (Z.of_nat p, Z.of_nat q) (snd id))) reached) (List.combine ispin_all dS4))) = Ok d' /\
  good (fun a b => P a b \/ (a = p /\ b = q)) d'.
Proof.
  intros (FU & G1 & G2) NP RC HR HZ.
  set (B := fun c => existsb (z2_eqb (zadd2 (zz p q) (delta c))) reached).
  assert (E : map fst (filter (fun id : (Z * Z) * (Z * Z) => existsb (z2_eqb (zadd2 (Z.of_nat p, Z.of_nat q) (snd id))) reached) (List.combine ispin_all dS4)) = map zsp (filter B spins)).
  { unfold ispin_all, dS4, spins, B, zz. cbn [List.combine filter delta snd].
    destruct (existsb (z2_eqb (zadd2 (Z.of_nat p, Z.of_nat q) (0, 0)%Z)) reached), (existsb (z2_eqb (zadd2 (Z.of_nat p, Z.of_nat q) (-1, 1)%Z)) reached), (existsb (z2_eqb (zadd2 (Z.of_nat p, Z.of_nat q) (1, -1)%Z)) reached); reflexivity. }
  rewrite E. unfold project_sector.
  destruct (sector_found p q RC (filter B spins)) as (ls & -> & HF).
  { intros c Hc. apply filter_In in Hc. destruct Hc as [Hc Hb]. split; auto. unfold B in Hb. apply existsb_z2 in Hb. destruct (HZ _ Hb) as (a & b & Z). exists a, b. split; auto. apply HR. now rewrite <- Z. }
  cbn [bind]. eexists. split; [reflexivity|]. fold (appl (concat ls) d).
  assert (Z0 : forall p' q' f i, dlook d ([p'; q'; f], [p; q; i]) = []).
  { intros p' q' f i. destruct (dlook d ([p'; q'; f], [p; q; i])) as [|x r] eqn:Q; auto. exfalso. destruct (G2 ([p'; q'; f], [p; q; i])) as (a & b & i' & a' & b' & f' & sI & sF & K & Pab & _); [rewrite Q; discriminate|].
    injection K as <- <- <- <- <- <-. contradiction. }
  split; [now apply appl_full|]. split.
  - intros a b i p' q' f sI sF HP RF HI HFF Hi Hf. rewrite appl_look. destruct HP as [HP|[-> ->]].
    + destruct (HF ([p'; q'; f], [a; b; i])) as [_ F2]. destruct (filter _ (concat ls)) as [|x r].
      * rewrite app_nil_r. apply (G1 a b i p' q' f sI sF); auto.
      * exfalso. destruct F2 as (a' & b' & f' & i' & sI' & sF' & c & K & _); [discriminate|]. injection K as _ _ _ -> -> _. contradiction.
    + rewrite Z0. cbn [app]. destruct (HF ([p'; q'; f], [p; q; i])) as [F1 _]. specialize (F1 p' q' f i sI sF eq_refl HI HFF Hi Hf). cbn [fst snd] in F1.
      rewrite (filter_channels p q p' q' f i B) in F1; [exact F1|]. intros c _ Q. unfold B. apply existsb_z2. rewrite Q. now apply HR.
  - intros k. rewrite appl_look. intros NE. destruct (filter (fun s => key_eqb (skey s) k) (concat ls)) as [|x r] eqn:Q.
    + rewrite app_nil_r in NE. destruct (G2 k NE) as (a & b & i & a' & b' & f & sI & sF & H). exists a, b, i, a', b', f, sI, sF. tauto.
    + destruct (HF k) as [F1 F2]. rewrite Q in F1, F2. destruct F2 as (p' & q' & f & i & sI & sF & c & -> & A1 & A2 & A3 & A4 & A5 & A6); [discriminate|].
      assert (RF : reach p' q'). { apply filter_In in A5. destruct A5 as [_ A5]. unfold B in A5. apply existsb_z2 in A5. rewrite A6 in A5. now apply HR. }
      exists p, q, i, p', q', f, sI, sF. split; [reflexivity|]. split; [now right|]. split; [exact RF|]. split; [exact A1|]. split; [exact A2|]. split; [exact A3|]. split; [exact A4|]. specialize (F1 p' q' f i sI sF eq_refl A1 A2 A3 A4). cbn [fst snd] in F1.
      rewrite (filter_channels p q p' q' f i B) in F1; [intros Z; rewrite Z in F1; inversion F1|]. intros c' _ Q'. unfold B. apply existsb_z2. rewrite Q'. now apply HR.
Qed.

Lemma reached_reach ngs : (forall s, In s ngs <-> exists p q, s = zz p q /\ is_ground es egs p q) ->
  let reached := filter (in_range (Z.of_nat n)) (flat_map (fun ns => map (zadd2 ns) dS4) ngs) in
  (forall p q, In (zz p q) reached <-> reach p q) /\ (forall s, In s reached -> exists p q, s = zz p q).
Proof.
  intros HG reached.
  assert (FL : forall g s, In s (map (zadd2 g) dS4) <-> spin_flip g s).
  { intros g s. unfold dS4, spin_flip, zadd2. cbn [map In fst snd]. split.
    - intros [<-|[<-|[<-|[<-|[]]]]]; [exists 0%Z|exists (-1)%Z|exists 1%Z|exists 0%Z]; (split; [auto|f_equal; lia]).
    - intros (k & [-> |[-> | ->]] & ->); [right; left|left|right; right; left]; f_equal; lia. }
  assert (M : forall s, In s reached <-> in_range (Z.of_nat n) s = true /\ exists p q, is_ground es egs p q /\ spin_flip (zz p q) s).
  { intros s. unfold reached. rewrite filter_In, in_flat_map. split.
    - intros [(g & Hg & H) R]. split; auto. apply HG in Hg. destruct Hg as (p & q & -> & G). exists p, q. split; auto. now apply FL.
    - intros [R (p & q & G & H)]. split; auto. exists (zz p q). split; [apply HG; exists p, q; auto|now apply FL]. }
  assert (RG : forall s, in_range (Z.of_nat n) s = true <-> (0 <= fst s <= Z.of_nat n /\ 0 <= snd s <= Z.of_nat n)%Z).
  { intros s. unfold in_range. rewrite !andb_true_iff, !Z.leb_le. tauto. }
  split.
  - intros p q. rewrite M, RG. unfold co_reach. unfold zz at 1 2 3 4. cbn [fst snd]. split.
    + intros (R & a & b & G & H). split; [lia|]. split; [lia|]. exists a, b. split; auto.
    + intros (R1 & R2 & a & b & G & H). split; [lia|]. exists a, b. split; auto.
  - intros s Hs. apply M in Hs. destruct Hs as [R _]. apply RG in R. exists (Z.to_nat (fst s)), (Z.to_nat (snd s)). destruct s as [a b]. unfold zz. cbn [fst snd] in *. f_equal; lia.
Qed.

Theorem co_build_ok : exists d, build_transition_elements n egs es None = Ok d /\ good reach d.
Proof.
  unfold build_transition_elements. destruct (ground_ok egs es) as (ngs & -> & HG).
  { intros key s H. destruct (SEC _ _ H) as (A & p & q & E & _). split; auto. eauto. }
  cbn [bind]. destruct (reached_reach ngs HG) as [HR HZ]. set (reached := filter (in_range (Z.of_nat n)) (flat_map (fun ns => map (zadd2 ns) dS4) ngs)) in *.
  match goal with |- context[foldM ?f ?l []] => set (body := f); set (L := l) end.
  assert (HL : forall s, In s L <-> exists p q, s = [p; q] /\ reach p q).
  { intros s. unfold L. rewrite usort_In, in_map_iff. split.
    - intros (x & <- & Hx). destruct (HZ x Hx) as (p & q & ->). exists p, q. split; [unfold zz; cbn [fst snd]; now rewrite !Nat2Z.id|now apply HR].
    - intros (p & q & -> & Rq). exists (zz p q). split; [unfold zz; cbn [fst snd]; now rewrite !Nat2Z.id|now apply HR]. }
  assert (G : forall l, (forall s, In s l -> In s L) -> NoDup l -> forall P d, good P d -> (forall p q, P p q -> ~ In [p; q] l) -> exists d', foldM body l d = Ok d' /\ good (fun p q => P p q \/ In [p; q] l) d').
  { induction l as [|s l IH]; intros Hl NDl P d HI NP; cbn [foldM].
    - exists d. split; [reflexivity|]. destruct HI as (A & B & C). split; [exact A|]. split.
      + intros p q i p' q' f sI sF [HP|[]]. now apply B.
      + intros k NE. destruct (C k NE) as (a & b & i & a' & b' & f & sI & sF & H). exists a, b, i, a', b', f, sI, sF. tauto.
    - destruct (proj1 (HL s) (Hl s (or_introl eq_refl))) as (p & q & -> & Rpq). inversion NDl as [|? ? NI NDl']; subst.
      destruct (good_step P d p q reached HI) as (d1 & E1 & I1); auto. { intros HP. apply (NP _ _ HP). now left. }
      unfold body at 1. cbv beta zeta. rewrite E1. cbn [bind].
      destruct (IH ltac:(intros; apply Hl; now right) NDl' _ d1 I1) as (d2 & -> & (A & B & C)).
      { intros a b [HP|[-> ->]]; auto. intros Q. apply (NP _ _ HP). now right. }
      exists d2. split; [reflexivity|]. split; [exact A|]. split.
      + intros a b i p' q' f sI sF HP. apply B. destruct HP as [HP|[E|HP]]; [tauto|injection E as <- <-; tauto|tauto].
      + intros k NE. destruct (C k NE) as (a & b & i & a' & b' & f & sI & sF & K & HP & H). exists a, b, i, a', b', f, sI, sF. split; auto. split; [|tauto]. cbn [In].
        destruct HP as [[HP|[-> ->]]|HP]; auto. }
  destruct (G L (fun s H => H) (usort_NoDup _) (fun _ _ => False) []) as (d & E & (A & B & C)); [|tauto|].
  { split; [split; [constructor|intros ? ? []]|]. split; [intros; contradiction|]. intros k H. cbn in H. congruence. }
  rewrite E. cbn [bind]. exists d. split; [reflexivity|]. split; [exact A|]. split.
  - intros p q i p' q' f sI sF HP. apply B. right. apply HL. exists p, q. auto.
  - intros k NE. destruct (C k NE) as (a & b & i & a' & b' & f & sI & sF & K & HP & H). exists a, b, i, a', b', f, sI, sF. split; auto. split; [|tauto].
    destruct HP as [[]|HP]. apply HL in HP. destruct HP as (x & y & Q & HP). now injection Q as <- <-.
Qed.

(** The dictionary without cutoff. *)
Theorem co_build_spec : exists d, build_transition_elements n egs es None = Ok d /\ NoDup (map fst d) /\
  (forall p q i p' q' f, (exists l, In (([p'; q'; f], [p; q; i]), l) d) <->
     reach p q /\ reach p' q' /\ spin_flip (zz p q) (zz p' q') /\
     exists sI sF, In ([p; q], sI) es /\ In ([p'; q'], sF) es /\ (i < nvals sI)%nat /\ (f < nvals sF)%nat) /\
  (forall F I l, In ((F, I), l) d -> (exists p q i p' q' f, I = [p; q; i] /\ F = [p'; q'; f]) /\ Forall2 (exact_sigma n es F I) (channels F I) l) /\
  (forall F I, In (F, I) (map fst d) -> In (I, F) (map fst d)).
Proof.
  destruct co_build_ok as (d & E & FU & B & C). exists d. split; [exact E|]. split; [apply FU|].
  assert (CH : forall p q p' q' f i, channels [p'; q'; f] [p; q; i] <> [] <-> spin_flip (zz p q) (zz p' q')).
  { intros p q p' q' f i. unfold channels, spin_flip, zz. cbn [fst snd].
    destruct (Nat.eqb_spec p' p), (Nat.eqb_spec q' q), (Nat.eqb_spec (S p') p), (Nat.eqb_spec q' (S q)), (Nat.eqb_spec p' (S p)), (Nat.eqb_spec (S q') q); try lia; cbn [andb];
      (split; [intros _|intros _; discriminate] || (split; [congruence|intros (k & K & Q); injection Q; lia]));
      (exists 0%Z; split; [auto|f_equal; lia]) || (exists 1%Z; split; [auto|f_equal; lia]) || (exists (-1)%Z; split; [auto|f_equal; lia]). }
  assert (KEY : forall p q i p' q' f, (exists l, In (([p'; q'; f], [p; q; i]), l) d) <->
     reach p q /\ reach p' q' /\ spin_flip (zz p q) (zz p' q') /\
     exists sI sF, In ([p; q], sI) es /\ In ([p'; q'], sF) es /\ (i < nvals sI)%nat /\ (f < nvals sF)%nat).
  { intros p q i p' q' f. split.
    - intros (l & H). apply dlook_In in H; auto. destruct H as [NE Q]. destruct (C ([p'; q'; f], [p; q; i])) as (a & b & i' & a' & b' & f' & sI & sF & K & A1 & A2 & A3 & A4 & A5 & A6 & A7); [now rewrite Q|].
      injection K as <- <- <- <- <- <-. split; [exact A1|]. split; [exact A2|]. split; [now apply CH in A7|]. exists sI, sF. auto.
    - intros (A1 & A2 & A3 & sI & sF & A4 & A5 & A6 & A7). exists (dlook d ([p'; q'; f], [p; q; i])). apply dlook_In; auto. split; auto.
      specialize (B p q i p' q' f sI sF A1 A2 A4 A5 A6 A7). intros Q. rewrite Q in B. apply (CH p q p' q' f i) in A3. revert A3. remember (channels [p'; q'; f] [p; q; i]) as cs. intros A3. inversion B. auto. }
  split; [exact KEY|].
  assert (SHAPE : forall F I l, In ((F, I), l) d -> exists p q i p' q' f, I = [p; q; i] /\ F = [p'; q'; f]).
  { intros F I l H. apply dlook_In in H; auto. destruct H as [NE Q]. destruct (C (F, I)) as (a & b & i' & a' & b' & f' & sI & sF & K & _); [now rewrite Q|]. injection K as -> ->. exists a, b, i', a', b', f'. auto. }
  split.
  - intros F I l H. split; [now apply (SHAPE F I l)|]. destruct (SHAPE F I l H) as (p & q & i & p' & q' & f & -> & ->).
    destruct (proj1 (KEY p q i p' q' f) (ex_intro _ l H)) as (A1 & A2 & A3 & sI & sF & A4 & A5 & A6 & A7). apply dlook_In in H; auto. destruct H as [_ <-]. apply (B p q i p' q' f sI sF); auto.
  - intros F I H. apply in_map_iff in H. destruct H as ([k l] & Q & H). cbn [fst] in Q. subst k. destruct (SHAPE F I l H) as (p & q & i & p' & q' & f & -> & ->).
    destruct (proj1 (KEY p q i p' q' f) (ex_intro _ l H)) as (A1 & A2 & (k & K & Z) & sI & sF & A4 & A5 & A6 & A7).
    destruct (proj2 (KEY p' q' f p q i)) as (l' & H'); [|apply in_map_iff; exists (([p; q; i], [p'; q'; f]), l'); auto].
    split; [exact A2|]. split; [exact A1|]. split; [|exists sF, sI; auto]. exists (- k)%Z. split; [lia|]. unfold zz in *. cbn [fst snd] in *. injection Z as Z1 Z2. f_equal; lia.
Qed.
End Build.
