(** The driver of the first Lanczos pass terminates with consistent output. *)
From Coq Require Import List Arith Bool Lia.
From Verif Require Import Base LanczosModel LanczosSpec.
Import ListNotations.

Lemma npset_ok {A} (x : list A) i v : i < length x -> exists y, npset x i v = Ok y /\
  length y = length x /\ firstn i y = firstn i x /\ nth_error y i = Some v.
Proof.
  unfold npset. revert i. induction x as [|h t IH]; intros i Hi; simpl in *; [lia|].
  destruct i as [|i]; simpl.
  - exists (v :: t). auto.
  - destruct (IH i) as (y & E & Hl & Hf & Hn); [lia|].
    destruct (upd t i v); [|discriminate]. injection E as ->. exists (h :: y).
    simpl. rewrite Hl, Hf, Hn. auto.
Qed.
Lemma npset_none {A} (x : list A) i v : length x <= i -> npset x i v = Err IndexError.
Proof.
  unfold npset. revert i. induction x as [|h t IH]; intros i Hi; simpl in *; [destruct i; reflexivity|].
  destruct i as [|i]; [lia|]. simpl. specialize (IH i). destruct (upd t i v); [|reflexivity].
  specialize (IH ltac:(lia)). discriminate.
Qed.
Lemma firstn_snoc {A} (x : list A) i v : nth_error x i = Some v -> firstn (S i) x = firstn i x ++ [v].
Proof.
  revert i. induction x as [|h t IH]; intros [|i] H; try discriminate.
  - injection H as ->. reflexivity.
  - change (h :: firstn (S i) t = h :: (firstn i t ++ [v])). f_equal. apply IH. exact H.
Qed.

Section Driver.
Variables V F E : Type.
Variable step : V -> V -> res (F * F * V * V).
Variable tiny : F -> bool.
Variable egs : list F -> list F -> res E.
Variable close : option E -> E -> bool.
Variables zero phi0 : V.
Variable maxn : nat.

Notation lst := (lst V F).
(** State between two iterations. *)
Definition going (s : lst) (tr : list (F * F * V)) : Prop :=
  run step phi0 zero tr (l_v _ _ s) (l_l _ _ s) /\ length tr = l_n _ _ s /\ l_steps _ _ s = l_n _ _ s /\
  length (l_a _ _ s) = maxn /\ length (l_b _ _ s) = maxn /\ l_n _ _ s < maxn /\
  ret_a _ _ s = map tr_a tr /\ ret_b _ _ s = map tr_b tr /\ forallb (fun t => negb (tiny (tr_b t))) tr = true.
(** State after the last, unrecorded step. *)
Definition stopped (s : lst) (tr : list (F * F * V)) : Prop :=
  exists tr' t, tr = tr' ++ [t] /\
  run step phi0 zero tr (l_v _ _ s) (l_l _ _ s) /\ length tr' = l_n _ _ s /\ l_steps _ _ s = S (l_n _ _ s) /\
  length (l_a _ _ s) = maxn /\ length (l_b _ _ s) = maxn /\ 0 < l_n _ _ s < maxn /\
  ret_a _ _ s = map tr_a tr' /\ ret_b _ _ s = map tr_b tr' /\ forallb (fun t => negb (tiny (tr_b t))) tr' = true /\
  (tiny (tr_b t) = true \/ l_n _ _ s = maxn - 1).

Lemma inner_spec k : forall s tr s' c, going s tr -> sl_inner V F step tiny maxn k s = Ok (s', c) ->
  exists tr', (c = false /\ going s' tr' /\ l_n _ _ s' = l_n _ _ s + k) \/ (c = true /\ stopped s' tr').
Proof.
  induction k as [|k IH]; intros s tr s' c G; simpl.
  - intros [= <- <-]. exists tr. left. auto.
  - destruct G as (Hr & Hl & Hs & Ha & Hb & Hn & Ra & Rb & Ht).
    destruct (step (l_v _ _ s) (l_l _ _ s)) as [[[[an bn] l2] v2]|] eqn:Es; [|discriminate]. cbn [bind].
    destruct (npset_ok (l_a _ _ s) (l_n _ _ s) an) as (a & Ea & La & Fa & Na); [lia|].
    destruct (npset_ok (l_b _ _ s) (l_n _ _ s) bn) as (b & Eb & Lb & Fb & Nb); [lia|].
    rewrite Ea, Eb. cbn [bind].
    destruct (tiny bn || (maxn - 1 <=? l_n _ _ s)) eqn:Et.
    + destruct (l_n _ _ s =? 0) eqn:E0; [discriminate|]. intros [= <- <-].
      exists (tr ++ [(an, bn, l2)]). right. split; [reflexivity|].
      exists tr, (an, bn, l2). cbn [l_n l_a l_b l_l l_v l_steps]. unfold ret_a, ret_b in *. cbn [l_n l_a l_b].
      rewrite Fa, Fb. apply Nat.eqb_neq in E0.
      split; [reflexivity|]. split; [econstructor; eauto|].
      split; [exact Hl|]. split; [congruence|]. split; [congruence|]. split; [congruence|].
      split; [lia|]. split; [exact Ra|]. split; [exact Rb|]. split; [exact Ht|].
      apply orb_prop in Et. unfold tr_b; simpl. destruct Et as [?|Et]; [auto|right].
      apply Nat.leb_le in Et. lia.
    + intros H. apply orb_false_elim in Et. destruct Et as [Et1 Et2]. apply Nat.leb_gt in Et2.
      destruct (fun G => IH _ (tr ++ [(an, bn, l2)]) _ _ G H) as (tr' & D).
      { unfold going. cbn [l_n l_a l_b l_l l_v l_steps]. unfold ret_a, ret_b in *. cbn [l_n l_a l_b].
        rewrite (firstn_snoc _ _ _ Na), (firstn_snoc _ _ _ Nb), Fa, Fb, Ra, Rb, !map_app, forallb_app, Ht, app_length.
        cbn [map forallb length]. change (tr_b (an, bn, l2)) with bn. change (tr_a (an, bn, l2)) with an. rewrite Et1. cbn [negb andb].
        split; [econstructor; eauto|]. repeat split; try lia. }
      exists tr'. destruct D as [(? & ? & Dn)|?]; [left|right; auto]. cbn [l_n] in Dn. split; [auto|]. split; [auto|]. lia.
Qed.

(** With steps that do not raise, the inner loop does not raise after the first
    step. *)
Lemma inner_total k : (forall tr v l, run step phi0 zero tr v l -> exists r, step v l = Ok r) ->
  forall s tr, going s tr -> 0 < l_n _ _ s -> exists r, sl_inner V F step tiny maxn k s = Ok r.
Proof.
  intros T. induction k as [|k IH]; intros s tr G P; simpl; [eauto|].
  destruct G as (Hr & Hl & Hs & Ha & Hb & Hn & Ra & Rb & Ht).
  destruct (T tr (l_v _ _ s) (l_l _ _ s) Hr) as ([[[an bn] l2] v2] & Es). rewrite Es. cbn [bind].
  destruct (npset_ok (l_a _ _ s) (l_n _ _ s) an) as (a & Ea & La & Fa & Na); [lia|].
  destruct (npset_ok (l_b _ _ s) (l_n _ _ s) bn) as (b & Eb & Lb & Fb & Nb); [lia|].
  rewrite Ea, Eb. cbn [bind].
  destruct (tiny bn || (maxn - 1 <=? l_n _ _ s)) eqn:Et.
  - destruct (Nat.eqb_spec (l_n _ _ s) 0); [lia|]. eauto.
  - apply orb_false_elim in Et. destruct Et as [Et1 Et2]. apply Nat.leb_gt in Et2.
    apply IH with (tr := tr ++ [(an, bn, l2)]); [|cbn [l_n]; lia].
    unfold going. cbn [l_n l_a l_b l_l l_v l_steps]. unfold ret_a, ret_b in *. cbn [l_n l_a l_b].
    rewrite (firstn_snoc _ _ _ Na), (firstn_snoc _ _ _ Nb), Fa, Fb, Ra, Rb, !map_app, forallb_app, Ht, app_length.
    cbn [map forallb length]. change (tr_b (an, bn, l2)) with bn. change (tr_a (an, bn, l2)) with an. rewrite Et1. cbn [negb andb].
    split; [econstructor; eauto|]. repeat split; try lia.
Qed.

Definition good (s : lst) : Prop := exists tr,
  (going s tr /\ 0 < l_n _ _ s) \/ stopped s tr.

Lemma outer_spec ND : 0 < ND -> forall fuel prev s tr s', going s tr ->
  sl_outer V F E step tiny egs close maxn ND fuel prev s = Ok s' -> good s'.
Proof.
  intros HN. induction fuel as [|fuel IH]; intros prev s tr s' G; simpl; [discriminate|].
  destruct (sl_inner _ _ _ _ _ _ _) as [[s1 c]|] eqn:Ei; [|discriminate]. cbn [bind].
  destruct (inner_spec _ _ _ _ _ G Ei) as (tr1 & D).
  assert (G1 : good s1).
  { destruct D as [(_ & D & Dn)|(_ & D)]; [exists tr1; left; split; [auto|lia]|exists tr1; auto]. }
  destruct (l_n _ _ s1 =? 1); [intros [= <-]; auto|].
  destruct (egs _ _) as [e|]; [|discriminate]. cbn [bind].
  destruct (c || close prev e) eqn:Ec; [intros [= <-]; auto|].
  apply orb_false_elim in Ec. destruct Ec as [-> _].
  destruct D as [(_ & D & _)|(D & _)]; [|discriminate]. intros H. eapply IH; eauto.
Qed.

Lemma outer_total ND : 0 < ND -> (forall tr v l, run step phi0 zero tr v l -> exists r, step v l = Ok r) -> (forall a b, exists e, egs a b = Ok e) ->
  forall fuel prev s tr, going s tr -> 0 < l_n _ _ s -> maxn < fuel + l_n _ _ s ->
  exists s', sl_outer V F E step tiny egs close maxn ND fuel prev s = Ok s'.
Proof.
  intros HN T Te. induction fuel as [|fuel IH]; intros prev s tr G P Hf; cbn [sl_outer].
  - destruct G as (_ & _ & _ & _ & _ & Hn & _). lia.
  - destruct (inner_total ND T s tr G P) as ((s1 & c) & Ei). rewrite Ei. cbn [bind].
    destruct (inner_spec _ _ _ _ _ G Ei) as (tr1 & D).
    destruct (l_n _ _ s1 =? 1); [eauto|].
    destruct (Te (firstn (l_n _ _ s1) (l_a _ _ s1)) (skipn 1 (firstn (l_n _ _ s1) (l_b _ _ s1)))) as (e & Ee).
    rewrite Ee. cbn [bind]. destruct (c || close prev e) eqn:Ec; [eauto|].
    apply orb_false_elim in Ec. destruct Ec as [-> _].
    destruct D as [(_ & D & Dn)|(D & _)]; [|discriminate]. apply IH with (tr := tr1); auto; lia.
Qed.

Variables ga gb : nat -> F.
Notation build ND := (build_sl_tridiag V F E step tiny egs close zero phi0 ga gb maxn ND).
Lemma init_going : 0 < maxn -> going (mklst V F 0 (map ga (seq 0 maxn)) (map gb (seq 0 maxn)) zero phi0 0) [].
Proof.
  intros H. unfold going, ret_a, ret_b. cbn [l_n l_a l_b l_l l_v l_steps]. rewrite !map_length, !seq_length.
  repeat split; auto. constructor.
Qed.

Theorem build_spec ND s : 0 < ND -> build ND = Ok s ->
  exists tr last, run step phi0 zero (tr ++ last) (l_v _ _ s) (l_l _ _ s) /\
    l_steps _ _ s = length (tr ++ last) /\ length last <= 1 /\ 1 <= length tr /\ length tr < maxn /\
    ret_a _ _ s = map tr_a tr /\ ret_b _ _ s = map tr_b tr /\
    (forall t, In t tr -> tiny (tr_b t) = false) /\
    (forall t, In t last -> tiny (tr_b t) = true \/ length tr = maxn - 1).
Proof.
  intros HN H. destruct (Nat.eq_dec maxn 0) as [Z|Z].
  - exfalso. unfold build_sl_tridiag in H. revert H. rewrite Z. simpl. destruct ND as [|ND]; [lia|]. simpl.
    destruct (step phi0 zero) as [[[[? ?] ?] ?]|]; simpl; discriminate.
  - assert (G0 := init_going ltac:(lia)).
    destruct (outer_spec ND HN _ _ _ _ _ G0 H) as (tr & [[G P]|G]).
    + destruct G as (Hr & Hl & Hs & Ha & Hb & Hn & Ra & Rb & Ht).
      exists tr, []. rewrite app_nil_r. repeat split; auto; simpl; try lia.
      intros t It. rewrite forallb_forall in Ht. apply Ht in It. destruct (tiny _); [discriminate|reflexivity].
    + destruct G as (tr' & t & -> & Hr & Hl & Hs & Ha & Hb & Hn & Ra & Rb & Ht & Hd).
      exists tr', [t]. rewrite app_length. simpl. repeat split; auto; try lia.
      * intros t' It. rewrite forallb_forall in Ht. apply Ht in It. destruct (tiny (tr_b t')); [discriminate|reflexivity].
      * intros t' [->|[]]. rewrite Hl. auto.
Qed.

Theorem build_total ND : 0 < ND -> (forall tr v l, run step phi0 zero tr v l -> exists r, step v l = Ok r) -> (forall a b, exists e, egs a b = Ok e) ->
  forall a b l v, step phi0 zero = Ok (a, b, l, v) ->
  (maxn = 0 -> build ND = Err IndexError) /\
  (0 < maxn -> tiny b = true \/ maxn = 1 -> build ND = Err ZeroNormInitialVector) /\
  (1 < maxn -> tiny b = false -> exists s, build ND = Ok s).
Proof.
  intros HN T Te a b l v E0. destruct ND as [|ND]; [lia|].
  assert (forall s, l_v _ _ s = phi0 -> l_l _ _ s = zero -> step (l_v V F s) (l_l _ _ s) = Ok (a, b, l, v)) as E1.
  { intros s -> ->. exact E0. }
  unfold build_sl_tridiag. split; [|split].
  - intros ->. simpl. rewrite E0. simpl. reflexivity.
  - intros P H. set (s0 := mklst _ _ _ _ _ _ _ _). cbn [sl_outer sl_inner]. rewrite E1 by reflexivity. cbn [bind].
    destruct (npset_ok (l_a _ _ s0) (l_n _ _ s0) a) as (a' & Ea & _); [unfold s0; simpl; rewrite map_length, seq_length; lia|].
    destruct (npset_ok (l_b _ _ s0) (l_n _ _ s0) b) as (b' & Eb & _); [unfold s0; simpl; rewrite map_length, seq_length; lia|].
    simpl l_n in *. simpl l_a in *. simpl l_b in *. rewrite Ea, Eb. cbn [bind].
    replace (tiny b || (maxn - 1 <=? 0)) with true; [reflexivity|].
    destruct H as [->| ->]; [reflexivity|]. rewrite orb_true_r. reflexivity.
  - intros P Hb.
    pose proof (init_going ltac:(lia)) as G0.
    assert (exists r, sl_inner V F step tiny maxn (S ND) (mklst V F 0 (map ga (seq 0 maxn)) (map gb (seq 0 maxn)) zero phi0 0) = Ok r) as ((s1 & c) & Ei).
    { destruct (npset_ok (map ga (seq 0 maxn)) 0 a) as (a' & Ea & La & Fa & Na); [rewrite map_length, seq_length; lia|].
      destruct (npset_ok (map gb (seq 0 maxn)) 0 b) as (b' & Eb & Lb & Fb & Nb); [rewrite map_length, seq_length; lia|].
      simpl. rewrite E0. cbn [bind]. rewrite Ea, Eb. cbn [bind]. rewrite Hb.
      destruct (Nat.leb_spec (maxn - 1) 0); [lia|]. simpl.
      apply inner_total with (tr := [(a, b, l)]); [auto| |simpl; lia].
      unfold going. cbn [l_n l_a l_b l_l l_v l_steps]. unfold ret_a, ret_b. cbn [l_n l_a l_b].
      rewrite (firstn_snoc _ _ _ Na), (firstn_snoc _ _ _ Nb), La, Lb, !map_length, !seq_length. simpl.
      unfold tr_a, tr_b. simpl. rewrite Hb.
      split; [exact (run_snoc _ _ _ _ _ _ _ _ _ _ (run_nil _ _ _) E0)|]. repeat split; auto. }
    destruct (inner_spec (S ND) _ _ _ _ G0 Ei) as (tr1 & D).
    remember (S ND) as N1. cbn [sl_outer]. rewrite Ei. cbn [bind]. subst N1.
    destruct (l_n _ _ s1 =? 1); [eauto|].
    destruct (Te (firstn (l_n _ _ s1) (l_a _ _ s1)) (skipn 1 (firstn (l_n _ _ s1) (l_b _ _ s1)))) as (e & Ee).
    rewrite Ee. cbn [bind]. destruct (c || close None e) eqn:Ec; [eauto|].
    apply orb_false_elim in Ec. destruct Ec as [-> _].
    destruct D as [(_ & D & Dn)|(D & _)]; [|discriminate].
    apply (outer_total (S ND)) with (tr := tr1); auto; simpl l_n in Dn; lia.
Qed.
End Driver.
