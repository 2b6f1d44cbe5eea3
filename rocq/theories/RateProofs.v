(** Rate matrices: closed form, conservation and signs. *)
From Coq Require Import Reals List Arith ZArith Bool Lia Lra Psatz Sorted.
From Verif Require Import Base RBase RLin CBase RateModel RateSpec.
Import ListNotations.
Local Open Scope R_scope.

(** ** Labels *)
Lemma lex_spec : forall a b, match lex a b with Lt => before a b | Eq => a = b | Gt => before b a end.
Proof.
  induction a as [|x a IH]; intros [|y b]; simpl; auto; try constructor.
  destruct (Nat.compare_spec x y) as [->|H|H]; try (now constructor).
  specialize (IH b). destruct (lex a b); [congruence|now constructor|now constructor].
Qed.
Lemma before_trans a b c : before a b -> before b c -> before a c.
Proof.
  intros H. revert c. induction H as [y b|x y a b H|x a b H IH]; intros c H'; inversion H'; subst; try (constructor; auto; fail).
  constructor; lia.
Qed.
Lemma before_irrefl a : ~ before a a.
Proof. induction a; intros H; inversion H; subst; [lia|auto]. Qed.

Lemma insert_u_In x y l : In x (insert_u y l) <-> x = y \/ In x l.
Proof.
  induction l as [|z l IH]; simpl; [intuition|]. pose proof (lex_spec y z) as L. destruct (lex y z); simpl.
  - subst. intuition.
  - intuition.
  - rewrite IH. intuition.
Qed.
Lemma insert_u_sorted y l : StronglySorted before l -> StronglySorted before (insert_u y l).
Proof.
  induction l as [|z l IH]; intros S; simpl; [constructor; auto|]. inversion S as [|? ? S' F]; subst. pose proof (lex_spec y z) as L. destruct (lex y z).
  - exact S.
  - constructor; [exact S|]. constructor; [exact L|]. rewrite Forall_forall in *. intros w Hw. eapply before_trans; [exact L|auto].
  - constructor; [auto|]. rewrite Forall_forall in *. intros w Hw. apply insert_u_In in Hw. destruct Hw as [->|Hw]; auto.
Qed.
Lemma usort_In x l : In x (usort l) <-> In x l.
Proof. induction l as [|y l IH]; simpl; [tauto|]. rewrite insert_u_In, IH. intuition. Qed.
Lemma usort_sorted l : StronglySorted before (usort l).
Proof. induction l; simpl; [constructor|now apply insert_u_sorted]. Qed.
Lemma sorted_NoDup l : StronglySorted before l -> NoDup l.
Proof.
  induction 1 as [|x l S IH F]; constructor; auto. intros H. rewrite Forall_forall in F. exact (before_irrefl _ (F _ H)).
Qed.
Lemma usort_NoDup l : NoDup (usort l).
Proof. apply sorted_NoDup, usort_sorted. Qed.

Lemma label_eqb_spec a b : reflect (a = b) (label_eqb a b).
Proof. unfold label_eqb. destruct (list_eq_dec Nat.eq_dec a b); constructor; auto. Qed.
Lemma key_eqb_spec a b : reflect (a = b) (key_eqb a b).
Proof.
  unfold key_eqb. destruct a as [a a'], b as [b b']; simpl. destruct (label_eqb_spec a b), (label_eqb_spec a' b'); constructor; congruence.
Qed.

Lemma parity_ok n : parity_assert n = Ok tt.
Proof.
  unfold parity_assert. assert (H : (Z.of_nat n mod 2 = 0 \/ Z.of_nat n mod 2 = 1)%Z) by (pose proof (Z.mod_pos_bound (Z.of_nat n) 2); lia).
  destruct H as [-> | ->]; reflexivity.
Qed.

Lemma ndindex_sum a b (g : nat * nat -> R) : bsum (K := RRing) g (ndindex a b) = rsum a (fun i => rsum b (fun f => g (i, f))).
Proof.
  unfold ndindex. rewrite (bsum_flat_map RRing). unfold rsum, nsum. apply (bsum_ext RRing). intros i _. now rewrite (bsum_map RRing).
Qed.

(** ** The loops *)
Section Rate.
Variables (V L : Type).
Variable call : V -> L -> res R.
Notation delta b := (if b then 1 else 0).

Definition look (d : list (key2 * V)) (lead : L) (F I : label) : R :=
  match (do gf <- dget d (F, I); call gf lead) with Ok g => g | Err _ => 0 end.

Lemma look_rate d lead F I : NoDup (map fst d) -> look d lead F I = rate_of call d lead F I.
Proof.
  unfold look, rate_of, dget. induction d as [|[[F' I'] v] d IH]; intros ND; [reflexivity|].
  cbn [find fst snd bsum]. inversion ND as [|? ? NI ND']; subst.
  destruct (key_eqb_spec (F', I') (F, I)) as [E|NE].
  - injection E as -> ->. destruct (list_eq_dec Nat.eq_dec F F); [|congruence]. destruct (list_eq_dec Nat.eq_dec I I); [|congruence].
    cbn [bind snd]. rewrite (bsum_0 RRing).
    + destruct (call v lead); simpl; match goal with |- ?x = ?y => change (@eq R x y) end; lra.
    + intros [[F2 I2] w] Hin. cbn [fst snd]. destruct (list_eq_dec Nat.eq_dec F2 F) as [->|]; [|reflexivity]. destruct (list_eq_dec Nat.eq_dec I2 I) as [->|]; [|reflexivity].
      exfalso. apply NI. exact (in_map fst _ _ Hin).
  - rewrite IH by auto. destruct (list_eq_dec Nat.eq_dec F' F) as [->|]; [destruct (list_eq_dec Nat.eq_dec I' I) as [->|]; [congruence|]|];
    simpl; match goal with |- ?x = ?y => change (@eq R x y) end; lra.
Qed.

Definition lookS (d : list (key2 * V)) (signed : V -> res R) (F I : label) : R :=
  match (do gf <- dget d (F, I); signed gf) with Ok g => g | Err _ => 0 end.

(** Contribution of one iteration to entry (a,b). *)
Definition contrib (d : list (key2 * V)) ids lead (p : nat * nat) (a b : nat) : R :=
  let '(i, f) := p in
  if (i =? f)%nat then 0 else (if (a =? i)%nat && (b =? i)%nat then - look d lead (nth f ids []) (nth i ids []) else 0) +
                               (if (a =? f)%nat && (b =? i)%nat then look d lead (nth f ids []) (nth i ids []) else 0).

Lemma rate_step_contrib d ids lead W p a b : rate_step V L call d ids lead W p a b = W a b + contrib d ids lead p a b.
Proof.
  unfold rate_step, contrib, look, bind, add_at. destruct p as [i f]. destruct (i =? f)%nat; [lra|].
  destruct (dget d (nth f ids [], nth i ids [])) as [gf|]; [destruct (call gf lead) as [g|e]|];
  destruct ((a =? i)%nat && (b =? i)%nat), ((a =? f)%nat && (b =? i)%nat); lra.
Qed.
Lemma fold_contrib d ids lead l a b : forall W, fold_left (rate_step V L call d ids lead) l W a b = W a b + bsum (K := RRing) (fun p => contrib d ids lead p a b) l.
Proof.
  induction l as [|p l IH]; intros W; simpl; [match goal with |- ?x = ?y => change (@eq R x y) end; lra|]. rewrite IH, rate_step_contrib.
  match goal with |- ?x = ?y => change (@eq R x y) end. lra.
Qed.
Lemma fold_leads d ids sz a b leads : forall W,
  fold_left (fun W lead => fold_left (rate_step V L call d ids lead) (ndindex sz sz) W) leads W a b =
  W a b + lsum (fun lead => bsum (K := RRing) (fun p => contrib d ids lead p a b) (ndindex sz sz)) leads.
Proof.
  unfold lsum. induction leads as [|x l IH]; intros W; simpl; [match goal with |- ?x = ?y => change (@eq R x y) end; lra|]. rewrite IH, fold_contrib.
  match goal with |- ?x = ?y => change (@eq R x y) end. lra.
Qed.

Lemma contrib_sum d ids lead sz a b : (a < sz)%nat -> (b < sz)%nat ->
  bsum (K := RRing) (fun p => contrib d ids lead p a b) (ndindex sz sz) =
  if (a =? b)%nat then - rsum sz (fun f => if (f =? b)%nat then 0 else look d lead (nth f ids []) (nth b ids [])) else look d lead (nth a ids []) (nth b ids []).
Proof.
  intros Ha Hb. rewrite ndindex_sum. rewrite (rsum_single sz _ b Hb).
  - unfold contrib. rewrite Nat.eqb_refl. destruct (Nat.eqb_spec a b) as [->|NE].
    + replace (- rsum sz (fun f => if (f =? b)%nat then 0 else look d lead (nth f ids []) (nth b ids [])))
        with (rsum sz (fun f => (-1) * (if (f =? b)%nat then 0 else look d lead (nth f ids []) (nth b ids [])))) by (rewrite rsum_scal_l; lra).
      apply rsum_ext. intros f Hf. rewrite (Nat.eqb_sym b f). destruct (Nat.eqb_spec f b) as [->|]; [lra|]. cbn [andb]. lra.
    + rewrite (rsum_single sz _ a Ha).
      * destruct (Nat.eqb_spec b a); [congruence|]. rewrite Nat.eqb_refl. cbn [andb]. lra.
      * intros f Hf Hne. destruct (b =? f)%nat; [lra|]. cbn [andb]. destruct (Nat.eqb_spec a f); [congruence|]. cbn [andb]. lra.
  - intros i Hi Hne. apply rsum_0. intros f Hf. unfold contrib. destruct (i =? f)%nat; [lra|]. destruct (Nat.eqb_spec b i); [congruence|].
    rewrite !Bool.andb_false_r. lra.
Qed.

Lemma lsum_neg {A} (f : A -> R) l : lsum (fun x => - f x) l = - lsum f l.
Proof. unfold lsum. apply (bsum_opp RRing). Qed.
Lemma lsum_ext {A} (f g : A -> R) l : (forall x, In x l -> f x = g x) -> lsum f l = lsum g l.
Proof. apply (bsum_ext RRing). Qed.
Lemma lsum_nonneg {A} (f : A -> R) l : (forall x, In x l -> 0 <= f x) -> 0 <= lsum f l.
Proof.
  unfold lsum. induction l as [|x l IH]; intros H; simpl; [apply Rle_refl|]. apply Rplus_le_le_0_compat; [apply H; now left|apply IH; intros; apply H; now right].
Qed.
Lemma lsum_rsum {A} n (f : A -> nat -> R) l : lsum (fun x => rsum n (f x)) l = rsum n (fun i => lsum (fun x => f x i) l).
Proof. unfold lsum, rsum, nsum. apply (bsum_swap RRing). Qed.

Lemma rate_matrix_closed leads d : let ids := usort (map (fun e => fst (fst e)) d) in
  exists W, build_rate_matrix V L call leads d = Ok (length ids, W) /\
  (forall f i, (f < length ids)%nat -> (i < length ids)%nat -> f <> i -> W f i = lsum (fun lead => look d lead (nth f ids []) (nth i ids [])) leads) /\
  (forall i, (i < length ids)%nat -> W i i = - rsum (length ids) (fun f => if (f =? i)%nat then 0 else W f i)).
Proof.
  intros ids. unfold build_rate_matrix. rewrite parity_ok. cbn [bind]. fold ids. eexists. split; [reflexivity|].
  assert (OD : forall f i, (f < length ids)%nat -> (i < length ids)%nat -> f <> i ->
    fold_left (fun W lead => fold_left (rate_step V L call d ids lead) (ndindex (length ids) (length ids)) W) leads mzero f i =
    lsum (fun lead => look d lead (nth f ids []) (nth i ids [])) leads).
  { intros f i Hf Hi NE. rewrite fold_leads. unfold mzero at 1. rewrite Rplus_0_l. apply lsum_ext. intros lead _. rewrite contrib_sum by auto.
    destruct (Nat.eqb_spec f i); [congruence|reflexivity]. }
  split; [exact OD|]. intros i Hi. rewrite fold_leads. unfold mzero at 1. rewrite Rplus_0_l.
  rewrite (lsum_ext _ (fun lead => - rsum (length ids) (fun f => if (f =? i)%nat then 0 else look d lead (nth f ids []) (nth i ids [])))).
  - rewrite lsum_neg, lsum_rsum. f_equal. apply rsum_ext. intros f Hf. destruct (Nat.eqb_spec f i).
    + unfold lsum. apply (bsum_0 RRing). reflexivity.
    + symmetry. auto.
  - intros lead _. rewrite contrib_sum by auto. now rewrite Nat.eqb_refl.
Qed.

(** Columns of such a matrix sum to zero. *)
Lemma closed_conserves sz (W : mat) : (forall i, (i < sz)%nat -> W i i = - rsum sz (fun f => if (f =? i)%nat then 0 else W f i)) -> conserves sz W.
Proof.
  intros H i Hi.
  rewrite (rsum_ext _ _ (fun f => (if (f =? i)%nat then 0 else W f i) + (if (f =? i)%nat then W i i else 0)))
    by (intros f _; destruct (Nat.eqb_spec f i) as [->|]; lra).
  rewrite rsum_add, (rsum_single sz (fun f => if (f =? i)%nat then W i i else 0) i Hi).
  - rewrite Nat.eqb_refl, (H i Hi) at 1. lra.
  - intros j _ Hj. destruct (Nat.eqb_spec j i); [congruence|reflexivity].
Qed.
Lemma closed_signs sz (W : mat) : (forall i, (i < sz)%nat -> W i i = - rsum sz (fun f => if (f =? i)%nat then 0 else W f i)) ->
  (forall f i, (f < sz)%nat -> (i < sz)%nat -> f <> i -> 0 <= W f i) -> rate_signs sz W.
Proof.
  intros H P f i Hf Hi. destruct (Nat.eqb_spec f i) as [->|NE]; [|auto]. rewrite H by auto.
  assert (0 <= rsum sz (fun f => if (f =? i)%nat then 0 else W f i)); [|lra]. apply rsum_nonneg. intros j Hj. destruct (Nat.eqb_spec j i); [lra|auto].
Qed.

Theorem rates_conserve leads d : exists sz W, build_rate_matrix V L call leads d = Ok (sz, W) /\ conserves sz W /\
  ((forall k v lead g, In (k, v) d -> In lead leads -> call v lead = Ok g -> 0 <= g) -> rate_signs sz W).
Proof.
  destruct (rate_matrix_closed leads d) as (W & E & OD & DG). exists (length (usort (map (fun e => fst (fst e)) d))), W. split; [exact E|].
  split; [now apply closed_conserves|]. intros P. apply closed_signs; [exact DG|]. intros f i Hf Hi NE. rewrite OD by auto. apply lsum_nonneg. intros lead Hl.
  unfold look, dget. destruct (find _ d) as [[k v]|] eqn:F; cbn [bind]; [|lra]. apply find_some in F. destruct F as [F _]. cbn [snd].
  destruct (call v lead) as [g|] eqn:C; [|lra]. exact (P k v lead g F Hl C).
Qed.

Theorem rates_entries leads d : NoDup (map fst d) -> exists ids W, build_rate_matrix V L call leads d = Ok (length ids, W) /\
  StronglySorted before ids /\ (forall x, In x ids <-> exists I v, In ((x, I), v) d) /\
  (forall f i, (f < length ids)%nat -> (i < length ids)%nat -> f <> i -> W f i = lsum (fun lead => rate_of call d lead (nth f ids []) (nth i ids [])) leads) /\
  (forall i, (i < length ids)%nat -> W i i = - rsum (length ids) (fun f => if (f =? i)%nat then 0 else W f i)).
Proof.
  intros ND. destruct (rate_matrix_closed leads d) as (W & E & OD & DG). eexists _, W. split; [exact E|]. split; [apply usort_sorted|]. split.
  - intros x. rewrite usort_In, in_map_iff. split.
    + intros ([[F I] v] & <- & H). eauto.
    + intros (I & v & H). exists ((x, I), v). auto.
  - split; [|exact DG]. intros f i Hf Hi NE. rewrite OD by auto. apply lsum_ext. intros lead _. now apply look_rate.
Qed.

(** Transition matrices. *)
Variable signed : V -> res R.
Theorem transition_entries skip d : NoDup (map fst d) -> exists ids T, build_transition_matrix V signed skip d = Ok (length ids, T) /\
  StronglySorted before ids /\ (forall x, In x ids <-> exists I v, In ((x, I), v) d) /\
  (forall f i, (f < length ids)%nat -> (i < length ids)%nat -> T f i =
     if skip && (f =? i)%nat then 0 else lookS d signed (nth f ids []) (nth i ids [])).
Proof.
  intros ND. unfold build_transition_matrix. rewrite parity_ok. cbn [bind]. set (ids := usort _). exists ids. eexists. split; [reflexivity|].
  split; [apply usort_sorted|]. split.
  - intros x. unfold ids. rewrite usort_In, in_map_iff. split.
    + intros ([[F I] v] & <- & H). eauto.
    + intros (I & v & H). exists ((x, I), v). auto.
  - set (step := fun (T : mat) (p : nat * nat) => _).
    set (val := fun f i => if skip && (f =? i)%nat then 0 else lookS d signed (nth f ids []) (nth i ids [])).
    assert (ST : forall T i' f' f i, step T (i', f') f i = T f i \/ (step T (i', f') f i = val f i /\ f = f' /\ i = i')).
    { intros T i' f' f i. unfold step, val, lookS. destruct (skip && (i' =? f')%nat) eqn:S; [now left|].
      destruct (bind _ _) as [g|] eqn:E; [|now left]. unfold set_at. destruct (Nat.eqb_spec f f') as [->|]; [|now left]. destruct (Nat.eqb_spec i i') as [->|]; [|now left].
      right. cbn [andb]. rewrite (Nat.eqb_sym f' i'), S, E. auto. }
    assert (IN : forall T f i, T f i = 0 -> step T (i, f) f i = val f i).
    { intros T f i H0. unfold step, val, lookS. rewrite (Nat.eqb_sym f i). destruct (skip && (i =? f)%nat); [exact H0|].
      destruct (bind _ _) as [g|] eqn:E; [|exact H0]. unfold set_at. now rewrite !Nat.eqb_refl. }
    assert (G : forall l T f i, (T f i = 0 /\ In (i, f) l) \/ T f i = val f i -> fold_left step l T f i = val f i).
    { induction l as [|[i' f'] l IH]; intros T f i H; cbn [fold_left].
      - destruct H as [[_ []]|H]; exact H.
      - apply IH. destruct H as [[H0 [E|H]]|H].
        + injection E as -> ->. right. now apply IN.
        + destruct (ST T i' f' f i) as [->|(-> & _ & _)]; auto.
        + destruct (ST T i' f' f i) as [->|(-> & _ & _)]; auto. }
    intros f i Hf Hi. apply G. left. split; [reflexivity|]. unfold ndindex. apply in_flat_map. exists i. split; [apply in_seq; lia|].
    apply in_map_iff. exists f. split; [reflexivity|]. apply in_seq. lia.
Qed.
End Rate.

Theorem transition_rates (V : Type) (signed : V -> res R) skip d : NoDup (map fst d) -> exists ids T,
  build_transition_matrix V signed skip d = Ok (length ids, T) /\ StronglySorted before ids /\
  (forall x, In x ids <-> exists I v, In ((x, I), v) d) /\
  (forall f i, (f < length ids)%nat -> (i < length ids)%nat -> T f i =
     if skip && (f =? i)%nat then 0 else rate_of (fun v (_ : unit) => signed v) d tt (nth f ids []) (nth i ids [])).
Proof.
  intros ND. destruct (transition_entries V signed skip d ND) as (ids & T & E & S & IN & EN). exists ids, T. split; [exact E|]. split; [exact S|]. split; [exact IN|].
  intros f i Hf Hi. rewrite EN by auto. destruct (skip && (f =? i)%nat); [reflexivity|]. rewrite <- (look_rate V unit (fun v _ => signed v)) by exact ND. reflexivity.
Qed.

Lemma dotv_overlap v a y : dotv v a = Ok y <-> length v = length a /\ y = overlap v a.
Proof.
  unfold dotv. destruct (Nat.eqb_spec (length v) (length a)) as [L|N]; [|split; [discriminate|intros [L _]; contradiction]].
  assert (E : fold_right Rplus 0 (map (fun p : R * R => fst p * snd p) (combine v a)) = overlap v a).
  { unfold overlap. revert a L. induction v as [|x v IH]; intros [|b a] L; try discriminate; [reflexivity|]. cbn [length combine map fold_right fst snd]. rewrite rsum_S_l. cbn [nth]. f_equal. apply IH. now injection L. }
  rewrite E. split; [intros Q; injection Q as <-; auto|intros [_ ->]; reflexivity].
Qed.
