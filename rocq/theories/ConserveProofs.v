(** The Hamiltonian conserves the number of electrons of each spin, and sums over
    the Fock space split into sums over sectors. *)
From Coq Require Import Reals List Arith NArith ZArith Bool Lia Lra Psatz Ring.
From Verif Require Import Base RBase RLin OperatorsModel OperatorsSpec OperatorsProofs LookupModel LookupSpec LookupProofs SectorModel SectorSpec SectorProofs FockSpec FockProofs
  LocalModel LocalSpec CsrSpec NonLocalModel NonLocalSpec MbModel MbSpec SpectralProofs ExactSpec.
Import ListNotations.
Local Open Scope nat_scope.

(** ** Electron numbers along a word *)
Lemma nocc_toggle s t i a b : toggles s t i ->
  Z.of_nat (nocc t a b) = (Z.of_nat (nocc s a b) + if ((a <=? i) && (i <? b))%nat then (if occ s i then -1 else 1) else 0)%Z.
Proof.
  intros T. assert (E : forall a b, (b <= i \/ i < a) -> nocc t a b = nocc s a b).
  { intros a' b' H. unfold nocc. f_equal. apply filter_ext_in. intros k Hk. apply in_seq in Hk. rewrite T. replace (k =? i) with false; auto. symmetry. apply Nat.eqb_neq. lia. }
  destruct (Nat.leb_spec a i); cbn [andb]; [|rewrite E by lia; lia]. destruct (Nat.ltb_spec i b); [|rewrite E by lia; lia].
  rewrite (nocc_split t a i b), (nocc_split s a i b), (nocc_step t i b), (nocc_step s i b) by lia. rewrite !E by lia. rewrite (T i), Nat.eqb_refl. destruct (occ s i); cbn [negb]; lia.
Qed.
Definition gain (a b : nat) (o : ladder_op) : Z := match o with
  | Cr i => if ((a <=? i) && (i <? b))%nat then 1 else 0
  | An i => if ((a <=? i) && (i <? b))%nat then -1 else 0 end%Z.
Definition gains (a b : nat) (l : list ladder_op) : Z := fold_right (fun o z => gain a b o + z)%Z 0%Z l.
Lemma word_gains n l s z t a b : word n l s = Some (z, t) -> Z.of_nat (nocc t a b) = (Z.of_nat (nocc s a b) + gains a b l)%Z.
Proof.
  revert z t. induction l as [|o l IH]; cbn [word gains fold_right]; intros z t E; [injection E as <- <-; lia|].
  destruct (word n l s) as [[z1 u]|]; [|discriminate]. destruct (app1 n o u) as [[z2 v]|] eqn:A; [|discriminate]. injection E as <- <-.
  specialize (IH _ _ eq_refl). fold (gains a b l). rewrite (nocc_toggle u v _ a b (app1_toggles _ _ _ _ _ A)), IH.
  destruct o as [i|i]; cbn [app1 gain] in *; destruct (occ u i); try discriminate; destruct ((a <=? i) && (i <? b)); lia.
Qed.
Lemma elem_gains n l t s a b : gains a b l = 0%Z -> nocc t a b <> nocc s a b -> elem n l t s = 0%Z.
Proof.
  intros G N. unfold elem. destruct (word n l s) as [[z u]|] eqn:W; [|reflexivity]. destruct (N.eqb_spec u t) as [->|]; [|reflexivity].
  pose proof (word_gains n l s z t a b W). lia.
Qed.
Ltac gcases := unfold gains, gain; cbn [fold_right]; repeat match goal with |- context[(?x <=? ?y)] => destruct (Nat.leb_spec x y) | |- context[(?x <? ?y)] => destruct (Nat.ltb_spec x y) end; cbn [andb]; try lia.
Lemma hop_gains n s i j b : s <= 1 -> b <= 1 -> i < n -> j < n -> gains (b * n) (n + b * n) [Cr (i + s * n); An (j + s * n)] = 0%Z.
Proof. intros. destruct s as [|[|]]; [| |lia]; destruct b as [|[|]]; try lia; gcases. Qed.
Lemma exch_gains n s s' i j b : s <= 1 -> s' <= 1 -> b <= 1 -> i < n -> j < n -> gains (b * n) (n + b * n) (exch_word n i j s s') = 0%Z.
Proof. intros. unfold exch_word. destruct s as [|[|]]; [| |lia]; destruct s' as [|[|]]; try lia; destruct b as [|[|]]; try lia; gcases. Qed.
Lemma pair_gains n s i j b : s <= 1 -> b <= 1 -> i < n -> j < n -> gains (b * n) (n + b * n) (pair_word n i j s) = 0%Z.
Proof. intros. unfold pair_word. destruct s as [|[|]]; [| |lia]; destruct b as [|[|]]; try lia; gcases. Qed.

Section K.
Variable K : CRing.
Local Open Scope cr_scope.
Add Ring kr : (cth K).
Lemma coupling_gains n J W t s a b : (forall i j, (i < n)%nat -> (j < n)%nat -> gains a b (W i j) = 0%Z) -> nocc t a b <> nocc s a b -> coupling K n J W t s = 0.
Proof.
  intros G N. unfold coupling. apply nsum_0. intros i Hi. apply nsum_0. intros j Hj. rewrite (elem_gains _ _ t s a b (G i j Hi Hj) N). cbn [z2k]. unfold z2k. ring.
Qed.
Lemma hamiltonian_conserves half sgn n e U z hf T Jx Jp ub db ua da :
  (ub < 2 ^ N.of_nat n)%N -> (db < 2 ^ N.of_nat n)%N -> (ua < 2 ^ N.of_nat n)%N -> (da < 2 ^ N.of_nat n)%N ->
  popcount ub <> popcount ua \/ popcount db <> popcount da -> hamiltonian K half sgn n e U z hf T Jx Jp ub db ua da = 0.
Proof.
  intros Hub Hdb Hua Hda NE. unfold hamiltonian. cbv zeta. set (t := combine n ub db). set (s := combine n ua da).
  assert (D : exists b, (b <= 1)%nat /\ nocc t (b * n) (n + b * n) <> nocc s (b * n) (n + b * n)).
  { assert (UP : forall u d, (u < 2 ^ N.of_nat n)%N -> (d < 2 ^ N.of_nat n)%N -> nocc (combine n u d) (0 * n) (n + 0 * n) = popcount u).
    { intros u d Hu Hd. rewrite <- (nocc_popcount n u Hu). unfold nocc. replace (n + 0 * n - 0 * n)%nat with (n - 0)%nat by lia. f_equal. apply filter_ext_in. intros k Hk. apply in_seq in Hk.
      rewrite occ_combine by auto. destruct (Nat.ltb_spec k n); auto. lia. }
    assert (DW : forall u d, (u < 2 ^ N.of_nat n)%N -> (d < 2 ^ N.of_nat n)%N -> nocc (combine n u d) (1 * n) (n + 1 * n) = popcount d).
    { intros u d Hu Hd. rewrite <- (nocc_popcount n d Hd). rewrite <- (nocc_combine_dw n u d 0 n Hu). f_equal; lia. }
    destruct NE as [NE|NE]; [exists 0%nat|exists 1%nat]; (split; [lia|]); unfold t, s; [rewrite !UP|rewrite !DW]; auto. }
  destruct D as (b & Hb & D).
  assert (TS : N.eqb t s = false) by (apply N.eqb_neq; intros E; apply D; now rewrite E). rewrite TS.
  unfold hop_op, exch_same, exch_opp, pair_hop.
  rewrite !(fun J W G => coupling_gains n J W t s (b * n) (n + b * n) G D); [ring|..]; intros i j Hi Hj;
  first [apply hop_gains|apply exch_gains|apply pair_gains]; auto with arith.
Qed.
End K.

(** ** Sums over the Fock space *)
Local Open Scope R_scope.
Definition lsum (f : N -> R) (l : list N) : R := @bsum RRing N f l.
Lemma lsum_nth f l : lsum f l = rsum (length l) (fun i => f (nth i l 0%N)).
Proof. apply (bsum_nth RRing). Qed.
Lemma lsum_ext f g l : (forall s, In s l -> f s = g s) -> lsum f l = lsum g l.
Proof. apply (bsum_ext RRing). Qed.
Lemma lsum_0 f l : (forall s, In s l -> f s = 0) -> lsum f l = 0.
Proof. apply (bsum_0 RRing). Qed.
Lemma lsum_rsum m (f : nat -> N -> R) l : lsum (fun s => rsum m (fun i => f i s)) l = rsum m (fun i => lsum (f i) l).
Proof. rewrite lsum_nth, rsum_swap. apply rsum_ext. intros i _. symmetry. apply lsum_nth. Qed.
Lemma lsum_le f g l : (forall s, In s l -> f s <= g s) -> lsum f l <= lsum g l.
Proof. intros H. rewrite !lsum_nth. apply rsum_le. intros i Hi. apply H, nth_In, Hi. Qed.

Lemma cand_empty n p : (n < p)%nat -> cand n p = [].
Proof. intros H. destruct (cand n p) as [|s l] eqn:E; [reflexivity|]. exfalso. destruct (proj1 (cand_In n p s) ltac:(rewrite E; now left)) as [A B]. pose proof (popcount_upper s n A). lia. Qed.
Lemma rsum_split a b f : rsum (a + b) f = rsum a f + rsum b (fun i => f (a + i)%nat).
Proof. apply (nsum_split RRing). Qed.
Lemma over_sectors n : forall f, over_states n f = rsum (S n) (fun p => lsum f (cand n p)).
Proof.
  unfold over_states. induction n as [|n IH]; intros f.
  - rewrite rsum_S, (rsum_0 0) by (intros; lia). cbn [cand]. rewrite lsum_nth. cbn [length]. change (2 ^ 0)%nat with 1%nat. rewrite rsum_S, (rsum_0 0) by (intros; lia). rewrite rsum_S, (rsum_0 0) by (intros; lia). cbn [nth]. change (N.of_nat 0) with 0%N. ring.
  - replace (2 ^ S n)%nat with (2 ^ n + 2 ^ n)%nat by (cbn; lia). rewrite rsum_split, IH.
    rewrite (rsum_ext (2 ^ n) _ (fun s => (fun s => f (2 ^ N.of_nat n + s)%N) (N.of_nat s))).
    2:{ intros i _. f_equal. rewrite Nat2N.inj_add. f_equal. clear. induction n; [reflexivity|]. rewrite Nat2N.inj_succ, N.pow_succ_r'. cbn [Nat.pow]. lia. }
    rewrite (IH (fun s => f (2 ^ N.of_nat n + s)%N)).
    rewrite (rsum_ext (S (S n)) (fun p => lsum f (cand (S n) p)) (fun p => lsum f (cand n p) + match p with O => 0 | S p => lsum (fun s => f (2 ^ N.of_nat n + s)%N) (cand n p) end)).
    + rewrite rsum_add. rewrite (rsum_S (S n) (fun p => lsum f (cand n p))), (cand_empty n (S n)) by lia. rewrite (rsum_S_l (S n)). change (lsum f []) with 0. ring.
    + intros p _. cbn [cand]. unfold lsum. rewrite (bsum_app RRing). destruct p as [|p]; [reflexivity|]. rewrite (bsum_map RRing). reflexivity.
Qed.
