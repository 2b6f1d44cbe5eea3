(** Exchanging the two spins. *)
From Coq Require Import Reals List Arith NArith ZArith Bool Lia Ring.
From Verif Require Import Base OperatorsModel OperatorsSpec OperatorsProofs LookupModel LookupSpec LookupProofs SectorModel SectorSpec SectorProofs FockSpec FockProofs
  LocalModel LocalSpec CsrSpec NonLocalModel NonLocalSpec MbModel MbSpec ConserveProofs.
Import ListNotations.
Local Open Scope nat_scope.

Definition flipi (n i : nat) : nat := if i <? n then i + n else i - n.
Definition flipo (n : nat) (o : ladder_op) : ladder_op := match o with Cr i => Cr (flipi n i) | An i => An (flipi n i) end.
Definition swapped (n : nat) (s s' : N) : Prop := forall k, k < 2 * n -> occ s' (flipi n k) = occ s k.
Definition small (n : nat) (s : N) : Prop := forall k, 2 * n <= k -> occ s k = false.

Lemma flipi_lt n i : i < 2 * n -> flipi n i < 2 * n.
Proof. unfold flipi. destruct (Nat.ltb_spec i n); lia. Qed.
Lemma flipi_invol n i : i < 2 * n -> flipi n (flipi n i) = i.
Proof. unfold flipi. intros. destruct (Nat.ltb_spec i n); [destruct (Nat.ltb_spec (i + n) n)|destruct (Nat.ltb_spec (i - n) n)]; lia. Qed.
Lemma swapped_unique n s s1 s2 : swapped n s s1 -> swapped n s s2 -> small n s1 -> small n s2 -> s1 = s2.
Proof.
  intros A B S1 S2. apply occ_ext. intros k. destruct (Nat.lt_ge_cases k (2 * n)); [|now rewrite S1, S2].
  rewrite <- (flipi_invol n k) by auto. rewrite A, B by (now apply flipi_lt). reflexivity.
Qed.
Lemma nocc_shift s s' a b c : (forall k, a <= k -> k < b -> occ s' (k + c) = occ s k) -> nocc s' (a + c) (b + c) = nocc s a b.
Proof.
  intros H. unfold nocc. replace (b + c - (a + c)) with (b - a) by lia. set (m := b - a). assert (HM : a + m <= b \/ m = 0) by lia. clearbody m.
  revert a H HM. induction m as [|m IH]; intros a H HM; [reflexivity|]. cbn [seq filter].
  rewrite (H a) by lia. specialize (IH (S a)). cbn [Nat.add] in IH. destruct (occ s a); cbn [length]; rewrite IH; auto; try (intros; apply H; lia); lia.
Qed.
Lemma swapped_up n s s' a b : swapped n s s' -> b <= n -> nocc s' (a + n) (b + n) = nocc s a b.
Proof. intros S Hb. apply nocc_shift. intros k _ Hk. rewrite <- (S k) by lia. unfold flipi. destruct (Nat.ltb_spec k n); [reflexivity|lia]. Qed.
Lemma swapped_dw n s s' a b : swapped n s s' -> b <= n -> nocc s' a b = nocc s (a + n) (b + n).
Proof. intros S Hb. symmetry. apply nocc_shift. intros k _ Hk. rewrite <- (S (k + n)) by lia. unfold flipi. destruct (Nat.ltb_spec (k + n) n); [lia|]. f_equal. lia. Qed.

Definition eps (n : nat) (s : N) : Z := parity_sign (nocc s 0 n * nocc s n (2 * n)).
Lemma par_add a b : parity_sign (a + b) = (parity_sign a * parity_sign b)%Z.
Proof. unfold parity_sign. rewrite Nat.even_add. destruct (Nat.even a), (Nat.even b); reflexivity. Qed.
Lemma par_sq a : (parity_sign a * parity_sign a = 1)%Z.
Proof. unfold parity_sign. destruct (Nat.even a); reflexivity. Qed.

Lemma app1_swap n o s s' z t : swapped n s s' -> small n s -> small n s' -> match o with Cr i | An i => i end < 2 * n -> app1 (2 * n) o s = Some (z, t) ->
  exists t', app1 (2 * n) (flipo n o) s' = Some ((z * eps n s * eps n t)%Z, t') /\ swapped n t t' /\ small n t /\ small n t'.
Proof.
  intros SW SM SM' Hi E. set (i := match o with Cr i | An i => i end) in *.
  pose proof (app1_toggles _ _ _ _ _ E) as T. fold i in T.
  assert (SMt : small n t) by (intros k Hk; rewrite (T k); destruct (Nat.eqb_spec k i); [lia|now apply SM]).
  assert (Z : z = parity_sign (nocc s (S i) (2 * n))) by (clear T SMt; unfold i; destruct o; cbn [app1] in E; destruct (occ s _); inversion E; reflexivity).
  assert (OI : occ s' (flipi n i) = occ s i) by (now apply SW).
  assert (E' : exists t', app1 (2 * n) (flipo n o) s' = Some (parity_sign (nocc s' (S (flipi n i)) (2 * n)), t')).
  { unfold i in OI. destruct o; cbn [flipo app1] in *; rewrite OI; destruct (occ s _); try discriminate; eauto. }
  destruct E' as (t' & E'). pose proof (app1_toggles _ _ _ _ _ E') as T'. assert (T2 : toggles s' t' (flipi n i)) by (unfold i; destruct o; exact T').
  exists t'. split; [|split; [|split]]; auto.
  - rewrite E'. do 2 f_equal. subst z. unfold eps.
    pose proof (nocc_toggle s t i 0 n T) as C1. pose proof (nocc_toggle s t i n (2 * n) T) as C2.
    destruct (Nat.ltb_spec i n) as [L|L].
    + (* up *)
      replace (flipi n i) with (i + n) by (unfold flipi; destruct (Nat.ltb_spec i n); lia).
      replace (nocc s' (S (i + n)) (2 * n)) with (nocc s (S i) n) by (rewrite <- (swapped_up n s s' (S i) n SW) by lia; f_equal; lia).
      rewrite (nocc_split s (S i) n (2 * n)) by lia. rewrite par_add.
      destruct (Nat.leb_spec n i); [lia|]. cbn [andb] in C2. assert (ED : nocc t n (2 * n) = nocc s n (2 * n)) by lia. rewrite ED. set (nd := nocc s n (2 * n)) in *.
      cbn [Nat.leb andb] in C1. rewrite <- !Z.mul_assoc, <- par_add.
      assert (Q : parity_sign (nocc s 0 n * nd + nocc t 0 n * nd) = parity_sign nd).
      { destruct (occ s i).
        - replace (nocc s 0 n) with (S (nocc t 0 n)) by lia. cbn [Nat.mul]. rewrite <- Nat.add_assoc, par_add. rewrite (par_add (_ * nd)), par_sq. lia.
        - replace (nocc t 0 n) with (S (nocc s 0 n)) by lia. cbn [Nat.mul]. rewrite (Nat.add_comm nd), Nat.add_assoc, par_add. rewrite (par_add (_ * nd)), par_sq. lia. }
      rewrite Q, par_sq. lia.
    + (* down *)
      replace (flipi n i) with (i - n) by (unfold flipi; destruct (Nat.ltb_spec i n); lia).
      rewrite (nocc_split s' (S (i - n)) n (2 * n)) by lia. rewrite (swapped_dw n s s' (S (i - n)) n SW) by lia.
      replace (S (i - n) + n) with (S i) by lia. replace (n + n) with (2 * n) by lia.
      replace (nocc s' n (2 * n)) with (nocc s 0 n) by (rewrite <- (swapped_up n s s' 0 n SW) by lia; f_equal; lia).
      rewrite par_add.
      assert (EU : nocc t 0 n = nocc s 0 n) by (cbn [Nat.leb andb] in C1; lia). rewrite EU. set (nu := nocc s 0 n) in *.
      destruct (Nat.leb_spec n i); [|lia]. destruct (Nat.ltb_spec i (2 * n)); [|lia]. cbn [andb] in C2. rewrite <- !Z.mul_assoc, <- (par_add (nu * _)).
      assert (Q : parity_sign (nu * nocc s n (2 * n) + nu * nocc t n (2 * n)) = parity_sign nu).
      { destruct (occ s i).
        - replace (nocc s n (2 * n)) with (S (nocc t n (2 * n))) by lia. rewrite Nat.mul_succ_r. rewrite (Nat.add_comm (_ * _) nu), <- Nat.add_assoc, par_add. rewrite (par_add (_ * _)), par_sq. lia.
        - replace (nocc t n (2 * n)) with (S (nocc s n (2 * n))) by lia. rewrite Nat.mul_succ_r. rewrite Nat.add_assoc, par_add. rewrite (par_add (_ * _)), par_sq. lia. }
      now rewrite Q.
  - intros k Hk. rewrite (T2 (flipi n k)), (T k), (SW k Hk). destruct (Nat.eqb_spec k i) as [->|N]; [now rewrite Nat.eqb_refl|].
    destruct (Nat.eqb_spec (flipi n k) (flipi n i)) as [Q|]; [|reflexivity]. exfalso. apply N. rewrite <- (flipi_invol n k), <- (flipi_invol n i) by auto. now rewrite Q.
  - intros k Hk. rewrite (T2 k). destruct (Nat.eqb_spec k (flipi n i)) as [->|]; [pose proof (flipi_lt n i Hi); lia|now apply SM'].
Qed.
Lemma app1_swap_none n o s s' : swapped n s s' -> match o with Cr i | An i => i end < 2 * n -> app1 (2 * n) o s = None -> app1 (2 * n) (flipo n o) s' = None.
Proof. intros SW Hi E. destruct o as [i|i]; cbn [app1 flipo] in *; rewrite (SW i Hi); destruct (occ s i); congruence. Qed.

Lemma word_swap n l : forall s s', swapped n s s' -> small n s -> small n s' -> Forall (fun o => match o with Cr i | An i => i end < 2 * n) l ->
  match word (2 * n) l s with
  | Some (z, t) => exists t', word (2 * n) (map (flipo n) l) s' = Some ((z * eps n s * eps n t)%Z, t') /\ swapped n t t' /\ small n t /\ small n t'
  | None => word (2 * n) (map (flipo n) l) s' = None
  end.
Proof.
  induction l as [|o l IH]; intros s s' SW SM SM' F.
  - cbn [word map]. exists s'. split; [|auto]. do 2 f_equal. unfold eps. rewrite <- Z.mul_assoc, par_sq. reflexivity.
  - inversion F as [|? ? Ho Fl]; subst. specialize (IH s s' SW SM SM' Fl). cbn [word map]. destruct (word (2 * n) l s) as [[z u]|].
    + destruct IH as (u' & E & S1 & SM1 & SM1'). rewrite E. destruct (app1 (2 * n) o u) as [[z2 t]|] eqn:A.
      * destruct (app1_swap n o u u' z2 t S1 SM1 SM1' Ho A) as (t' & A' & S2 & SM2 & SM2'). rewrite A'. exists t'. split; [|auto]. do 2 f_equal.
        transitivity (z2 * z * eps n s * eps n t * (eps n u * eps n u))%Z; [ring|]. unfold eps at 3 4. rewrite par_sq. ring.
      * now rewrite (app1_swap_none n o u u' S1 Ho A).
    + now rewrite IH.
Qed.

Lemma swapped_combine n u d : (u < 2 ^ N.of_nat n)%N -> (d < 2 ^ N.of_nat n)%N -> swapped n (combine n u d) (combine n d u).
Proof.
  intros Hu Hd k Hk. unfold flipi. rewrite !occ_combine by auto. destruct (Nat.ltb_spec k n).
  - destruct (Nat.ltb_spec (k + n) n); [lia|]. f_equal. lia.
  - destruct (Nat.ltb_spec (k - n) n); [reflexivity|lia].
Qed.
Lemma small_combine n u d : (u < 2 ^ N.of_nat n)%N -> (d < 2 ^ N.of_nat n)%N -> small n (combine n u d).
Proof. intros Hu Hd k Hk. rewrite occ_combine by auto. destruct (Nat.ltb_spec k n); [lia|]. apply (occ_high d n); auto. lia. Qed.

Lemma elem_swap n l u d u' d' : (u < 2 ^ N.of_nat n)%N -> (d < 2 ^ N.of_nat n)%N -> (u' < 2 ^ N.of_nat n)%N -> (d' < 2 ^ N.of_nat n)%N ->
  Forall (fun o => match o with Cr i | An i => i end < 2 * n) l -> (forall b, b <= 1 -> gains (b * n) (n + b * n) l = 0%Z) ->
  elem (2 * n) (map (flipo n) l) (combine n d' u') (combine n d u) = elem (2 * n) l (combine n u' d') (combine n u d).
Proof.
  intros Hu Hd Hu' Hd' F G. unfold elem. set (s := combine n u d). set (s' := combine n d u).
  pose proof (word_swap n l s s' (swapped_combine n u d Hu Hd) (small_combine n u d Hu Hd) (small_combine n d u Hd Hu) F) as W.
  destruct (word (2 * n) l s) as [[z t]|] eqn:WW; [|now rewrite W]. destruct W as (t' & E & S & SM & SM'). rewrite E.
  assert (Q : (t' =? combine n d' u')%N = (t =? combine n u' d')%N).
  { apply eq_true_iff_eq. rewrite !N.eqb_eq. split; intros ->.
    - apply (swapped_unique n (combine n d' u')); auto using small_combine.
      + intros k Hk. rewrite <- (flipi_invol n k) at 2 by auto. symmetry. apply S. now apply flipi_lt.
      + now apply swapped_combine.
    - apply (swapped_unique n (combine n u' d')); auto using small_combine, swapped_combine. }
  rewrite Q. destruct (N.eqb_spec t (combine n u' d')) as [->|]; [|reflexivity].
  assert (EE : eps n s = eps n (combine n u' d')).
  { unfold eps. pose proof (word_gains _ _ _ _ _ (0 * n) (n + 0 * n) WW) as C0. pose proof (word_gains _ _ _ _ _ (1 * n) (n + 1 * n) WW) as C1. rewrite G in C0, C1 by lia.
    replace (0 * n) with 0 in C0 by lia. replace (n + 0) with n in C0 by lia. replace (1 * n) with n in C1 by lia. replace (n + n) with (2 * n) in C1 by lia.
    f_equal. f_equal; lia. }
  rewrite EE. unfold eps. rewrite <- Z.mul_assoc, par_sq. ring.
Qed.

Ltac wordeq := repeat match goal with |- _ :: _ = _ :: _ => apply f_equal2 | |- Cr _ = Cr _ => apply f_equal | |- An _ = An _ => apply f_equal | |- nil = nil => reflexivity end; lia.
Section K.
Variable K : CRing.
Local Open Scope cr_scope.
Add Ring kr : (cth K).
Lemma coupling_swap n J W W' u d u' d' : (u < 2 ^ N.of_nat n)%N -> (d < 2 ^ N.of_nat n)%N -> (u' < 2 ^ N.of_nat n)%N -> (d' < 2 ^ N.of_nat n)%N ->
  (forall i j, (i < n)%nat -> (j < n)%nat -> W' i j = map (flipo n) (W i j) /\ Forall (fun o => match o with Cr i | An i => i end < 2 * n)%nat (W i j) /\
     forall b, (b <= 1)%nat -> gains (b * n) (n + b * n) (W i j) = 0%Z) ->
  coupling K n J W' (combine n d' u') (combine n d u) = coupling K n J W (combine n u' d') (combine n u d).
Proof.
  intros Hu Hd Hu' Hd' H. unfold coupling. apply nsum_ext. intros i Hi. apply nsum_ext. intros j Hj. destruct (H i j Hi Hj) as (-> & F & G). now rewrite elem_swap.
Qed.
Lemma hamiltonian_swap half sgn n e U z hf T Jx Jp ub db ua da :
  (ub < 2 ^ N.of_nat n)%N -> (db < 2 ^ N.of_nat n)%N -> (ua < 2 ^ N.of_nat n)%N -> (da < 2 ^ N.of_nat n)%N ->
  (forall i, (i < n)%nat -> e 1%nat i = e 0%nat i) -> (forall i j, (i < n)%nat -> (j < n)%nat -> T 1%nat i j = T 0%nat i j) ->
  hamiltonian K half sgn n e U z hf T Jx Jp db ub da ua = hamiltonian K half sgn n e U z hf T Jx Jp ub db ua da.
Proof.
  intros Hub Hdb Hua Hda HE HT. unfold hamiltonian. cbv zeta.
  assert (FE : fock_energy K half n (e 0%nat) (e 1%nat) U z hf da ua = fock_energy K half n (e 0%nat) (e 1%nat) U z hf ua da).
  { unfold fock_energy. cbv zeta. f_equal; [f_equal|].
    - apply nsum_ext. intros i Hi. rewrite HE by auto. ring.
    - apply nsum_ext. intros i Hi. ring.
    - f_equal. apply nsum_ext. intros i Hi. apply nsum_ext. intros j Hj. destruct (i =? j)%nat; ring. }
  assert (EQ : (combine n db ub =? combine n da ua)%N = (combine n ub db =? combine n ua da)%N).
  { apply eq_true_iff_eq. rewrite !N.eqb_eq. split; intros Q; apply combine_inj in Q; auto; destruct Q as [-> ->]; reflexivity. }
  rewrite FE, EQ.
  assert (TE : forall s t st, (s <= 1)%nat -> hop_op K n (T s) 0 t st = hop_op K n (T 0%nat) 0 t st /\ hop_op K n (T s) 1 t st = hop_op K n (T 0%nat) 1 t st).
  { intros s t st Hs. unfold hop_op, coupling. split; apply nsum_ext; intros i Hi; apply nsum_ext; intros j Hj; (destruct s as [|[|]]; [reflexivity|now rewrite HT|lia]). }
  rewrite !(proj2 (TE 1%nat _ _ ltac:(lia))). unfold hop_op, exch_same, exch_opp, pair_hop.
  assert (HOP : forall s, (s <= 1)%nat -> coupling K n (T 0%nat) (fun i j => [Cr (i + (1 - s) * n); An (j + (1 - s) * n)]%nat) (combine n db ub) (combine n da ua) =
    coupling K n (T 0%nat) (fun i j => [Cr (i + s * n); An (j + s * n)]%nat) (combine n ub db) (combine n ua da)).
  { intros s Hs. apply coupling_swap; auto. intros i j Hi Hj. split; [|split; [repeat constructor; destruct s as [|[|]]; lia|intros b Hb; now apply hop_gains]].
    unfold flipo, flipi. cbn [map]. destruct s as [|[|]]; [| |lia]; repeat match goal with |- context[(?a <? ?b)%nat] => destruct (Nat.ltb_spec a b) end; try lia; wordeq. }
  assert (EX : forall s s', (s <= 1)%nat -> (s' <= 1)%nat -> coupling K n Jx (fun i j => exch_word n i j (1 - s) (1 - s')) (combine n db ub) (combine n da ua) =
    coupling K n Jx (fun i j => exch_word n i j s s') (combine n ub db) (combine n ua da)).
  { intros s s' Hs Hs'. apply coupling_swap; auto. intros i j Hi Hj. split; [|split; [unfold exch_word; repeat constructor; destruct s as [|[|]], s' as [|[|]]; lia|intros b Hb; now apply exch_gains]].
    unfold exch_word, flipo, flipi. cbn [map]. destruct s as [|[|]]; [| |lia]; destruct s' as [|[|]]; try lia; repeat match goal with |- context[(?a <? ?b)%nat] => destruct (Nat.ltb_spec a b) end; try lia; wordeq. }
  assert (PH : forall s, (s <= 1)%nat -> coupling K n Jp (fun i j => pair_word n i j (1 - s)) (combine n db ub) (combine n da ua) =
    coupling K n Jp (fun i j => pair_word n i j s) (combine n ub db) (combine n ua da)).
  { intros s Hs. apply coupling_swap; auto. intros i j Hi Hj. split; [|split; [unfold pair_word; repeat constructor; destruct s as [|[|]]; lia|intros b Hb; now apply pair_gains]].
    unfold pair_word, flipo, flipi. cbn [map]. destruct s as [|[|]]; [| |lia]; repeat match goal with |- context[(?a <? ?b)%nat] => destruct (Nat.ltb_spec a b) end; try lia; wordeq. }
  pose proof (HOP 0%nat ltac:(lia)) as H0. pose proof (HOP 1%nat ltac:(lia)) as H1. pose proof (EX 0%nat 0%nat ltac:(lia) ltac:(lia)) as X00. pose proof (EX 0%nat 1%nat ltac:(lia) ltac:(lia)) as X01.
  pose proof (EX 1%nat 0%nat ltac:(lia) ltac:(lia)) as X10. pose proof (EX 1%nat 1%nat ltac:(lia) ltac:(lia)) as X11. pose proof (PH 0%nat ltac:(lia)) as P0. pose proof (PH 1%nat ltac:(lia)) as P1.
  change (1 - 0)%nat with 1%nat in *. change (1 - 1)%nat with 0%nat in *. rewrite H0, H1, X00, X01, X10, X11, P0, P1. ring.
Qed.
End K.
