(** Words of four ladder operators on a state of two spin species. *)
From Coq Require Import List Arith NArith ZArith Lia Bool.
From Verif Require Import Base OperatorsModel OperatorsSpec OperatorsProofs LookupModel LookupSpec
  LookupProofs SectorProofs FockSpec FockProofs NonLocalSpec.
Import ListNotations.

Lemma parity_sq m : (parity_sign m * parity_sign m = 1)%Z.
Proof. unfold parity_sign. destruct (Nat.even m); reflexivity. Qed.

Ltac psolve m := match goal with |- ?l = ?r =>
  replace l with ((parity_sign m * parity_sign m) * r)%Z by ring; rewrite parity_sq; ring end.

Definition both (n : nat) (a b : option (Z * N)) : option (Z * N) :=
  match a, b with
  | Some (z1, u), Some (z2, d) => Some ((z1 * z2)%Z, combine n u d)
  | _, _ => None
  end.

Lemma app1_lt_An n i s z t : (s < 2 ^ N.of_nat n)%N -> app1 n (An i) s = Some (z, t) ->
  (t < 2 ^ N.of_nat n)%N.
Proof. intros Hs. now apply (app1_lt n (An i)). Qed.

Section Two.
Variables (n i j : nat) (u d : N).
Hypothesis Hi : i < n.
Hypothesis Hj : j < n.
Hypothesis Hu : (u < 2 ^ N.of_nat n)%N.


Lemma word_exch_ud :
  word (2 * n) (exch_word n i j 0 1) (combine n u d) =
  both n (word n [Cr i; An j] u) (word n [Cr j; An i] d).
Proof.
  unfold exch_word. rewrite !Nat.mul_0_l, !Nat.add_0_r, !Nat.mul_1_l. cbn [word].
  rewrite (app1_up n (An j)) by (auto; exact Hj).
  destruct (app1 n (An j) u) as [[z1 u1]|] eqn:E1; [|reflexivity].
  assert (Hu1 := app1_lt_An _ _ _ _ _ Hu E1).
  rewrite (app1_dw n (An i)) by auto.
  destruct (app1 n (An i) d) as [[z2 d1]|] eqn:E2; [|unfold both; destruct (app1 n (Cr i) u1) as [[]|]; reflexivity].
  rewrite (app1_dw n (Cr j)) by auto.
  destruct (app1 n (Cr j) d1) as [[z3 d2]|] eqn:E3; [|unfold both; destruct (app1 n (Cr i) u1) as [[]|]; reflexivity].
  rewrite (app1_up n (Cr i)) by (auto; exact Hi).
  destruct (app1 n (Cr i) u1) as [[z4 u2]|] eqn:E4; [|reflexivity].
  unfold both. do 2 f_equal.
  rewrite (app1_parity n (Cr j) _ _ _ Hj E3), (app1_parity n (An i) _ _ _ Hi E2).
  psolve (nocc d 0 n).
Qed.

Lemma word_exch_du :
  word (2 * n) (exch_word n i j 1 0) (combine n u d) =
  both n (word n [Cr j; An i] u) (word n [Cr i; An j] d).
Proof.
  unfold exch_word. rewrite !Nat.mul_0_l, !Nat.add_0_r, !Nat.mul_1_l. cbn [word].
  rewrite (app1_dw n (An j)) by auto.
  destruct (app1 n (An j) d) as [[z1 d1]|] eqn:E1.
  2: { unfold both. destruct (app1 n (An i) u) as [[z2 u1]|]; auto. destruct (app1 n (Cr j) u1) as [[]|]; auto. }
  rewrite (app1_up n (An i)) by (auto; exact Hi).
  destruct (app1 n (An i) u) as [[z2 u1]|] eqn:E2; [|reflexivity].
  assert (Hu1 := app1_lt_An _ _ _ _ _ Hu E2).
  rewrite (app1_up n (Cr j)) by (auto; exact Hj).
  destruct (app1 n (Cr j) u1) as [[z3 u2]|] eqn:E3; [|reflexivity].
  assert (Hu2 := app1_lt _ (Cr j) _ _ _ Hu1 Hj E3).
  rewrite (app1_dw n (Cr i)) by auto.
  destruct (app1 n (Cr i) d1) as [[z4 d2]|] eqn:E4; [|reflexivity].
  unfold both. do 2 f_equal.
  psolve (nocc d1 0 n).
Qed.

Lemma word_pair_u :
  word (2 * n) (pair_word n i j 0) (combine n u d) =
  both n (word n [Cr i; An j] u) (word n [Cr i; An j] d).
Proof.
  unfold pair_word. rewrite !Nat.mul_0_l, !Nat.add_0_r, !Nat.sub_0_r, !Nat.mul_1_l. cbn [word].
  rewrite (app1_up n (An j)) by (auto; exact Hj).
  destruct (app1 n (An j) u) as [[z1 u1]|] eqn:E1; [|reflexivity].
  assert (Hu1 := app1_lt_An _ _ _ _ _ Hu E1).
  rewrite (app1_dw n (An j)) by auto.
  destruct (app1 n (An j) d) as [[z2 d1]|] eqn:E2; [|unfold both; destruct (app1 n (Cr i) u1) as [[]|]; reflexivity].
  rewrite (app1_dw n (Cr i)) by auto.
  destruct (app1 n (Cr i) d1) as [[z3 d2]|] eqn:E3; [|unfold both; destruct (app1 n (Cr i) u1) as [[]|]; reflexivity].
  rewrite (app1_up n (Cr i)) by (auto; exact Hi).
  destruct (app1 n (Cr i) u1) as [[z4 u2]|] eqn:E4; [|reflexivity].
  unfold both. do 2 f_equal.
  rewrite (app1_parity n (Cr i) _ _ _ Hi E3), (app1_parity n (An j) _ _ _ Hj E2).
  psolve (nocc d 0 n).
Qed.

Lemma word_pair_d :
  word (2 * n) (pair_word n i j 1) (combine n u d) =
  both n (word n [Cr i; An j] u) (word n [Cr i; An j] d).
Proof.
  unfold pair_word. rewrite !Nat.sub_diag, !Nat.mul_0_l, !Nat.add_0_r, !Nat.mul_1_l. cbn [word].
  rewrite (app1_dw n (An j)) by auto.
  destruct (app1 n (An j) d) as [[z1 d1]|] eqn:E1.
  2: { unfold both. destruct (app1 n (An j) u) as [[z2 u1]|]; auto. destruct (app1 n (Cr i) u1) as [[]|]; auto. }
  rewrite (app1_up n (An j)) by (auto; exact Hj).
  destruct (app1 n (An j) u) as [[z2 u1]|] eqn:E2; [|reflexivity].
  assert (Hu1 := app1_lt_An _ _ _ _ _ Hu E2).
  rewrite (app1_up n (Cr i)) by (auto; exact Hi).
  destruct (app1 n (Cr i) u1) as [[z3 u2]|] eqn:E3; [|reflexivity].
  assert (Hu2 := app1_lt _ (Cr i) _ _ _ Hu1 Hi E3).
  rewrite (app1_dw n (Cr i)) by auto.
  destruct (app1 n (Cr i) d1) as [[z4 d2]|] eqn:E4; [|reflexivity].
  unfold both. do 2 f_equal.
  psolve (nocc d1 0 n).
Qed.

End Two.

(** Words acting on one species only. *)
Lemma word_dw n l u d : (u < 2 ^ N.of_nat n)%N ->
  word (2 * n) (map (dw_op n) l) (combine n u d) =
  match word n l d with Some (z, d') => Some (z, combine n u d') | None => None end.
Proof.
  intros Hu. induction l as [|o l IH]; cbn [map word]; auto.
  rewrite IH. destruct (word n l d) as [[z d1]|]; auto.
  rewrite app1_dw by auto. destruct (app1 n o d1) as [[z2 d2]|]; auto.
Qed.

Lemma word_lt n l s z t : (s < 2 ^ N.of_nat n)%N -> Forall (op_lt n) l ->
  word n l s = Some (z, t) -> (t < 2 ^ N.of_nat n)%N.
Proof.
  intros Hs Hl. revert z t. induction Hl as [|o l Ho Hl IH]; intros z t; cbn [word].
  - intros E; inversion E; now subst.
  - destruct (word n l s) as [[z1 u]|]; [|discriminate].
    destruct (app1 n o u) as [[z2 v]|] eqn:E; [|discriminate]. intros E'; inversion E'; subst.
    apply (app1_lt n o u z2 t); eauto. destruct o; auto.
Qed.

Fixpoint parity_pow (z : Z) (m : nat) : Z := match m with O => 1 | S m => (z * parity_pow z m)%Z end.

Lemma word_up n l u d : (u < 2 ^ N.of_nat n)%N -> Forall (op_lt n) l ->
  word (2 * n) l (combine n u d) =
  match word n l u with
  | Some (z, u') => Some ((z * parity_pow (parity_sign (nocc d 0 n)) (length l))%Z, combine n u' d)
  | None => None
  end.
Proof.
  intros Hu Hl. induction Hl as [|o l Ho Hl IH]; cbn [word length parity_pow]; auto.
  rewrite IH. destruct (word n l u) as [[z u1]|] eqn:E; auto.
  rewrite app1_up by (auto; eapply word_lt; eauto).
  destruct (app1 n o u1) as [[z2 u2]|]; auto. do 2 f_equal. ring.
Qed.

(** -n_i n_j *)
Lemma word_same n i j s : i < n -> j < n -> i <> j ->
  word n [Cr i; Cr j; An i; An j] s = if occ s i && occ s j then Some ((-1)%Z, s) else None.
Proof.
  intros Hi Hj Hij. cbn [word].
  destruct (app1 n (An j) s) as [[z1 s1]|] eqn:E1.
  2: { cbn [app1] in E1. destruct (occ s j); [discriminate|]. now rewrite andb_false_r. }
  pose proof (app1_toggles _ _ _ _ _ E1) as T1. cbn in T1.
  assert (Oj : occ s j = true) by (cbn [app1] in E1; destruct (occ s j); [auto|discriminate]).
  rewrite Oj, andb_true_r.
  destruct (app1 n (An i) s1) as [[z2 s2]|] eqn:E2.
  2: { cbn [app1] in E2. rewrite (T1 i) in E2.
       replace (i =? j) with false in E2 by (symmetry; now apply Nat.eqb_neq).
       destruct (occ s i); [discriminate|reflexivity]. }
  pose proof (app1_toggles _ _ _ _ _ E2) as T2. cbn in T2.
  assert (Oi : occ s i = true).
  { cbn [app1] in E2. rewrite (T1 i) in E2.
    replace (i =? j) with false in E2 by (symmetry; now apply Nat.eqb_neq).
    destruct (occ s i); [auto|discriminate]. }
  rewrite Oi.
  assert (O2j : occ s2 j = false).
  { rewrite (T2 j), (T1 j). replace (j =? i) with false by (symmetry; apply Nat.eqb_neq; lia).
    now rewrite Nat.eqb_refl, Oj. }
  destruct (app1 n (Cr j) s2) as [[z3 s3]|] eqn:E3; [|cbn [app1] in E3; rewrite O2j in E3; discriminate].
  pose proof (app1_toggles _ _ _ _ _ E3) as T3. cbn in T3.
  assert (O3i : occ s3 i = false).
  { rewrite (T3 i), (T2 i), (T1 i). replace (i =? j) with false by (symmetry; now apply Nat.eqb_neq).
    now rewrite Nat.eqb_refl, Oi. }
  destruct (app1 n (Cr i) s3) as [[z4 s4]|] eqn:E4; [|cbn [app1] in E4; rewrite O3i in E4; discriminate].
  pose proof (app1_toggles _ _ _ _ _ E4) as T4. cbn in T4.
  f_equal. f_equal.
  - cbn [app1] in E1, E2, E3, E4. rewrite Oj in E1. rewrite O2j in E3. rewrite O3i in E4.
    rewrite (T1 i) in E2. replace (i =? j) with false in E2 by (symmetry; now apply Nat.eqb_neq).
    rewrite Oi in E2. inversion E1. inversion E2. inversion E3. inversion E4. clear E1 E2 E3 E4.
    assert (P3 : z3 = (if (S j <=? i)%nat then - z1 else z1)%Z).
    { rewrite <- H4, <- H0.
      rewrite (parity_toggle s1 s2 i (S j) n T2). replace (i <? n) with true by (symmetry; now apply Nat.ltb_lt).
      rewrite andb_true_r. now rewrite (parity_toggle_out s s1 j (S j) n T1) by lia. }
    assert (P4 : z4 = (if (S i <=? j)%nat then - z2 else z2)%Z).
    { rewrite <- H6, <- H2.
      rewrite (parity_toggle s2 s3 j (S i) n T3). replace (j <? n) with true by (symmetry; now apply Nat.ltb_lt).
      rewrite andb_true_r. now rewrite (parity_toggle_out s1 s2 i (S i) n T2) by lia. }
    assert (Q1 : (z1 * z1 = 1)%Z) by (rewrite <- H0; apply parity_sq).
    assert (Q2 : (z2 * z2 = 1)%Z) by (rewrite <- H2; apply parity_sq).
    destruct (Nat.leb_spec (S j) i), (Nat.leb_spec (S i) j); try lia; rewrite P3, P4;
      match goal with |- ?l = _ => replace l with (- ((z1 * z1) * (z2 * z2)))%Z by ring end;
      rewrite Q1, Q2; reflexivity.
  - apply occ_ext. intros k. specialize (T4 k). specialize (T3 k). specialize (T2 k). specialize (T1 k).
    destruct (k =? i), (k =? j); rewrite T4, T3, T2, T1; rewrite ?negb_involutive; auto.
Qed.
