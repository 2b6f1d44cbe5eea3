(** Proofs about the cotunnelling integrals. *)
From Coq Require Import Reals List Bool Lia Lra Psatz Permutation.
From Verif Require Import Base RBase CBase IntModel IntSpec DmftProofs.
Import ListNotations.
Local Open Scope R_scope.

Lemma Rltb_false a b : b <= a -> Rltb a b = false.
Proof. intros H. unfold Rltb. destruct (Rlt_dec a b); [lra|reflexivity]. Qed.
Lemma Rltb_true a b : a < b -> Rltb a b = true.
Proof. intros H. unfold Rltb. destruct (Rlt_dec a b); [reflexivity|lra]. Qed.
Lemma tiny_lt : tiny16 < tiny15.
Proof. unfold tiny16, tiny15. apply Rinv_lt_contravar; [|simpl; lra]. apply Rmult_lt_0_compat; simpl; lra. Qed.
Lemma tiny_pos : 0 < tiny16.
Proof. unfold tiny16. apply Rinv_0_lt_compat. simpl. lra. Qed.

Lemma im_sub a b : im (cxsub a b) = im a - im b.
Proof. destruct a, b. unfold cxsub, cxadd, cxopp, im. cbn [fst snd]. lra. Qed.
Lemma re_sub a b : re (cxsub a b) = re a - re b.
Proof. destruct a, b. unfold cxsub, cxadd, cxopp, re. cbn [fst snd]. lra. Qed.
Lemma re_add a b : re (cxadd a b) = re a + re b.
Proof. destruct a, b. unfold cxadd, re. cbn [fst snd]. lra. Qed.

Section Fixed.
Variable psi : nat -> cx -> cx.
Variables (mu : R * R) (beta : R).
Notation x := (bias mu beta).

Lemma I1_square A e : I1 psi (- A) e mu beta = I1 psi A e mu beta.
Proof. unfold I1. replace ((- A) ^ 2) with (A ^ 2) by ring. reflexivity. Qed.
Lemma I1_regular A e : tiny15 <= Rabs x -> I1 psi A e mu beta = A ^ 2 * direct psi mu beta e.
Proof.
  intros H. pose proof tiny_lt. unfold I1. change ((snd mu - fst mu) * beta) with x. rewrite !Rltb_false by lra.
  unfold direct, Psi, nB, occupation, scaled, Rdiv. rewrite Rmult_1_l. rewrite im_sub. ring.
Qed.
Lemma I2_regular A B e e' : tiny15 <= Rabs x -> e <> e' -> I2 psi A B e e' mu beta = Ok (A * B * interference psi mu beta e e').
Proof.
  intros H Hne. pose proof tiny_lt. unfold I2. change ((snd mu - fst mu) * beta) with x. rewrite !Rltb_false by lra. destruct (Req_EM_T e e'); [lra|]. f_equal.
  unfold interference, mixed, Psi, nB, occupation, scaled, Rdiv. rewrite Rmult_1_l. rewrite re_add, !re_sub. ring.
Qed.
Lemma I2_swap A B e e' : I2 psi A B e e' mu beta = I2 psi B A e' e mu beta.
Proof.
  unfold I2. destruct (Rltb _ _); [reflexivity|]. destruct (Rltb _ _); [reflexivity|]. destruct (Req_EM_T e e'), (Req_EM_T e' e); try congruence. f_equal.
  replace (e' - e) with (- (e - e')) by ring. unfold Rdiv. rewrite Rinv_opp. rewrite !re_add, !re_sub. ring.
Qed.
Lemma I2_neg A B e e' : I2 psi A (- B) e e' mu beta = do v <- I2 psi A B e e' mu beta; Ok (- v).
Proof.
  unfold I2. destruct (Rltb _ _); [cbn; f_equal; ring|]. destruct (Rltb _ _); [reflexivity|]. destruct (Req_EM_T e e'); [reflexivity|]. cbn [bind]. f_equal. unfold Rdiv. ring.
Qed.
(** The four-term integral in terms of the single ones. *)
Lemma Gamma4_expand A B C D a b c d :
  Gamma4 psi A B C D a b c d mu beta =
  do i1 <- I2 psi A B a b mu beta; do i2 <- I2 psi A C a c mu beta; do i3 <- I2 psi A D a d mu beta;
  do i4 <- I2 psi B C b c mu beta; do i5 <- I2 psi B D b d mu beta; do i6 <- I2 psi C D c d mu beta;
  Ok (I1 psi A a mu beta + I1 psi B b mu beta + I1 psi C c mu beta + I1 psi D d mu beta + (i1 + i2 + i3 + i4 + i5 + i6)).
Proof.
  unfold Gamma4, Gamma2. rewrite !I2_neg, !I1_square.
  destruct (I2 psi A B a b mu beta); cbn [bind]; [|reflexivity]. destruct (I2 psi A C a c mu beta); cbn [bind]; [|reflexivity].
  destruct (I2 psi A D a d mu beta); cbn [bind]; [|reflexivity]. destruct (I2 psi B C b c mu beta); cbn [bind]; [|reflexivity].
  destruct (I2 psi B D b d mu beta); cbn [bind]; [|reflexivity]. destruct (I2 psi C D c d mu beta); cbn [bind]; [|reflexivity].
  f_equal. ring.
Qed.
Theorem Gamma4_sum A B C D a b c d : tiny15 <= Rabs x -> NoDup [a; b; c; d] ->
  Gamma4 psi A B C D a b c d mu beta =
  Ok (directs psi mu beta [(A, a); (B, b); (C, c); (D, d)] + pairs psi mu beta [(A, a); (B, b); (C, c); (D, d)]).
Proof.
  intros H N. inversion N as [|? ? N1 N']; subst. inversion N' as [|? ? N2 N'']; subst. inversion N'' as [|? ? N3 _]; subst. cbn [In] in N1, N2, N3.
  rewrite Gamma4_expand, !I2_regular by (intuition congruence). cbn [bind]. rewrite !I1_regular by auto. f_equal. cbn [directs pairs with_each fst snd]. ring.
Qed.
Theorem Gamma2_sum A B a b : tiny15 <= Rabs x -> a <> b ->
  Gamma2 psi A B a b mu beta = Ok (directs psi mu beta [(A, a); (B, b)] + pairs psi mu beta [(A, a); (B, b)]).
Proof.
  intros H N. unfold Gamma2. rewrite I2_regular by auto. cbn [bind]. rewrite !I1_regular by auto. f_equal. cbn [directs pairs with_each fst snd]. ring.
Qed.

Theorem exact_sum l : tiny15 <= Rabs x -> NoDup (map snd l) -> In (length l) [1; 2; 4]%nat ->
  exact psi (map fst l) (map snd l) mu beta = Ok (directs psi mu beta l + pairs psi mu beta l).
Proof.
  intros Hx ND HL. destruct l as [|[A a] [|[B b] [|[C c] [|[D d] [|q l]]]]]; cbn in HL; try (exfalso; lia).
  - cbn. rewrite I1_regular by auto. f_equal. ring.
  - apply Gamma2_sum; auto. inversion_clear ND as [|? ? N _]. intros ->. apply N. now left.
  - now apply Gamma4_sum.
Qed.
Theorem exact_other l : ~ In (length l) [1; 2; 4]%nat -> exact psi (map fst l) (map snd l) mu beta = Err NotImplementedError.
Proof.
  intros H. destruct l as [|[A a] [|[B b] [|[C c] [|[D d] [|q l]]]]]; try reflexivity; exfalso; apply H; cbn; tauto.
Qed.

(** All ways a sum of integrals can fail are the same, so the order is immaterial. *)
Lemma I2_err A B e e' A' B' u u' er : I2 psi A B e e' mu beta = Err er ->
  (exists v, I2 psi A' B' u u' mu beta = Ok v) \/ I2 psi A' B' u u' mu beta = Err er.
Proof.
  unfold I2. destruct (Rltb _ _); [discriminate|]. destruct (Rltb _ _); [intros [= <-]; now right|].
  destruct (Req_EM_T e e'); [|discriminate]. intros [= <-]. destruct (Req_EM_T u u'); [now right|]. left. eexists. reflexivity.
Qed.
Theorem exact_perm l l' : Permutation l l' -> exact psi (map fst l) (map snd l) mu beta = exact psi (map fst l') (map snd l') mu beta.
Proof.
  intros P. pose proof (Permutation_length P) as L.
  destruct l as [|[y1 e1] [|[y2 e2] [|[y3 e3] [|[y4 e4] [|p l]]]]].
  - apply Permutation_nil in P. now subst.
  - apply Permutation_length_1_inv in P. now subst.
  - apply Permutation_length_2_inv in P as [-> | ->]; [reflexivity|]. cbn [map fst snd exact]. unfold Gamma2. rewrite I2_swap. destruct (I2 _ _ _ _ _ _ _); cbn [bind]; [|reflexivity]. f_equal. ring.
  - destruct l' as [|q1 [|q2 [|q3 [|]]]]; try discriminate. reflexivity.
  - clear L. assert (T : forall P0 : list (R * R) -> list (R * R) -> Prop, (forall a b c d, P0 [a; b; c; d] [b; a; c; d]) -> (forall a b c d, P0 [a; b; c; d] [a; c; b; d]) -> (forall a b c d, P0 [a; b; c; d] [a; b; d; c]) ->
      (forall l, P0 l l) -> (forall l l' l'', P0 l l' -> P0 l' l'' -> P0 l l'') -> P0 [(y1, e1); (y2, e2); (y3, e3); (y4, e4)] l').
    { intros P0 S1 S2 S3 R0 T0. revert P. generalize (y1, e1) (y2, e2) (y3, e3) (y4, e4). intros a b c d P.
      pose proof (Permutation_length P) as L. destruct l' as [|p1 [|p2 [|p3 [|p4 [|]]]]]; try discriminate.
      assert (H1 : In p1 [a; b; c; d]) by (apply (Permutation_in p1 (Permutation_sym P)); now left).
      assert (H3 : forall x1 x2 x3 : R * R, Permutation [x1; x2; x3] [p2; p3; p4] -> forall h, P0 [h; x1; x2; x3] [h; p2; p3; p4]).
      { intros x1 x2 x3 Q h. assert (H2 : In p2 [x1; x2; x3]) by (apply (Permutation_in p2 (Permutation_sym Q)); now left).
        destruct H2 as [-> | [-> | [-> | []]]].
        - apply Permutation_cons_inv in Q. apply Permutation_length_2_inv in Q as [Q | Q]; injection Q as -> ->; auto.
        - assert (Q' : Permutation [x1; x3] [p3; p4]) by (apply (Permutation_cons_inv (a := p2)); rewrite <- Q; apply perm_swap).
          apply T0 with [h; p2; x1; x3]; auto. apply Permutation_length_2_inv in Q' as [Q' | Q']; injection Q' as -> ->; auto.
        - assert (Q' : Permutation [x1; x2] [p3; p4]) by (apply (Permutation_cons_inv (a := p2)); rewrite <- Q; eapply perm_trans; [apply perm_swap|apply perm_skip, perm_swap]).
          apply T0 with [h; x1; p2; x2]; auto. apply T0 with [h; p2; x1; x2]; auto. apply Permutation_length_2_inv in Q' as [Q' | Q']; injection Q' as -> ->; auto. }
      destruct H1 as [-> | [-> | [-> | [-> | []]]]].
      - apply H3. now apply Permutation_cons_inv in P.
      - apply T0 with [p1; a; c; d]; auto. apply H3. apply (Permutation_cons_inv (a := p1)). rewrite <- P. apply perm_swap.
      - apply T0 with [a; p1; b; d]; auto. apply T0 with [p1; a; b; d]; auto. apply H3. apply (Permutation_cons_inv (a := p1)). rewrite <- P. eapply perm_trans; [apply perm_swap|]. apply perm_skip, perm_swap.
      - apply T0 with [a; b; p1; c]; auto. apply T0 with [a; p1; b; c]; auto. apply T0 with [p1; a; b; c]; auto. apply H3. apply (Permutation_cons_inv (a := p1)). rewrite <- P.
        eapply perm_trans; [apply perm_swap|]. apply perm_skip. eapply perm_trans; [apply perm_swap|]. apply perm_skip, perm_swap. }
    apply (T (fun l l' => exact psi (map fst l) (map snd l) mu beta = exact psi (map fst l') (map snd l') mu beta)); clear.
    + intros [A a] [B b] [C c] [D d]. cbn [map fst snd exact]. rewrite !Gamma4_expand. rewrite (I2_swap B A b a).
      destruct (I2 psi A B a b mu beta) as [v1|r1] eqn:E1; cbn [bind]; [|reflexivity].
      destruct (I2 psi A C a c mu beta) as [v2|r2] eqn:E2; cbn [bind].
      2: { destruct (I2_err _ _ _ _ B C b c _ E2) as [(w & ->)| ->]; cbn [bind]; [|reflexivity]. destruct (I2_err _ _ _ _ B D b d _ E2) as [(w' & ->)| ->]; reflexivity. }
      destruct (I2 psi A D a d mu beta) as [v3|r3] eqn:E3; cbn [bind].
      2: { destruct (I2_err _ _ _ _ B C b c _ E3) as [(w & ->)| ->]; cbn [bind]; [|reflexivity]. destruct (I2_err _ _ _ _ B D b d _ E3) as [(w' & ->)| ->]; reflexivity. }
      destruct (I2 psi B C b c mu beta) as [v4|r4]; cbn [bind]; [|reflexivity]. destruct (I2 psi B D b d mu beta) as [v5|r5]; cbn [bind]; [|reflexivity].
      destruct (I2 psi C D c d mu beta); cbn [bind]; [|reflexivity]. f_equal. ring.
    + intros [A a] [B b] [C c] [D d]. cbn [map fst snd exact]. rewrite !Gamma4_expand. rewrite (I2_swap C B c b).
      destruct (I2 psi A B a b mu beta) as [v1|r1] eqn:E1; cbn [bind].
      2: { destruct (I2_err _ _ _ _ A C a c _ E1) as [(w & ->)| ->]; reflexivity. }
      destruct (I2 psi A C a c mu beta) as [v2|r2] eqn:E2; cbn [bind]; [|reflexivity].
      destruct (I2 psi A D a d mu beta) as [v3|r3] eqn:E3; cbn [bind]; [|reflexivity].
      destruct (I2 psi B C b c mu beta) as [v4|r4]; cbn [bind]; [|reflexivity].
      destruct (I2 psi B D b d mu beta) as [v5|r5] eqn:E5; cbn [bind].
      2: { destruct (I2_err _ _ _ _ C D c d _ E5) as [(w & ->)| ->]; reflexivity. }
      destruct (I2 psi C D c d mu beta); cbn [bind]; [|reflexivity]. f_equal. ring.
    + intros [A a] [B b] [C c] [D d]. cbn [map fst snd exact]. rewrite !Gamma4_expand. rewrite (I2_swap D C d c).
      destruct (I2 psi A B a b mu beta) as [v1|r1] eqn:E1; cbn [bind]; [|reflexivity].
      destruct (I2 psi A C a c mu beta) as [v2|r2] eqn:E2; cbn [bind].
      2: { destruct (I2_err _ _ _ _ A D a d _ E2) as [(w & ->)| ->]; reflexivity. }
      destruct (I2 psi A D a d mu beta) as [v3|r3] eqn:E3; cbn [bind]; [|reflexivity].
      destruct (I2 psi B C b c mu beta) as [v4|r4] eqn:E4; cbn [bind].
      2: { destruct (I2_err _ _ _ _ B D b d _ E4) as [(w & ->)| ->]; reflexivity. }
      destruct (I2 psi B D b d mu beta) as [v5|r5] eqn:E5; cbn [bind]; [|reflexivity].
      destruct (I2 psi C D c d mu beta); cbn [bind]; [|reflexivity]. f_equal. ring.
    + reflexivity.
    + intros l l1 l2 H1 H2. now rewrite H1.
  - assert (E : forall l : list (R * R), (5 <= length l)%nat -> exact psi (map fst l) (map snd l) mu beta = Err NotImplementedError).
    { intros [|? [|? [|? [|? [|]]]]]; cbn; try lia. reflexivity. }
    rewrite !E; [reflexivity| |]; [rewrite <- L; cbn; lia|cbn; lia].
Qed.

(** Equal potentials. *)
Theorem equal_potentials Y E : fst mu = snd mu -> length Y = length E -> In (length Y) [1; 2; 4]%nat -> exact psi Y E mu beta = Ok 0.
Proof.
  intros Hm HL HI. assert (X : x = 0) by (unfold bias; rewrite Hm; ring).
  assert (Z1 : forall A e, I1 psi A e mu beta = 0). { intros. unfold I1. change ((snd mu - fst mu) * beta) with x. rewrite X, Rabs_R0, Rltb_true by apply tiny_pos. reflexivity. }
  assert (Z2 : forall A B e e', I2 psi A B e e' mu beta = Ok 0). { intros. unfold I2. change ((snd mu - fst mu) * beta) with x. rewrite X, Rabs_R0, Rltb_true by apply tiny_pos. reflexivity. }
  destruct Y as [|y1 [|y2 [|y3 [|y4 [|]]]]], E as [|e1 [|e2 [|e3 [|e4 [|]]]]]; cbn in HL, HI; try lia; try discriminate; cbn [exact].
  - now rewrite Z1.
  - unfold Gamma2. rewrite Z2. cbn [bind]. rewrite !Z1. f_equal. ring.
  - rewrite Gamma4_expand, !Z2. cbn [bind]. rewrite !Z1. f_equal. ring.
Qed.
Lemma Taylor_im t a b : im (Taylor psi 1 t a b beta) = bose_series t * im (psi 1%nat (1 / 2, scaled beta (a - b))).
Proof.
  unfold Taylor, Psi, scaled. cbn zeta. set (k := psi 1%nat _). destruct k as [u v].
  unfold cxdiv, cxinv, cxsub, cxadd, cxopp, cxmul, cxn2, rcx, re, im, bose_series. cbn [fst snd].
  destruct (Req_dec t 0) as [->|H].
  - unfold Rdiv. replace (0 * 0 + 0 * 0) with 0 by ring. rewrite !Rinv_0. ring.
  - field. exact H.
Qed.
Theorem window_single A e : tiny16 <= Rabs x < tiny15 -> exact psi [A] [e] mu beta = Ok (A ^ 2 * direct_near psi mu beta e).
Proof.
  intros H. cbn [exact]. f_equal. unfold I1. change ((snd mu - fst mu) * beta) with x. rewrite Rltb_false by lra. rewrite Rltb_true by lra.
  rewrite im_sub, !Taylor_im. unfold direct_near, Rdiv. ring.
Qed.
Theorem window_fails A B e e' : tiny16 <= Rabs x < tiny15 -> Gamma2 psi A B e e' mu beta = Err TypeError.
Proof.
  intros H. unfold Gamma2, I2. change ((snd mu - fst mu) * beta) with x. rewrite Rltb_false by lra. rewrite Rltb_true by lra. reflexivity.
Qed.
End Fixed.
