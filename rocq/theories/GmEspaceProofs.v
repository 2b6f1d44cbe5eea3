(** From the one-body matrix to the Green's functions: a complete run of
    build_espace for free electrons provides the hypotheses of the resolvent. *)
From Coq Require Import String Reals List Arith NArith ZArith Bool Lia Lra Psatz Ring Sorted.
From Verif Require Import Base RBase RLin CBase OperatorsModel OperatorsSpec LookupModel SectorModel SectorSpec SectorProofs FockSpec FockProofs LocalModel LocalSpec HoppingModel
  CsrSpec NonLocalModel NonLocalSpec MatvecModel MatvecSpec MatvecProofs MbModel MbSpec MbProofs EspaceModel EspaceSpec EspaceProofs EspaceEigProofs
  ProjModel ProjSpec ProjProofs ProjFinalProofs CfModel GfModel GfSpec GfProofs GfSumProofs GfMoreProofs GmModel GmSpec GmFockProofs GmProofs GmFreeProofs GmEomProofs.
Import ListNotations.
Local Open Scope R_scope.

(** The number operator. *)
Lemma elem_num m i t s : (i < m)%nat -> elem m [Cr i; An i] t s = if N.eqb t s && occ s i then 1%Z else 0%Z.
Proof.
  intros Hi. unfold elem. cbn [word app1]. destruct (occ s i) eqn:O; [|now rewrite andb_false_r].
  pose proof (toggles_clearbit s i O) as T. rewrite (T i), Nat.eqb_refl, O. cbn [negb].
  assert (Q : N.setbit (N.clearbit s (N.of_nat i)) (N.of_nat i) = s).
  { apply occ_ext. intros k. rewrite occ_setbit, occ_clearbit. destruct (Nat.eqb_spec k i) as [->|]; cbn; auto. }
  rewrite Q, (parity_toggle_out s _ i (S i) m T) by lia. rewrite Z.mul_1_r, parity_sq, (N.eqb_sym t s), andb_true_r. reflexivity.
Qed.

Section Free.
Variables (big : R -> bool) (half : R) (n : nat) (h : hmat RRing) (fl : hflags) (V : inter RRing) (hf : bool) (mu : R) (z : option (nat -> R)).
Variable U : nat -> nat -> R.
Hypothesis HU : inter_U RRing V = Some U. Hypothesis HU0 : forall i j, (i < n)%nat -> (j < n)%nat -> U i j = 0.
Hypothesis HJx : inter_Jx RRing V = None. Hypothesis HJp : inter_Jp RRing V = None.
Notation h1 := (one_body big mu (hspin RRing h)).

Lemma coupling_0 W t s : coupling RRing n (fun _ _ => 0) W t s = 0.
Proof. apply rsum_0. intros i _. apply rsum_0. intros j _. apply Rmult_0_l. Qed.
Lemma free_energy ub db ua da : (ua < 2 ^ N.of_nat n)%N ->
  hamiltonian RRing half (- 1) n (fun s i => hspin RRing h s i i + mu) U (zfun RRing hf z) hf (fun s => offdiag RRing big (hspin RRing h s))
    (opt_offdiag RRing big (inter_Jx RRing V)) (opt_offdiag RRing big (inter_Jp RRing V)) ub db ua da = free_ham n h1 (combine n ub db) (combine n ua da).
Proof.
  intros Hua. unfold hamiltonian. rewrite HJx, HJp. cbn [opt_offdiag]. change (cadd RRing) with Rplus. change (cmul RRing) with Rmult. change (c0 RRing) with 0.
  unfold exch_same, exch_opp, pair_hop. rewrite !coupling_0. change (cadd RRing) with Rplus. change (cmul RRing) with Rmult.
  set (t := combine n ub db). set (u := combine n ua da).
  assert (FE : fock_energy RRing half n (fun i => hspin RRing h 0 i i + mu) (fun i => hspin RRing h 1 i i + mu) U (zfun RRing hf z) hf ua da =
    rsum n (fun i => (hspin RRing h 0 i i + mu) * num RRing ua i) + rsum n (fun i => (hspin RRing h 1 i i + mu) * num RRing da i)).
  { unfold fock_energy. cbv zeta. change (cadd RRing) with Rplus. change (cmul RRing) with Rmult. change (csub RRing) with Rminus. change (c0 RRing) with 0. change (@nsum RRing) with rsum.
    rewrite (rsum_0 n (fun i => U i i * _)) by (intros; rewrite HU0 by auto; apply Rmult_0_l).
    rewrite (rsum_0 n (fun i => rsum n _)) by (intros i Hi; apply rsum_0; intros j Hj; destruct (i =? j)%nat; auto; rewrite HU0 by auto; apply Rmult_0_l).
    rewrite rsum_add. match goal with |- ?x = ?y => change (@eq R x y) end. ring. }
  rewrite FE. unfold free_ham. rewrite rsum_S, rsum_S. rewrite (rsum_0 0) by (intros; lia).
  assert (SP : forall s w, (s < 2)%nat -> (forall i, (i < n)%nat -> occ u (i + s * n) = occ w i) -> rsum n (fun x => rsum n (fun y => h1 s x y * @z2k RRing (elem (2 * n) [Cr (x + s * n); An (y + s * n)] t u))) =
    (if N.eqb t u then rsum n (fun i => (hspin RRing h s i i + mu) * num RRing w i) else 0) + hop_op RRing n (offdiag RRing big (hspin RRing h s)) s t u).
  { intros s w Hs Hw. unfold hop_op, coupling. change (@nsum RRing) with rsum. change (cmul RRing) with Rmult.
    transitivity (rsum n (fun x => if N.eqb t u then (hspin RRing h s x x + mu) * num RRing w x else 0) +
      rsum n (fun x => rsum n (fun y => offdiag RRing big (hspin RRing h s) x y * @z2k RRing (elem (2 * n) [Cr (x + s * n); An (y + s * n)] t u)))).
    - rewrite <- rsum_add. apply rsum_ext. intros x Hx.
      transitivity (rsum n (fun y => (if (y =? x)%nat then (if N.eqb t u then (hspin RRing h s x x + mu) * num RRing w x else 0) else 0) +
        offdiag RRing big (hspin RRing h s) x y * @z2k RRing (elem (2 * n) [Cr (x + s * n); An (y + s * n)] t u))).
      + apply rsum_ext. intros y Hy. unfold one_body, offdiag. change (c0 RRing) with 0. rewrite (Nat.eqb_sym y x). destruct (Nat.eqb_spec x y) as [->|NE]; cbn [negb andb].
        * rewrite elem_num by nia. rewrite (Hw y Hy). unfold num. destruct (N.eqb t u), (occ w y); cbn [andb]; change (@z2k RRing 1%Z) with 1; change (@z2k RRing 0%Z) with 0;
          change (c1 RRing) with 1; change (c0 RRing) with 0; ring.
        * rewrite Rplus_0_l. reflexivity.
      + rewrite rsum_add. f_equal. rewrite (rsum_single n _ x Hx); [now rewrite Nat.eqb_refl|]. intros y _ N. destruct (Nat.eqb_spec y x); [congruence|reflexivity].
    - f_equal. destruct (N.eqb t u); [reflexivity|]. apply rsum_0. auto. }
  rewrite (SP 0%nat ua), (SP 1%nat da); try lia.
  - match goal with |- ?x = ?y => change (@eq R x y) end. destruct (N.eqb t u); ring.
  - intros i Hi. unfold u. rewrite occ_combine by auto. destruct (Nat.ltb_spec (i + 1 * n) n); [lia|]. f_equal. lia.
  - intros i Hi. unfold u. rewrite occ_combine by auto. destruct (Nat.ltb_spec (i + 0 * n) n); [|lia]. f_equal. lia.
Qed.

Variable leb : R -> R -> bool.
Variable eigh : dense RRing -> res (list R * list (list R)).
Variable eigsh : nat -> Z -> (list R -> res (list R)) -> res (list R * list (list R)).
Hypothesis LT : forall a b, leb a b = true \/ leb b a = true. Hypothesis LTr : forall a b c, leb a b = true -> leb b c = true -> leb a c = true.
Hypothesis Hn : (1 < n)%nat. Hypothesis Hn' : (n <= 32)%nat. Hypothesis Hh2 : half + half = 1.
Hypothesis HS : forall sp, symm RRing n (hspin RRing h sp). Hypothesis Hset : settable RRing h fl = true.
Hypothesis HE : eigh_sound RRing eigh. Hypothesis HA : eigsh_sound RRing eigsh. Hypothesis HC : eigh_complete eigh.

Lemma one_body_sym s x y : (s < 2)%nat -> (x < n)%nat -> (y < n)%nat -> h1 s x y = h1 s y x.
Proof. intros Hs Hx Hy. unfold one_body. rewrite (Nat.eqb_sym y x). destruct (Nat.eqb_spec x y) as [->|]; auto. now rewrite (HS s x y Hx Hy). Qed.

Lemma foldM_all {A B} (f : B -> A -> res B) l b r : foldM f l b = Ok r -> forall a, In a l -> exists b' r', f b' a = Ok r'.
Proof.
  revert b. induction l as [|x l IH]; intros b E a Ha; [destruct Ha|]. cbn [foldM] in E. destruct (f b x) as [b1|] eqn:Q; [|discriminate].
  cbn [bind] in E. destruct Ha as [->|Ha]; eauto.
Qed.

Variables (esp : espace RRing) (egs : option R).
Hypothesis HB : build_espace RRing leb big half eigh eigsh n h fl V hf mu z None "sz" = Ok (esp, egs).

(** A stored sector: states, values, vectors. *)
Lemma stored p q s : In ([p; q], s) esp -> (p <= n)%nat /\ (q <= n)%nat /\ is_sector RRing n p q s /\ eigenbasis s /\
  forall k a, (k < nvals s)%nat -> (a < sdim RRing s)%nat ->
    rsum (sdim RRing s) (fun b => free_ham n h1 (basis RRing n s a) (basis RRing n s b) * nth b (vec RRing s k) 0) = energy s k * nth a (vec RRing s k) 0.
Proof.
  intros I.
  destruct (build_espace_spec RRing leb LT LTr big half eigh eigsh n h fl V hf mu z None "sz" esp egs HB) as (sym & req & ES & ER & _ & HI & HAns & _).
  change (symmetry_of "sz") with (Ok SymSz) in ES. injection ES as <-.
  assert (Q : qvalid SymSz n [p; q]) by (apply HI, in_map_iff; exists ([p; q], s); auto).
  destruct Q as (p0 & q0 & E0 & Hp & Hq). injection E0 as <- <-. split; [exact Hp|]. split; [exact Hq|].
  destruct (stored_eigenpairs RRing leb big half eigh eigsh n h fl V hf mu z U None "sz" esp egs Hn Hn' Hh2 HU ltac:(auto) HS ltac:(rewrite HJx; exact Logic.I) ltac:(rewrite HJp; exact Logic.I)
    Hset HE HA LT LTr eq_refl HB _ _ I) as (p1 & q1 & up & dw & c & E1 & GU & GD & SS & SV & EIG). injection E1 as <- <-.
  destruct (HAns _ _ I) as (k & c' & QS & QK & _ & SOL & SV' & _). rewrite SV in SV'. injection SV' as <-.
  destruct (espace_dims n None "sz" SymSz eq_refl) as (req' & ER' & _ & DIM). rewrite ER in ER'. injection ER' as <-.
  rewrite (DIM [p; q]) in QK by (exists p, q; auto). apply (f_equal (fun o => match o with Some v => v | None => 0%Z end)) in QK. cbv beta iota in QK. subst k.
  destruct (qns_states_ok RRing leb big eigsh n mu SymSz [p; q] Hn' ltac:(exists p, q; auto)) as (st & QS' & SD). rewrite QS in QS'. injection QS' as <-.
  rewrite SS in SD, SOL. cbn [states_dim] in SD.
  assert (UPS : ups RRing s = up /\ dws RRing s = dw) by (unfold ups, dws; rewrite SS; auto). destruct UPS as [UPS DWS].
  unfold solve_sector in SOL. cbv zeta in SOL. cbn [states_dim] in SOL. rewrite SD, Z.eqb_refl in SOL. cbn [orb] in SOL.
  destruct (solve_lapack RRing big half eigh n h fl V hf mu z (StSz up dw)) as [[vals cols]|] eqn:EL; [|discriminate].
  cbn [bind] in SOL. rewrite Z.ltb_irrefl in SOL. injection SOL as SOL1 SOL2.
  unfold solve_lapack, sector_ops in EL.
  destruct (build_mb_ham RRing big half n h fl V (StSz up dw) hf mu z) as [[[ops w]|] f] eqn:EB; [|discriminate].
  cbn [fst bind] in EL. destruct (todense RRing ops) as [D|] eqn:ED; [|discriminate]. cbn [bind] in EL.
  assert (SEC : sector_of n (StSz up dw)) by (split; [auto|]; exists p, q; auto).
  destruct (mb_symmetric RRing big half n h fl V (StSz up dw) hf mu z ops w f D ltac:(lia) SEC Hh2 HS ltac:(rewrite HJx; exact Logic.I) ltac:(rewrite HJp; exact Logic.I) EB ED) as (DR & DC & DS).
  destruct (HC D vals cols ltac:(congruence) ltac:(rewrite DR; exact DS) EL) as (LV & LC & ON). rewrite DR in LV, LC, ON. cbn [states_dim] in LV, LC, ON.
  rewrite SOL1 in LV. rewrite SOL2 in LC, ON.
  assert (SDIM : sdim RRing s = (length up * length dw)%nat) by (unfold sdim; rewrite UPS, DWS; apply Nat.mul_comm).
  assert (VEC : forall k, vec RRing s k = nth k c []) by (intros k; unfold vec; now rewrite SV).
  assert (PAIR : forall k, (k < nvals s)%nat -> is_eigenpair RRing big half n h V hf mu z U up dw (energy s k) (vec RRing s k)).
  { intros k Hk. unfold nvals in Hk. apply (EIG k); [apply nth_error_nth'; exact Hk|]. rewrite VEC. apply nth_error_nth'. exact (eq_ind_r (fun m => (k < m)%nat) Hk (eq_trans LC (eq_sym LV))). }
  split; [|split].
  - split; [exact Hp|]. split; [exact Hq|]. split; [exact Hn'|]. rewrite UPS, DWS. split; [exact SS|]. split; [exact GU|]. split; [exact GD|].
    exists c. split; [exact SV|]. split; [exact (eq_trans LC (eq_sym LV))|]. intros x Hx. apply (In_nth _ _ []) in Hx. destruct Hx as (k & Hk & <-). rewrite <- VEC. apply PAIR. unfold nvals. exact (eq_ind_r (fun m => (k < m)%nat) Hk (eq_trans LV (eq_sym LC))).
  - split; [unfold nvals; rewrite SDIM; exact LV|]. rewrite SDIM. intros j k Hj Hk. rewrite <- (ON j k Hj Hk). apply rsum_ext. intros i _. now rewrite !VEC.
  - intros k a Hk Ha. destruct (PAIR k Hk) as [LVk EQ]. rewrite SDIM in Ha |- *.
    assert (LU : (0 < length up)%nat) by nia.
    assert (A1 : (a mod length up < length up)%nat) by (apply Nat.mod_upper_bound; lia).
    assert (A2 : (a / length up < length dw)%nat) by (apply Nat.div_lt_upper_bound; lia).
    specialize (EQ (a mod length up) (a / length up) _ _ (nth_error_nth' up 0%N A1) (nth_error_nth' dw 0%N A2))%nat.
    replace (a mod length up + a / length up * length up)%nat with a in EQ by (rewrite (Nat.div_mod a (length up)) at 1 by lia; lia).
    etransitivity; [|exact EQ].
    assert (BA : basis RRing n s a = combine n (nth (a mod length up) up 0%N) (nth (a / length up) dw 0%N)) by (unfold basis; now rewrite UPS, DWS).
    assert (UB : forall j, (j < length up)%nat -> (nth j up 0%N < 2 ^ N.of_nat n)%N) by (intros j Hj; now apply (in_states n p _ _ Hp Hn' GU)).
    rewrite (Nat.mul_comm (length up)). unfold rsum. rewrite (nsum_mul RRing). apply (nsum_ext RRing). intros kb Hkb. apply (nsum_ext RRing). intros jb Hjb.
    assert (BB : basis RRing n s (jb + kb * length up) = combine n (nth jb up 0%N) (nth kb dw 0%N)).
    { unfold basis. rewrite UPS, DWS. destruct (divmod (jb + kb * length up) _ jb kb Hjb eq_refl) as [-> ->]. reflexivity. }
    rewrite BA, BB. rewrite (ham_sym n h1 one_body_sym). apply f_equal2; [|reflexivity]. symmetry. apply free_energy. auto.
Qed.

Lemma all_stored p q : (p <= n)%nat -> (q <= n)%nat -> exists s, In ([p; q], s) esp.
Proof.
  intros Hp Hq.
  destruct (build_espace_spec RRing leb LT LTr big half eigh eigsh n h fl V hf mu z None "sz" esp egs HB) as (sym & req & ES & ER & _ & HI & HAns & _).
  change (symmetry_of "sz") with (Ok SymSz) in ES. injection ES as <-.
  enough (X : In [p; q] (map fst esp)) by (apply in_map_iff in X; destruct X as ([k s] & <- & I); exists s; exact I).
  apply HI. assert (QV : qvalid SymSz n [p; q]) by (exists p, q; auto). split; [exact QV|].
  pose proof HB as HB'. unfold build_espace in HB'. change (symmetry_of "sz") with (Ok SymSz) in HB'. cbn [bind] in HB'. rewrite ER in HB'. cbn [bind] in HB'.
  destruct (foldM_all _ _ _ _ HB' [p; q] ltac:(now apply in_iter)) as (acc & r & E).
  destruct (espace_dims n None "sz" SymSz eq_refl) as (req' & ER' & _ & DIM). rewrite ER in ER'. injection ER' as <-. specialize (DIM [p; q] QV).
  destruct (qns_states_ok RRing leb big eigsh n mu SymSz [p; q] Hn' QV) as (st & QS & SD).
  unfold espace_step in E. rewrite QS in E. cbn [bind] in E. rewrite (qpos_index SymSz n [p; q] QV), (pyget_ok _ _ _ DIM) in E. cbn [bind] in E.
  assert (D0 : (0 < qdim n [p; q])%nat).
  { cbn [qdim]. pose proof (binom_pos n p Hp). pose proof (binom_pos n q Hq). nia. }
  destruct (Z.eqb_spec (Z.of_nat (qdim n [p; q])) 0) as [Z0|_]; [lia|].
  destruct (solve_sector RRing big half eigh eigsh n h fl V hf mu z st (Some (Z.of_nat (qdim n [p; q])))) as [[vals cols]|] eqn:SOL; [|discriminate].
  exists (mksct RRing st vals (Cols RRing cols)). exists (Z.of_nat (qdim n [p; q])), cols. cbn [s_states s_vals s_vecs].
  split; [exact QS|]. split; [exact DIM|]. split; [lia|]. split; [exact SOL|]. split; [reflexivity|]. intros V0. subst vals.
  pose proof SOL as SOL'. unfold solve_sector in SOL'. cbv zeta in SOL'. rewrite SD, Z.eqb_refl in SOL'. cbn [orb] in SOL'.
  destruct (solve_lapack RRing big half eigh n h fl V hf mu z st) as [[vals' cols']|] eqn:EL; [|discriminate].
  cbn [bind] in SOL'. rewrite Z.ltb_irrefl in SOL'. injection SOL' as -> ->.
  unfold solve_lapack, sector_ops in EL.
  destruct (build_mb_ham RRing big half n h fl V st hf mu z) as [[[ops w]|] f] eqn:EB; [|discriminate].
  cbn [fst bind] in EL. destruct (todense RRing ops) as [D|] eqn:ED; [|discriminate]. cbn [bind] in EL.
  assert (SEC : sector_of n st).
  { cbn [qns_states] in QS. destruct (generate_states n p) as [up|] eqn:GU; [|discriminate]. cbn [bind] in QS. destruct (generate_states n q) as [dw|] eqn:GD; [|discriminate].
    cbn [bind] in QS. injection QS as <-. split; [auto|]. exists p, q. auto. }
  destruct (mb_symmetric RRing big half n h fl V st hf mu z ops w f D ltac:(lia) SEC Hh2 HS ltac:(rewrite HJx; exact Logic.I) ltac:(rewrite HJp; exact Logic.I) EB ED) as (DR & DC & DS).
  destruct (HC D [] cols ltac:(congruence) ltac:(rewrite DR; exact DS) EL) as (LV & _). cbn [length] in LV. lia.
Qed.

Theorem free_espace : exists F, lists_family n esp F /\ (forall p q, (p <= n)%nat -> (q <= n)%nat -> eigenbasis (F p q)) /\ free_pairs n h1 F.
Proof.
  assert (ND : NoDup (map fst esp)).
  { destruct (build_espace_spec RRing leb LT LTr big half eigh eigsh n h fl V hf mu z None "sz" esp egs HB) as (sym & req & _ & _ & SS & _).
    induction SS as [|k l H IH Q]; constructor; auto. intros Hk. rewrite Forall_forall in Q. exact (qless_irrefl k (Q k Hk)). }
  assert (KEY : forall key s, In (key, s) esp -> exists p q, key = [p; q]).
  { intros key s I. destruct (build_espace_spec RRing leb LT LTr big half eigh eigsh n h fl V hf mu z None "sz" esp egs HB) as (sym & req & ES & _ & _ & HI & _).
    change (symmetry_of "sz") with (Ok SymSz) in ES. injection ES as <-.
    assert (Q : qvalid SymSz n key) by (apply HI, in_map_iff; exists (key, s); auto). destruct Q as (p & q & -> & _). eauto. }
  assert (UNI : forall key s s', In (key, s) esp -> In (key, s') esp -> s = s').
  { clear - ND. induction esp as [|[k x] l IH]; intros key s s' H H'; [destruct H|]. cbn [map fst] in ND. inversion ND as [|? ? NI ND']; subst.
    destruct H as [E|H], H' as [E'|H'].
    - congruence.
    - injection E as -> ->. exfalso. apply NI. apply in_map_iff. exists (key, s'). auto.
    - injection E' as -> ->. exfalso. apply NI. apply in_map_iff. exists (key, s). auto.
    - eauto. }
  set (F := fun p q => match es_find esp [p; q] with Some s => s | None => mksct RRing (StN []) [] (Cols RRing []) end).
  assert (FV : forall p q s, In ([p; q], s) esp -> F p q = s).
  { intros p q s I. unfold F, es_find. match goal with |- context[find ?f esp] => destruct (find f esp) as [[k x]|] eqn:E end.
    - apply find_some in E. destruct E as [I' E]. cbn [fst snd] in *. destruct (list_eq_dec _ k [p; q]) as [->|]; [|discriminate]. now apply (UNI [p; q]).
    - exfalso. apply (find_none _ _ E) in I. cbn [fst] in I. destruct (list_eq_dec _ [p; q] [p; q]); [discriminate|congruence]. }
  exists F. assert (ST : forall p q, (p <= n)%nat -> (q <= n)%nat -> In ([p; q], F p q) esp).
  { intros p q Hp Hq. destruct (all_stored p q Hp Hq) as [s I]. now rewrite (FV p q s I). }
  split; [split; [exact ND|split]|split].
  - intros key s. split.
    + intros I. destruct (KEY key s I) as (p & q & ->). destruct (stored p q s I) as (Hp & Hq & _). exists p, q. rewrite (FV p q s I). auto.
    + intros (p & q & Hp & Hq & -> & ->). auto.
  - intros p q Hp Hq. now apply (stored p q (F p q) (ST p q Hp Hq)).
  - intros p q Hp Hq. now apply (stored p q (F p q) (ST p q Hp Hq)).
  - intros p q Hp Hq k a Hk Ha. now apply (stored p q (F p q) (ST p q Hp Hq)).
Qed.

Theorem free_pipeline s beta e0 : (s <= 1)%nat -> exists g, build_gf2_exact n esp beta e0 (Z.of_nat s) = Ok g /\
  forall e eta, im (zpoint e eta) <> 0 -> exists G, gm_call g e eta = Ok G /\ length G = n /\ (forall r, In r G -> length r = n) /\
    inverse_mat n (entry G) (shifted_mat (zpoint e eta) (h1 s)).
Proof.
  intros Hs. destruct free_espace as (F & HF & EB & HP). exact (gm_free n esp F beta e0 s h1 HF Hs EB one_body_sym HP).
Qed.
End Free.
(** The tail of the matrix: sums of the stored weights. *)
Theorem gm_weights_sum n es F beta egs s : lists_family n es F -> (s <= 1)%nat -> (forall p q, (p <= n)%nat -> (q <= n)%nat -> eigenbasis (F p q)) ->
  exists g, build_gf2_exact n es beta egs (Z.of_nat s) = Ok g /\
  forall x y, (x < n)%nat -> (y < n)%nat -> rsum (length (gf_q (gm_gf g x y))) (fun k => nth k (gf_q (gm_gf g x y)) 0) = if (x =? y)%nat then gf_Z (gm_gf g x y) else 0.
Proof.
  intros HF Hs HB. destruct (gm_entries n es F beta egs s HF Hs) as (g & E & _ & L & H). exists g. split; [exact E|]. intros x y Hx Hy. destruct (L x y) as [L1 ->].
  rewrite L1. etransitivity; [exact (H RRing (fun q _ => q) x y Hx Hy)|]. exact (gm_sum_rule n es F beta egs s HF Hs HB x y Hx Hy).
Qed.
(** Symmetry, and agreement of the diagonal with build_gf_exact. *)
Theorem gm_consistent n es F beta egs : lists_family n es F ->
  (forall s, (s <= 1)%nat -> exists g, build_gf2_exact n es beta egs (Z.of_nat s) = Ok g /\ forall e eta, exists G, gm_call g e eta = Ok G /\
     forall x y, (x < n)%nat -> (y < n)%nat -> entry G x y = entry G y x) /\
  exists g, build_gf2_exact n es beta egs 0%Z = Ok g /\ forall x, (x < n)%nat -> exists g1, build_gf_exact n es beta egs x 0%Z = Ok g1 /\
     forall e eta, exists G, gm_call g e eta = Ok G /\ gf_call g1 e eta = Ok (entry G x x).
Proof.
  intros HF. assert (EN : forall f x y, (x < n)%nat -> (y < n)%nat -> entry (map (fun x => map (fun y => f x y) (seq 0 n)) (seq 0 n)) x y = f x y).
  { intros f x y Hx Hy. unfold entry. rewrite (nth_indep _ [] ((fun x => map (fun y => f x y) (seq 0 n)) 0%nat)) by (now rewrite map_length, seq_length).
    rewrite (map_nth (fun x => map (fun y => f x y) (seq 0 n))), seq_nth by auto. rewrite (nth_indep _ _ ((f (0 + x)%nat) 0%nat)) by (now rewrite map_length, seq_length).
    rewrite (map_nth (f (0 + x)%nat)), seq_nth by auto. reflexivity. }
  split.
  - intros s Hs. destruct (gm_lehmann n es F beta egs s HF Hs) as (g & E & _ & H). exists g. split; [exact E|]. intros e eta. eexists. split; [apply H|].
    intros x y Hx Hy. rewrite !EN by auto. now rewrite lehmann_sym.
  - destruct (gm_lehmann n es F beta egs 0 HF ltac:(lia)) as (g & E & _ & H). exists g. split; [exact E|]. intros x Hx.
    destruct (gf_exact_lehmann n es F beta egs x HF Hx) as (g1 & E1 & H1). exists g1. split; [exact E1|]. intros e eta. eexists. split; [apply H|].
    rewrite EN by auto. rewrite lehmann_diag. apply H1.
Qed.
