(** Proofs about build_mb_ham. *)
From Coq Require Import List Arith NArith ZArith Lia Bool Ring Permutation.
From Verif Require Import Base OperatorsModel OperatorsSpec OperatorsProofs LookupModel LookupSpec LookupProofs SectorModel
  SectorSpec SectorProofs FockSpec FockProofs LocalModel LocalSpec LocalProofs HoppingModel CsrSpec CsrProofs
  HoppingProofs NonLocalModel NonLocalSpec NonLocalFock NonLocalProofs NonLocalSzProofs
  MatvecModel MatvecSpec MatvecProofs MbModel MbSpec.
Import ListNotations.

Section Mb.
Variable K : CRing.
Variable big : K -> bool.
Variable half : K.
Local Open Scope cr_scope.
Add Ring Kring : (cth K).

(** ** One-body words in the 2n-orbital space *)
Lemma elem_hop_up n i j t1 t2 u d : (i < n)%nat -> (j < n)%nat -> (u < 2 ^ N.of_nat n)%N -> (t1 < 2 ^ N.of_nat n)%N ->
  elem (2 * n) [Cr i; An j] (combine n t1 t2) (combine n u d) =
  if N.eqb d t2 then elem n [Cr i; An j] t1 u else 0%Z.
Proof.
  intros Hi Hj Hu Ht. unfold elem.
  assert (Hl : Forall (op_lt n) [Cr i; An j]) by (constructor; [exact Hi|constructor; [exact Hj|constructor]]).
  rewrite word_up by auto.
  destruct (word n [Cr i; An j] u) as [[z u']|] eqn:E; [|now destruct (N.eqb d t2)].
  assert (Hu' := word_lt n _ u z u' Hu Hl E). cbn [length parity_pow].
  assert (Q : (z * (parity_sign (nocc d 0 n) * (parity_sign (nocc d 0 n) * 1)) = z)%Z).
  { transitivity (z * (parity_sign (nocc d 0 n) * parity_sign (nocc d 0 n)))%Z; [ring|]. rewrite parity_sq. ring. }
  rewrite Q. destruct (N.eqb_spec (combine n u' d) (combine n t1 t2)) as [Ec|Ec].
  - apply combine_inj in Ec; auto. destruct Ec as [-> ->]. now rewrite !N.eqb_refl.
  - destruct (N.eqb_spec d t2) as [->|]; auto. destruct (N.eqb_spec u' t1) as [->|]; auto. congruence.
Qed.

Lemma elem_hop_dw n i j t1 t2 u d : (u < 2 ^ N.of_nat n)%N -> (t1 < 2 ^ N.of_nat n)%N ->
  elem (2 * n) [Cr (i + n); An (j + n)] (combine n t1 t2) (combine n u d) =
  if N.eqb u t1 then elem n [Cr i; An j] t2 d else 0%Z.
Proof.
  intros Hu Ht. unfold elem. change [Cr (i + n); An (j + n)] with (map (dw_op n) [Cr i; An j]).
  rewrite word_dw by auto.
  destruct (word n [Cr i; An j] d) as [[z d']|] eqn:E; [|now destruct (N.eqb u t1)].
  destruct (N.eqb_spec (combine n u d') (combine n t1 t2)) as [Ec|Ec].
  - apply combine_inj in Ec; auto. destruct Ec as [-> ->]. now rewrite !N.eqb_refl.
  - destruct (N.eqb_spec u t1) as [->|]; auto. destruct (N.eqb_spec d' t2) as [->|]; auto. congruence.
Qed.

Lemma hop_up_code n T t1 t2 u d : (u < 2 ^ N.of_nat n)%N -> (t1 < 2 ^ N.of_nat n)%N ->
  hop_op K n T 0 (combine n t1 t2) (combine n u d) =
  (if N.eqb d t2 then nsum n (fun i => nsum n (fun j => T i j * z2k (elem n [Cr i; An j] t1 u))) else 0).
Proof.
  intros Hu Ht. unfold hop_op, coupling.
  rewrite (nsum_ext K n _ (fun i => nsum n (fun j =>
    if N.eqb d t2 then T i j * z2k (elem n [Cr i; An j] t1 u) else 0))).
  - destruct (N.eqb d t2); [reflexivity|]. apply nsum_0. intros. now apply nsum_0.
  - intros i Hi. apply nsum_ext. intros j Hj. rewrite !Nat.mul_0_l, !Nat.add_0_r.
    rewrite elem_hop_up by auto. destruct (N.eqb d t2); [reflexivity|]. cbn [z2k]. ring.
Qed.

Lemma hop_dw_code n T t1 t2 u d : (u < 2 ^ N.of_nat n)%N -> (t1 < 2 ^ N.of_nat n)%N ->
  hop_op K n T 1 (combine n t1 t2) (combine n u d) =
  (if N.eqb u t1 then nsum n (fun i => nsum n (fun j => T i j * z2k (elem n [Cr i; An j] t2 d))) else 0).
Proof.
  intros Hu Ht. unfold hop_op, coupling.
  rewrite (nsum_ext K n _ (fun i => nsum n (fun j =>
    if N.eqb u t1 then T i j * z2k (elem n [Cr i; An j] t2 d) else 0))).
  - destruct (N.eqb u t1); [reflexivity|]. apply nsum_0. intros. now apply nsum_0.
  - intros i Hi. apply nsum_ext. intros j Hj. rewrite !Nat.mul_1_l.
    rewrite elem_hop_dw by auto. destruct (N.eqb u t1); [reflexivity|]. cbn [z2k]. ring.
Qed.

Lemma coupling_zero n W t s : coupling K n (fun _ _ => 0) W t s = 0.
Proof. unfold coupling. apply nsum_0. intros. apply nsum_0. intros. ring. Qed.

Lemma coupling_small J W t s n : (n <= 1)%nat -> coupling K n (offdiag K big J) W t s = 0.
Proof.
  intros Hn. apply coupling_nil. intros i j Hi Hj Hij. lia.
Qed.

(** ** Symmetry of the specification *)
Lemma coupling_sym n J W t s : (forall i j, (i < n)%nat -> (j < n)%nat -> J i j = J j i) ->
  (forall i j, rev (map adj (W i j)) = W j i) -> coupling K n J W t s = coupling K n J W s t.
Proof.
  intros HJ HW. unfold coupling. rewrite nsum_swap. apply nsum_ext. intros j Hj. apply nsum_ext. intros i Hi.
  rewrite (HJ i j) by auto. f_equal. f_equal. rewrite elem_adj. now rewrite HW.
Qed.

Lemma hop_sym n T s t st : (forall i j, (i < n)%nat -> (j < n)%nat -> T i j = T j i) ->
  hop_op K n T s t st = hop_op K n T s st t.
Proof. intros HT. apply coupling_sym; auto. Qed.
Lemma exch_same_sym n J t s : (forall i j, (i < n)%nat -> (j < n)%nat -> J i j = J j i) ->
  exch_same K half n J t s = exch_same K half n J s t.
Proof.
  intros HJ. unfold exch_same. f_equal. f_equal; apply coupling_sym; auto.
Qed.
Lemma exch_opp_sym n J t s : (forall i j, (i < n)%nat -> (j < n)%nat -> J i j = J j i) ->
  exch_opp K half n J t s = exch_opp K half n J s t.
Proof.
  intros HJ. unfold exch_opp. f_equal. f_equal; apply coupling_sym; auto.
Qed.
Lemma pair_hop_sym n J t s : (forall i j, (i < n)%nat -> (j < n)%nat -> J i j = J j i) ->
  pair_hop K half n J t s = pair_hop K half n J s t.
Proof.
  intros HJ. unfold pair_hop. f_equal. f_equal; apply coupling_sym; auto.
Qed.

Lemma hamiltonian_sym sgn n e U z hf T Jx Jp ub db ua da :
  (ua < 2 ^ N.of_nat n)%N -> (ub < 2 ^ N.of_nat n)%N ->
  (forall s i j, (i < n)%nat -> (j < n)%nat -> T s i j = T s j i) ->
  (forall i j, (i < n)%nat -> (j < n)%nat -> Jx i j = Jx j i) ->
  (forall i j, (i < n)%nat -> (j < n)%nat -> Jp i j = Jp j i) ->
  hamiltonian K half sgn n e U z hf T Jx Jp ub db ua da = hamiltonian K half sgn n e U z hf T Jx Jp ua da ub db.
Proof.
  intros Ha Hb HT HX HP. unfold hamiltonian.
  rewrite (hop_sym n (T 0%nat)), (hop_sym n (T 1%nat)), exch_same_sym, exch_opp_sym, pair_hop_sym by auto.
  do 5 f_equal. rewrite N.eqb_sym.
  destruct (N.eqb_spec (combine n ua da) (combine n ub db)) as [E|]; auto.
  apply combine_inj in E; auto. now destruct E as [-> ->].
Qed.

Lemma offdiag_sym n J : (forall i j, (i < n)%nat -> (j < n)%nat -> J i j = J j i) ->
  forall i j, (i < n)%nat -> (j < n)%nat -> offdiag K big J i j = offdiag K big J j i.
Proof. intros H i j Hi Hj. unfold offdiag. rewrite (H i j), Nat.eqb_sym by auto. reflexivity. Qed.

(** ** The interaction argument *)
Lemma mb_operators_U n H V U st hf mu z : inter_U K V = Some U ->
  mb_operators K big half n H V st hf mu z =
  (do vec <- build_ham_local K half n H U st hf mu z;
   do hop <- match st with
            | StN _ => Ok ([], true)
            | StSz up dw =>
              if (1 <? n)%nat then
                do m <- build_ham_hopping K big n H st;
                Ok ([OpUp K (fst m) (length dw); OpDw K (snd m) (length up)], false)
              else Ok ([], false)
            end;
   match inter_Jx K V, inter_Jp K V with
   | None, None => Ok (OpLocal K vec :: fst hop, snd hop)
   | _, _ =>
    do r <- build_ham_non_local K big half n (inter_Jx K V) (inter_Jp K V) st vec;
    let '(sp, vec, _) := r in
    Ok (OpLocal K vec :: fst hop ++ [OpNL K sp], snd hop)
   end).
Proof.
  intros HU. unfold mb_operators. destruct V as [U'|U' Jx Jp|]; cbn [inter_U inter_Jx inter_Jp] in *; try discriminate.
  - injection HU as ->. reflexivity.
  - subst. reflexivity.
Qed.

Lemma states_lt n p l s : (p <= n)%nat -> (n <= 32)%nat -> generate_states n p = Ok l -> In s l -> (s < 2 ^ N.of_nat n)%N.
Proof.
  intros Hp Hn G Hs. rewrite generate_states_cand in G by auto. injection G as <-.
  apply cand_In in Hs. apply Hs.
Qed.
Lemma states_nonempty n p l : (p <= n)%nat -> (n <= 32)%nat -> generate_states n p = Ok l -> (0 < length l)%nat.
Proof.
  intros Hp Hn G. destruct (generate_states_spec n p Hp Hn) as [l' [G' [_ [L _]]]].
  rewrite G in G'. injection G' as <-. rewrite L. now apply binom_pos.
Qed.
Lemma states_inj n p l a b s : (p <= n)%nat -> (n <= 32)%nat -> generate_states n p = Ok l ->
  nth_error l a = Some s -> nth_error l b = Some s -> a = b.
Proof.
  intros Hp Hn G Ha Hb. rewrite generate_states_cand in G by auto. injection G as <-.
  eapply increasing_nth_inj; eauto. apply cand_increasing.
Qed.

(** ** Sz symmetry *)
Lemma mb_sz n nup ndw H V U hf mu z up dw : (1 <= n)%nat -> (n <= 32)%nat -> (nup <= n)%nat -> (ndw <= n)%nat ->
  half + half = 1 -> inter_U K V = Some U -> (inter_Jx K V = None -> inter_Jp K V = None) ->
  (forall J, inter_Jx K V = Some J -> forall i j, (i < n)%nat -> (j < n)%nat -> J i j = J j i) ->
  generate_states n nup = Ok up -> generate_states n ndw = Ok dw ->
  exists vec rest, mb_operators K big half n H V (StSz up dw) hf mu z = Ok (OpLocal K vec :: rest, false) /\
    map (fun o => match o with OpLocal _ _ => 0 | OpUp _ _ _ => 1 | OpDw _ _ _ => 2 | OpNL _ _ => 3 end)%nat rest =
      ((if (1 <? n) then [1; 2] else []) ++ (match inter_Jx K V with Some _ => [3] | None => [] end))%nat /\
    length vec = (length up * length dw)%nat /\
    Forall (op_fits K (length up * length dw)) rest /\
    forall ja ka jb kb ua da ub db,
      nth_error up ja = Some ua -> nth_error dw ka = Some da ->
      nth_error up jb = Some ub -> nth_error dw kb = Some db ->
      let a := (ja + ka * length up)%nat in let b := (jb + kb * length up)%nat in
      bsum (fun o => odense K o a b) rest + (if (a =? b)%nat then nth a vec 0 else 0) =
      hamiltonian K half (- (1)) n (fun s i => H s i i + mu) U (zfun K hf z) hf
        (fun s => offdiag K big (H s)) (opt_offdiag K big (inter_Jx K V)) (opt_offdiag K big (inter_Jp K V)) ub db ua da.
Proof.
  intros Hn1 Hn Hu Hd Hh HU HJ HJs Gu Gd.
  rewrite (mb_operators_U n H V U (StSz up dw) hf mu z HU).
  destruct (build_ham_local_sz K half n H U up dw hf mu z) as [v0 [E0 [L0 V0]]]. rewrite E0. cbn [bind].
  fold (zfun K hf z) in V0.
  pose proof (states_nonempty n nup up Hu Hn Gu) as Pu. pose proof (states_nonempty n ndw dw Hd Hn Gd) as Pd.
  set (dup := length up) in *. set (dwn := length dw) in *.
  (* hopping *)
  assert (HH : exists hop, (if (1 <? n)%nat then
                do m <- build_ham_hopping K big n H (StSz up dw);
                Ok ([OpUp K (fst m) dwn; OpDw K (snd m) dup], false)
              else Ok ([], false)) = Ok (hop, false) /\ 
      map (fun o => match o with OpLocal _ _ => 0 | OpUp _ _ _ => 1 | OpDw _ _ _ => 2 | OpNL _ _ => 3 end)%nat hop =
        (if (1 <? n) then [1; 2] else [])%nat /\
      Forall (op_fits K (dup * dwn)) hop /\
      forall ja ka jb kb ua da ub db,
        nth_error up ja = Some ua -> nth_error dw ka = Some da ->
        nth_error up jb = Some ub -> nth_error dw kb = Some db ->
        bsum (fun o => odense K o (ja + ka * dup) (jb + kb * dup)) hop =
        hop_op K n (offdiag K big (H 0%nat)) 0 (combine n ub db) (combine n ua da) +
        hop_op K n (offdiag K big (H 1%nat)) 1 (combine n ub db) (combine n ua da)).
  { destruct (Nat.ltb_spec 1 n) as [Hn2|Hn2].
    - destruct (build_ham_hopping_ok K big n nup ndw H up dw Hu Hd Hn Gu Gd)
        as [mu' [md [E [W1 [W2 [R1 [R2 [C1 [C2 [G1 G2]]]]]]]]]].
      rewrite E. cbn [bind fst snd]. eexists. split; [reflexivity|]. split; [reflexivity|]. split.
      + constructor; [|constructor; [|constructor]]; cbn [op_fits].
        * split; [exact W1|]. fold dup in R1, C1. split; [congruence|]. rewrite R1. split; [auto|lia].
        * split; [exact W2|]. fold dwn in R2, C2. split; [congruence|]. rewrite R2. split; [auto|lia].
      + intros ja ka jb kb ua da ub db Ha1 Ha2 Hb1 Hb2.
        assert (ja < dup)%nat by (apply nth_error_Some; congruence).
        assert (jb < dup)%nat by (apply nth_error_Some; congruence).
        cbn [bsum]. unfold odense. cbn [op_dense kron eye csr_dense d_at d_rows d_cols].
        rewrite R1, C1. fold dup.
        rewrite !Nat.div_add, !Nat.mod_add, !Nat.div_small, !Nat.mod_small, !Nat.add_0_l by lia.
        change (bsum _ (seq _ _)) with (sp_get K mu' ja jb) at 1.
        change (bsum _ (seq (nth ka _ _) _)) with (sp_get K md ka kb).
        rewrite (G1 _ _ _ _ Ha1 Hb1), (G2 _ _ _ _ Ha2 Hb2).
        rewrite hop_up_code, hop_dw_code; [|eapply states_lt; [exact Hu|exact Hn|exact Gu|]; eapply nth_error_In; eauto..].
        replace (N.eqb da db) with (ka =? kb)%nat.
        2: { destruct (N.eqb_spec da db) as [->|Hne].
             - apply Nat.eqb_eq. exact (states_inj n ndw dw ka kb db Hd Hn Gd Ha2 Hb2).
             - apply Nat.eqb_neq. intros ->. congruence. }
        replace (N.eqb ua ub) with (ja =? jb)%nat.
        2: { destruct (N.eqb_spec ua ub) as [->|Hne].
             - apply Nat.eqb_eq. exact (states_inj n nup up ja jb ub Hu Hn Gu Ha1 Hb1).
             - apply Nat.eqb_neq. intros ->. congruence. }
        destruct (ka =? kb)%nat, (ja =? jb)%nat; ring.
    - exists []. split; [reflexivity|]. split; [reflexivity|]. split; [constructor|].
      intros. unfold hop_op. rewrite !coupling_small by lia. cbn. ring. }
  destruct HH as [hop [EH [MH [FH VH]]]]. rewrite EH. cbn [bind fst snd].
  assert (Hdiag : forall ja ka jb kb ua da ub db,
      nth_error up ja = Some ua -> nth_error dw ka = Some da ->
      nth_error up jb = Some ub -> nth_error dw kb = Some db ->
      (if ((ja + ka * dup) =? (jb + kb * dup))%nat then nth (ja + ka * dup) v0 0 else 0) =
      (if N.eqb (combine n ub db) (combine n ua da)
       then fock_energy K half n (fun i => H 0%nat i i + mu) (fun i => H 1%nat i i + mu) U (zfun K hf z) hf ua da else 0)).
  { intros ja ka jb kb ua da ub db Ha1 Ha2 Hb1 Hb2.
    assert (Hja : (ja < dup)%nat) by (apply nth_error_Some; congruence).
    assert (Hjb : (jb < dup)%nat) by (apply nth_error_Some; congruence).
    rewrite (nth_error_nth _ _ _ (V0 _ _ _ _ Ha1 Ha2)).
    destruct (Nat.eqb_spec (ja + ka * dup) (jb + kb * dup)) as [E|E].
    - assert (ka = kb) by nia. assert (ja = jb) by nia. subst kb jb.
      rewrite Ha1 in Hb1. rewrite Ha2 in Hb2. injection Hb1 as ->. injection Hb2 as ->. now rewrite N.eqb_refl.
    - destruct (N.eqb_spec (combine n ub db) (combine n ua da)) as [Ec|]; auto. exfalso. apply E.
      apply combine_inj in Ec; [|eapply states_lt; [exact Hu|exact Hn|exact Gu|]; eapply nth_error_In; eauto..].
      destruct Ec as [-> ->].
      rewrite (states_inj n nup up ja jb ua Hu Hn Gu Ha1 Hb1), (states_inj n ndw dw ka kb da Hd Hn Gd Ha2 Hb2). auto. }
  destruct (inter_Jx K V) as [Jx|] eqn:EJ.
  - assert (Lv : length v0 = (length dw * length up)%nat) by (fold dup dwn; lia).
    destruct (sz_builder K big half n nup ndw Jx (inter_Jp K V) up dw v0 Hn Hu Hd Gu Gd Lv)
      as [sp [vec' [Eb [Wsp [R [C [Lv' _]]]]]]].
    destruct (sz_documented K big half n nup ndw Jx (inter_Jp K V) up dw v0 Hn Hu Hd Hh (HJs Jx eq_refl) Gu Gd Lv)
      as [sp' [vec'' [Eb' Get]]].
    rewrite Eb in Eb'. injection Eb' as <- <-.
    rewrite Eb. cbn [bind]. exists vec', (hop ++ [OpNL K sp]). split; [reflexivity|].
    split; [rewrite map_app, MH; reflexivity|].
    split; [lia|]. split.
    + apply Forall_app. split; auto. constructor; [|constructor]. cbn [op_fits]. split; [exact Wsp|]. lia.
    + intros ja ka jb kb ua da ub db Ha1 Ha2 Hb1 Hb2. cbv zeta.
      specialize (Get _ _ _ _ _ _ _ _ Ha1 Ha2 Hb1 Hb2). cbv zeta in Get. fold dup in Get.
      specialize (VH _ _ _ _ _ _ _ _ Ha1 Ha2 Hb1 Hb2). specialize (Hdiag _ _ _ _ _ _ _ _ Ha1 Ha2 Hb1 Hb2).
      rewrite bsum_app, VH. cbn [bsum]. unfold odense. cbn [op_dense csr_dense d_at].
      change (bsum _ (seq _ _)) with (sp_get K sp (ja + ka * dup) (jb + kb * dup)).
      unfold hamiltonian. cbn [opt_offdiag]. rewrite <- Hdiag.
      set (x := sp_get K sp _ _) in *. set (X1 := exch_same _ _ _ _ _ _) in *. set (X2 := exch_opp _ _ _ _ _ _) in *.
      set (X3 := pair_hop _ _ _ _ _ _) in *.
      assert (Q : x + (if ((ja + ka * dup) =? (jb + kb * dup))%nat then nth (ja + ka * dup) vec' 0 else 0) =
         (if ((ja + ka * dup) =? (jb + kb * dup))%nat then nth (ja + ka * dup) v0 0 else 0) + (X1 - X2 + X3)).
      { rewrite <- Get. destruct (_ =? _)%nat; ring. }
      set (h1 := hop_op _ _ _ _ _ _). set (h2 := hop_op _ _ _ _ _ _).
      set (o := if (_ =? _)%nat then nth _ vec' 0 else 0) in *. set (o0 := if (_ =? _)%nat then nth _ v0 0 else 0) in *.
      transitivity (h1 + h2 + (x + o)); [ring|]. rewrite Q. ring.
  - rewrite (HJ eq_refl). exists v0, hop. split; [reflexivity|]. split; [now rewrite app_nil_r|].
    split; [lia|]. split; [auto|].
    intros ja ka jb kb ua da ub db Ha1 Ha2 Hb1 Hb2. cbv zeta.
    rewrite (VH _ _ _ _ _ _ _ _ Ha1 Ha2 Hb1 Hb2), (Hdiag _ _ _ _ _ _ _ _ Ha1 Ha2 Hb1 Hb2).
    unfold hamiltonian, exch_same, exch_opp, pair_hop. cbn [opt_offdiag]. rewrite !coupling_zero. ring.
Qed.


(** ** N symmetry *)
Lemma mb_n n p H V U hf mu z states : (2 * n <= 32)%nat -> (p <= 2 * n)%nat ->
  inter_U K V = Some U -> generate_states (2 * n) p = Ok states ->
  exists vec rest, mb_operators K big half n H V (StN states) hf mu z = Ok (OpLocal K vec :: rest, true) /\
    map (fun o => match o with OpLocal _ _ => 0 | OpUp _ _ _ => 1 | OpDw _ _ _ => 2 | OpNL _ _ => 3 end)%nat rest =
      (match inter_Jx K V, inter_Jp K V with None, None => [] | _, _ => [3] end)%nat /\
    length vec = length states /\
    Forall (op_fits K (length states)) rest /\
    forall a b ua da ub db, (ua < 2 ^ N.of_nat n)%N -> (da < 2 ^ N.of_nat n)%N ->
      (ub < 2 ^ N.of_nat n)%N -> (db < 2 ^ N.of_nat n)%N ->
      nth_error states a = Some (combine n ua da) -> nth_error states b = Some (combine n ub db) ->
      bsum (fun o => odense K o a b) rest + (if (a =? b)%nat then nth a vec 0 else 0) =
      hamiltonian K half 1 n (fun _ i => H 1%nat i i + mu) U (zfun K hf z) hf
        (fun _ _ _ => 0) (opt_offdiag K big (inter_Jx K V)) (opt_offdiag K big (inter_Jp K V)) ub db ua da.
Proof.
  intros Hn Hp HU G.
  rewrite (mb_operators_U n H V U (StN states) hf mu z HU).
  destruct (build_ham_local_n K half n H U states hf mu z ltac:(lia)) as [v0 [E0 [L0 V0]]].
  { intros s Hs. eapply states_lt; eauto. }
  fold (zfun K hf z) in V0. rewrite E0. cbn [bind fst snd app].
  assert (Hdiag : forall a b ua da ub db, (ua < 2 ^ N.of_nat n)%N -> (da < 2 ^ N.of_nat n)%N ->
      (ub < 2 ^ N.of_nat n)%N -> (db < 2 ^ N.of_nat n)%N ->
      nth_error states a = Some (combine n ua da) -> nth_error states b = Some (combine n ub db) ->
      (if (a =? b)%nat then nth a v0 0 else 0) =
      (if N.eqb (combine n ub db) (combine n ua da)
       then fock_energy K half n (fun i => H 1%nat i i + mu) (fun i => H 1%nat i i + mu) U (zfun K hf z) hf ua da else 0)).
  { intros a b ua da ub db H1 H2 H3 H4 Ha Hb. rewrite (nth_error_nth _ _ _ (V0 _ _ _ H1 H2 Ha)).
    destruct (Nat.eqb_spec a b) as [->|E].
    - rewrite Ha in Hb. injection Hb as <-. now rewrite N.eqb_refl.
    - destruct (N.eqb_spec (combine n ub db) (combine n ua da)) as [Ec|]; auto. exfalso. apply E.
      rewrite Ec in Hb. eapply (states_inj (2 * n) p states); eauto. }
  assert (HOP : forall s t u, hop_op K n (fun _ _ => 0) s t u = 0) by (intros; apply coupling_zero).
  assert (HNL : inter_Jx K V <> None \/ inter_Jp K V <> None ->
    exists vec rest, (do r <- build_ham_non_local K big half n (inter_Jx K V) (inter_Jp K V) (StN states) v0;
      let '(sp, vec, _) := r in Ok (OpLocal K vec :: [OpNL K sp], true)) = Ok (OpLocal K vec :: rest, true) /\
    map (fun o => match o with OpLocal _ _ => 0 | OpUp _ _ _ => 1 | OpDw _ _ _ => 2 | OpNL _ _ => 3 end)%nat rest = [3]%nat /\
    length vec = length states /\
    Forall (op_fits K (length states)) rest /\
    forall a b ua da ub db, (ua < 2 ^ N.of_nat n)%N -> (da < 2 ^ N.of_nat n)%N ->
      (ub < 2 ^ N.of_nat n)%N -> (db < 2 ^ N.of_nat n)%N ->
      nth_error states a = Some (combine n ua da) -> nth_error states b = Some (combine n ub db) ->
      bsum (fun o => odense K o a b) rest + (if (a =? b)%nat then nth a vec 0 else 0) =
      hamiltonian K half 1 n (fun _ i => H 1%nat i i + mu) U (zfun K hf z) hf
        (fun _ _ _ => 0) (opt_offdiag K big (inter_Jx K V)) (opt_offdiag K big (inter_Jp K V)) ub db ua da).
  { intros HJ. destruct (n_builder K big half n p (inter_Jx K V) (inter_Jp K V) states v0 Hn Hp HJ G)
      as [sp [Eb [W [R [C Get]]]]].
    rewrite Eb. cbn [bind]. exists v0, [OpNL K sp]. split; [reflexivity|]. split; [reflexivity|].
    split; [auto|]. split.
    - constructor; [|constructor]. cbn [op_fits]. split; [exact W|]. lia.
    - intros a b ua da ub db H1 H2 H3 H4 Ha Hb. cbn [bsum]. unfold odense. cbn [op_dense csr_dense d_at].
      change (bsum _ (seq _ _)) with (sp_get K sp a b). rewrite (Get _ _ _ _ Ha Hb).
      rewrite (Hdiag a b ua da ub db) by auto. unfold hamiltonian, documented. rewrite !HOP. ring. }
  destruct (inter_Jx K V) as [Jx|] eqn:EX; [|destruct (inter_Jp K V) as [Jp|] eqn:EP].
  - apply HNL. left. discriminate.
  - apply HNL. right. discriminate.
  - exists v0, []. split; [reflexivity|]. split; [reflexivity|]. split; [auto|]. split; [constructor|].
    intros a b ua da ub db H1 H2 H3 H4 Ha Hb. cbn [bsum].
    rewrite (Hdiag a b ua da ub db) by auto.
    unfold hamiltonian, exch_same, exch_opp, pair_hop. cbn [opt_offdiag]. rewrite !HOP, !coupling_zero. ring.
Qed.

Lemma build_mb_ok n h fl V st hf mu z ops w f : 
  build_mb_ham K big half n h fl V st hf mu z = (Ok (ops, w), f) ->
  mb_operators K big half n (spinful K h) V st hf mu z = Ok (ops, w).
Proof.
  unfold build_mb_ham. destruct (mb_operators _ _ _ _ _ _ _ _ _ _) as [r|e]; [|intros E; congruence].
  destruct h; destruct (f_owns fl), (f_writeable fl), (f_base fl); cbn; intros E; congruence.
Qed.

Lemma mb_needs_U n H V st hf mu z r : mb_operators K big half n H V st hf mu z = Ok r -> exists U, inter_U K V = Some U.
Proof.
  unfold mb_operators. destruct V as [U|[U|] Jx Jp|]; cbn [bind inter_U]; intros E; try discriminate; eauto.
Qed.

Lemma split_index up dw a : (a < length up * length dw)%nat ->
  exists ja ka (ua da : N), nth_error up ja = Some ua /\ nth_error dw ka = Some da /\ a = (ja + ka * length up)%nat.
Proof.
  intros Ha. assert (Hl : (0 < length up)%nat) by (destruct (length up); lia).
  exists (a mod length up)%nat, (a / length up)%nat, (nth (a mod length up)%nat up 0%N), (nth (a / length up)%nat dw 0%N).
  split; [apply nth_error_nth', Nat.mod_upper_bound; lia|].
  split; [apply nth_error_nth', Nat.div_lt_upper_bound; lia|].
  rewrite (Nat.div_mod a (length up)) at 1 by lia. lia.
Qed.

Lemma combine_surj n s : (s < 2 ^ N.of_nat (2 * n))%N -> exists u d,
  (u < 2 ^ N.of_nat n)%N /\ (d < 2 ^ N.of_nat n)%N /\ s = combine n u d.
Proof.
  intros Hs. exists (s mod 2 ^ N.of_nat n)%N, (s / 2 ^ N.of_nat n)%N.
  assert (P : (2 ^ N.of_nat n <> 0)%N) by (apply N.pow_nonzero; lia).
  split; [now apply N.mod_lt|]. split.
  - apply N.div_lt_upper_bound; auto. rewrite <- N.pow_add_r. now replace (N.of_nat n + N.of_nat n)%N with (N.of_nat (2 * n)) by lia.
  - unfold combine. rewrite (N.div_mod s (2 ^ N.of_nat n)) at 1 by auto. lia.
Qed.

Lemma todense_at d vec rest D : length vec = d -> Forall (op_fits K d) rest ->
  todense K (OpLocal K vec :: rest) = Ok D -> 
  d_rows K D = d /\ d_cols K D = d /\
  forall a b, d_at K D a b = bsum (fun o => odense K o a b) rest + (if (a =? b)%nat then nth a vec 0 else 0).
Proof.
  intros Hv F E. destruct rest as [|o rest]; [discriminate E|].
  destruct (matvec_is_todense K (fun _ => true) d vec (o :: rest) (repeat 0 d) (repeat 0 d) Hv ltac:(discriminate) F
    (repeat_length _ _) (repeat_length _ _)) as [D' [y [E' [R [C [V _]]]]]].
  rewrite E in E'. injection E' as <-. auto.
Qed.

(** C21 *)
Lemma mb_symmetric n h fl V st hf mu z ops w f D : (1 <= n)%nat -> sector_of n st ->
  half + half = 1 -> (forall s, symm K n (spinful K h s)) -> osymm K n (inter_Jx K V) -> osymm K n (inter_Jp K V) ->
  build_mb_ham K big half n h fl V st hf mu z = (Ok (ops, w), f) -> todense K ops = Ok D ->
  d_rows K D = states_dim st /\ d_cols K D = states_dim st /\
  forall a b, (a < states_dim st)%nat -> (b < states_dim st)%nat -> d_at K D a b = d_at K D b a.
Proof.
  intros Hn1 Hs Hh HH HX HP E ED. apply build_mb_ok in E.
  destruct (mb_needs_U _ _ _ _ _ _ _ _ E) as [U HU].
  assert (OX : forall i j, (i < n)%nat -> (j < n)%nat ->
    opt_offdiag K big (inter_Jx K V) i j = opt_offdiag K big (inter_Jx K V) j i).
  { destruct (inter_Jx K V); cbn [opt_offdiag osymm] in *; auto. now apply offdiag_sym. }
  assert (OP : forall i j, (i < n)%nat -> (j < n)%nat ->
    opt_offdiag K big (inter_Jp K V) i j = opt_offdiag K big (inter_Jp K V) j i).
  { destruct (inter_Jp K V); cbn [opt_offdiag osymm] in *; auto. now apply offdiag_sym. }
  destruct st as [up dw|l]; cbn [sector_of states_dim] in *.
  - destruct Hs as [Hn [nup [ndw [Hu [Hd [Gu Gd]]]]]].
    assert (HJ : inter_Jx K V = None -> inter_Jp K V = None).
    { intros EX. destruct (inter_Jp K V) as [Jp|] eqn:EP; auto. exfalso.
      rewrite (mb_operators_U _ _ _ U) in E by auto. rewrite EX, EP in E.
      destruct (build_ham_local_sz K half n (spinful K h) U up dw hf mu z) as [v0 [E0 _]]. rewrite E0 in E. cbn [bind] in E.
      destruct (if (1 <? n)%nat then _ else _) as [hop|] in E; cbn [bind] in E; discriminate. }
    destruct (mb_sz n nup ndw (spinful K h) V U hf mu z up dw Hn1 Hn Hu Hd Hh HU HJ) as [vec [rest [E' [_ [L [F M]]]]]]; auto.
    { intros J EJ. rewrite EJ in HX. exact HX. }
    rewrite E in E'. injection E' as -> ->.
    destruct (todense_at _ vec rest D L F ED) as [R [C AT]]. split; [auto|]. split; [auto|].
    intros a b Ha Hb. rewrite !AT.
    destruct (split_index up dw a Ha) as [ja [ka [ua [da [A1 [A2 ->]]]]]].
    destruct (split_index up dw b Hb) as [jb [kb [ub [db [B1 [B2 ->]]]]]].
    etransitivity; [exact (M _ _ _ _ _ _ _ _ A1 A2 B1 B2)|].
    symmetry. etransitivity; [exact (M _ _ _ _ _ _ _ _ B1 B2 A1 A2)|].
    apply hamiltonian_sym; auto; try (eapply states_lt; [exact Hu|exact Hn|exact Gu|]; eapply nth_error_In; eauto).
    intros s i j Hi Hj. apply (offdiag_sym n); auto. apply HH.
  - destruct Hs as [Hn [p [Hp G]]].
    destruct (mb_n n p (spinful K h) V U hf mu z l Hn Hp HU G) as [vec [rest [E' [_ [L [F M]]]]]].
    rewrite E in E'. injection E' as -> ->.
    destruct (todense_at _ vec rest D L F ED) as [R [C AT]]. split; [auto|]. split; [auto|].
    intros a b Ha Hb. rewrite !AT.
    assert (Sp : forall c, (c < length l)%nat -> exists u d, (u < 2 ^ N.of_nat n)%N /\ (d < 2 ^ N.of_nat n)%N /\
       nth_error l c = Some (combine n u d)).
    { intros c Hc. destruct (combine_surj n (nth c l 0%N)) as [u [d [X1 [X2 X3]]]].
      - eapply states_lt; [exact Hp|exact Hn|exact G|]. now apply nth_In.
      - exists u, d. split; auto. split; auto. rewrite <- X3. now apply nth_error_nth'. }
    destruct (Sp a Ha) as [ua [da [A1 [A2 A3]]]]. destruct (Sp b Hb) as [ub [db [B1 [B2 B3]]]].
    rewrite (M a b ua da ub db) by auto. rewrite (M b a ub db ua da) by auto.
    apply hamiltonian_sym; auto.
Qed.

(** C22 *)
Lemma flag_two n h fl V st hf mu z : snd (build_mb_ham K big half n (H2 K h) fl V st hf mu z) = f_writeable fl.
Proof.
  unfold build_mb_ham. destruct (mb_operators _ _ _ _ _ _ _ _ _ _); [|reflexivity].
  now destruct (f_owns fl), (f_writeable fl), (f_base fl).
Qed.
Lemma flag_three n h fl V st hf mu z : 
  snd (build_mb_ham K big half n (H3 K h) fl V st hf mu z) =
  match fst (build_mb_ham K big half n (H3 K h) fl V st hf mu z) with Ok _ => true | Err _ => false end.
Proof.
  unfold build_mb_ham. destruct (mb_operators _ _ _ _ _ _ _ _ _ _); [|reflexivity].
  now destruct (f_owns fl || f_base fl).
Qed.

Lemma build_mb_result n h fl V st hf mu z :
  fst (build_mb_ham K big half n h fl V st hf mu z) =
  match mb_operators K big half n (spinful K h) V st hf mu z with
  | Ok r => if settable K h fl then Ok r else Err ValueError
  | Err e => Err e
  end.
Proof.
  unfold build_mb_ham. destruct (mb_operators _ _ _ _ _ _ _ _ _ _); [|reflexivity].
  destruct h; cbn [settable]; now destruct (f_owns fl), (f_writeable fl), (f_base fl).
Qed.

Lemma kinds_map (l : list (op K)) (ks : list nat) :
  map (fun o => match o with OpLocal _ _ => 0 | OpUp _ _ _ => 1 | OpDw _ _ _ => 2 | OpNL _ _ => 3 end)%nat l = ks ->
  map (kind_of K) l = map (fun k => match k with 0 => KLocal | 1 => KUp | 2 => KDw | _ => KNonLocal end)%nat ks.
Proof. intros <-. rewrite map_map. apply map_ext. now intros []. Qed.

(** Sz sectors, general (also non-symmetric Jx): which operators. *)
Lemma assembles_sz n nup ndw h fl V U hf mu z up dw : (1 <= n)%nat -> (n <= 32)%nat -> (nup <= n)%nat -> (ndw <= n)%nat ->
  inter_U K V = Some U -> (inter_Jx K V = None -> inter_Jp K V = None) -> settable K h fl = true ->
  generate_states n nup = Ok up -> generate_states n ndw = Ok dw ->
  exists ops f, build_mb_ham K big half n h fl V (StSz up dw) hf mu z = (Ok (ops, false), f) /\
    map (kind_of K) ops = [KLocal] ++ (if (1 <? n)%nat then [KUp; KDw] else []) ++
                      (match inter_Jx K V with Some _ => [KNonLocal] | None => [] end) /\
    f = match h with H2 _ _ => f_writeable fl | H3 _ _ => true end.
Proof.
  intros Hn1 Hn Hu Hd HU HJ HS Gu Gd.
  assert (Q : exists ops, mb_operators K big half n (spinful K h) V (StSz up dw) hf mu z = Ok (ops, false) /\
    map (kind_of K) ops = [KLocal] ++ (if (1 <? n)%nat then [KUp; KDw] else []) ++
                      (match inter_Jx K V with Some _ => [KNonLocal] | None => [] end)).
  { rewrite (mb_operators_U n _ V U _ hf mu z HU).
    destruct (build_ham_local_sz K half n (spinful K h) U up dw hf mu z) as [v0 [E0 [L0 _]]]. rewrite E0. cbn [bind].
    assert (HH : exists hop, (if (1 <? n)%nat then
                do m <- build_ham_hopping K big n (spinful K h) (StSz up dw);
                Ok ([OpUp K (fst m) (length dw); OpDw K (snd m) (length up)], false)
              else Ok ([], false)) = Ok (hop, false) /\ map (kind_of K) hop = if (1 <? n)%nat then [KUp; KDw] else []).
    { destruct (1 <? n)%nat; [|eexists; split; reflexivity].
      destruct (build_ham_hopping_ok K big n nup ndw (spinful K h) up dw Hu Hd Hn Gu Gd) as [m1 [m2 [E _]]].
      rewrite E. cbn [bind fst snd]. eexists; split; reflexivity. }
    destruct HH as [hop [-> KH]]. cbn [bind fst snd].
    destruct (inter_Jx K V) as [Jx|] eqn:EX.
    - destruct (sz_builder K big half n nup ndw Jx (inter_Jp K V) up dw v0 Hn Hu Hd Gu Gd ltac:(lia)) as [sp [vec' [Eb _]]].
      rewrite Eb. cbn [bind]. eexists. split; [reflexivity|]. cbn [map]. rewrite map_app, KH. reflexivity.
    - rewrite (HJ eq_refl). eexists. split; [reflexivity|]. cbn [map]. rewrite KH, app_nil_r. reflexivity. }
  destruct Q as [ops [E KO]]. unfold build_mb_ham. rewrite E. exists ops.
  destruct h; cbn [settable] in HS; rewrite HS; eexists; split; [reflexivity|auto|reflexivity|auto].
Qed.

Lemma assembles_n n p h fl V U hf mu z l : (2 * n <= 32)%nat -> (p <= 2 * n)%nat ->
  inter_U K V = Some U -> settable K h fl = true -> generate_states (2 * n) p = Ok l ->
  exists ops f, build_mb_ham K big half n h fl V (StN l) hf mu z = (Ok (ops, true), f) /\
    map (kind_of K) ops = [KLocal] ++ (match inter_Jx K V, inter_Jp K V with None, None => [] | _, _ => [KNonLocal] end) /\
    f = match h with H2 _ _ => f_writeable fl | H3 _ _ => true end.
Proof.
  intros Hn Hp HU HS G.
  destruct (mb_n n p (spinful K h) V U hf mu z l Hn Hp HU G) as [vec [rest [E [KO _]]]].
  apply kinds_map in KO. unfold build_mb_ham. rewrite E. exists (OpLocal K vec :: rest).
  assert (KK : map (kind_of K) (OpLocal K vec :: rest) =
     [KLocal] ++ (match inter_Jx K V, inter_Jp K V with None, None => [] | _, _ => [KNonLocal] end)).
  { cbn [map app]. rewrite KO. destruct (inter_Jx K V), (inter_Jp K V); reflexivity. }
  destruct h; cbn [settable] in HS; rewrite HS; eexists; split; [reflexivity|auto|reflexivity|auto].
Qed.

(** Failures. *)
Lemma raises_no_U n h fl V st hf mu z : inter_U K V = None ->
  build_mb_ham K big half n h fl V st hf mu z =
  (Err (match V with VOther _ => UnboundLocalError | _ => TypeError end),
   match h with H2 _ _ => f_writeable fl | H3 _ _ => false end).
Proof.
  intros HU. unfold build_mb_ham, mb_operators.
  destruct V as [U|U Jx Jp|]; cbn [inter_U] in HU; [discriminate|subst|]; reflexivity.
Qed.

Lemma raises_jp_only n nup ndw h fl U Jp up dw hf mu z : (n <= 32)%nat -> (nup <= n)%nat -> (ndw <= n)%nat ->
  generate_states n nup = Ok up -> generate_states n ndw = Ok dw ->
  build_mb_ham K big half n h fl (VDict K (Some U) None (Some Jp)) (StSz up dw) hf mu z =
  (Err AttributeError, match h with H2 _ _ => f_writeable fl | H3 _ _ => false end).
Proof.
  intros Hn Hu Hd Gu Gd. unfold build_mb_ham, mb_operators. cbn [bind].
  destruct (build_ham_local_sz K half n (spinful K h) U up dw hf mu z) as [v0 [E0 [L0 _]]]. rewrite E0. cbn [bind].
  destruct (1 <? n)%nat.
  - destruct (build_ham_hopping_ok K big n nup ndw (spinful K h) up dw Hu Hd Hn Gu Gd) as [m1 [m2 [E _]]].
    rewrite E. reflexivity.
  - reflexivity.
Qed.

(** C27 *)
Lemma dense_iff n h fl V st hf mu z ops w f : (1 <= n)%nat -> sector_of n st ->
  build_mb_ham K big half n h fl V st hf mu z = (Ok (ops, w), f) ->
  let nonlocal := match inter_Jx K V, inter_Jp K V with None, None => false | _, _ => true end in
  let hopping := match st with StSz _ _ => (1 <? n)%nat | StN _ => false end in
  if nonlocal || hopping then exists D, todense K ops = Ok D else todense K ops = Err IndexError.
Proof.
  intros Hn1 Hs E. cbv zeta. apply build_mb_ok in E.
  destruct (mb_needs_U _ _ _ _ _ _ _ _ E) as [U HU].
  assert (Q : exists vec rest d, ops = OpLocal K vec :: rest /\ length vec = d /\ Forall (op_fits K d) rest /\
    (if match inter_Jx K V, inter_Jp K V with None, None => false | _, _ => true end ||
        match st with StSz _ _ => (1 <? n)%nat | StN _ => false end then rest <> [] else rest = [])).
  { destruct st as [up dw|l]; cbn [sector_of states_dim] in *.
    - destruct Hs as [Hn [nup [ndw [Hu [Hd [Gu Gd]]]]]].
      rewrite (mb_operators_U _ _ _ U) in E by auto.
      destruct (build_ham_local_sz K half n (spinful K h) U up dw hf mu z) as [v0 [E0 [L0 _]]]. rewrite E0 in E. cbn [bind] in E.
      pose proof (states_nonempty n nup up Hu Hn Gu) as Pu. pose proof (states_nonempty n ndw dw Hd Hn Gd) as Pd.
      assert (HH : exists hop, (if (1 <? n)%nat then
                do m <- build_ham_hopping K big n (spinful K h) (StSz up dw);
                Ok ([OpUp K (fst m) (length dw); OpDw K (snd m) (length up)], false)
              else Ok ([], false)) = Ok (hop, false) /\ Forall (op_fits K (length up * length dw)) hop /\
              (if (1 <? n)%nat then hop <> [] else hop = [])).
      { destruct (1 <? n)%nat; [|exists []; split; [reflexivity|]; split; [constructor|reflexivity]].
        destruct (build_ham_hopping_ok K big n nup ndw (spinful K h) up dw Hu Hd Hn Gu Gd)
          as [m1 [m2 [Eh [W1 [W2 [R1 [R2 [C1 [C2 _]]]]]]]]].
        rewrite Eh. cbn [bind fst snd]. eexists. split; [reflexivity|]. split; [|discriminate].
        constructor; [|constructor; [|constructor]]; cbn [op_fits].
        - split; [exact W1|]. split; [congruence|]. rewrite R1. split; [auto|lia].
        - split; [exact W2|]. split; [congruence|]. rewrite R2. split; [auto|lia]. }
      destruct HH as [hop [EH [FH NH]]]. rewrite EH in E. cbn [bind fst snd] in E.
      destruct (inter_Jx K V) as [Jx|] eqn:EX.
      + destruct (sz_builder K big half n nup ndw Jx (inter_Jp K V) up dw v0 Hn Hu Hd Gu Gd ltac:(lia))
          as [sp [vec' [Eb [Wsp [R [C [Lv' _]]]]]]].
        rewrite Eb in E. cbn [bind] in E. injection E as <- <-.
        exists vec', (hop ++ [OpNL K sp]), (length up * length dw)%nat. split; [reflexivity|]. split; [lia|]. split.
        * apply Forall_app. split; auto. constructor; [|constructor]. cbn [op_fits]. split; [exact Wsp|]. lia.
        * cbn [orb]. now destruct hop.
      + destruct (inter_Jp K V) as [Jp|]; [discriminate E|]. injection E as <- <-.
        exists v0, hop, (length up * length dw)%nat. auto.
    - destruct Hs as [Hn [p [Hp G]]].
      destruct (mb_n n p (spinful K h) V U hf mu z l Hn Hp HU G) as [vec [rest [E' [KO [L [F _]]]]]].
      rewrite E in E'. injection E' as -> ->. exists vec, rest, (length l). split; [reflexivity|]. split; [auto|].
      split; [auto|]. destruct (inter_Jx K V), (inter_Jp K V); cbn [orb]; destruct rest; try discriminate; auto. }
  destruct Q as [vec [rest [d [-> [L [F R]]]]]].
  destruct (_ || _).
  - destruct (matvec_is_todense K (fun _ => true) d vec rest (repeat 0 d) (repeat 0 d) L R F
      (repeat_length _ _) (repeat_length _ _)) as [D [_ [ED _]]]. eauto.
  - rewrite R. reflexivity.
Qed.

(** The matrix-free operator applied to a vector is the specified Hamiltonian. *)
Lemma mb_matvec n nup ndw h fl V U hf mu z up dw truthy empty w : (1 < n)%nat -> (n <= 32)%nat -> (nup <= n)%nat -> (ndw <= n)%nat ->
  half + half = 1 -> inter_U K V = Some U -> (inter_Jx K V = None -> inter_Jp K V = None) -> osymm K n (inter_Jx K V) ->
  settable K h fl = true ->
  generate_states n nup = Ok up -> generate_states n ndw = Ok dw ->
  length w = (length up * length dw)%nat -> length empty = (length up * length dw)%nat ->
  exists ops f y D, build_mb_ham K big half n h fl V (StSz up dw) hf mu z = (Ok (ops, false), f) /\
    todense K ops = Ok D /\
    matvec K truthy ops empty w None = Ok y /\ length y = (length up * length dw)%nat /\
    forall ja ka ua da, nth_error up ja = Some ua -> nth_error dw ka = Some da ->
      (forall jb kb ub db, nth_error up jb = Some ub -> nth_error dw kb = Some db ->
        d_at K D (ja + ka * length up) (jb + kb * length up) =
        hamiltonian K half (- (1)) n (fun s i => spinful K h s i i + mu) U (zfun K hf z) hf
          (fun s => offdiag K big (spinful K h s)) (opt_offdiag K big (inter_Jx K V)) (opt_offdiag K big (inter_Jp K V))
          ub db ua da) /\
      nth (ja + ka * length up) y 0 =
      nsum (length dw) (fun kb => nsum (length up) (fun jb =>
        hamiltonian K half (- (1)) n (fun s i => spinful K h s i i + mu) U (zfun K hf z) hf
          (fun s => offdiag K big (spinful K h s)) (opt_offdiag K big (inter_Jx K V)) (opt_offdiag K big (inter_Jp K V))
          (nth jb up 0%N) (nth kb dw 0%N) ua da * nth (jb + kb * length up) w 0)).
Proof.
  intros Hn1 Hn Hu Hd Hh HU HJ HX HS Gu Gd Lw Le.
  destruct (mb_sz n nup ndw (spinful K h) V U hf mu z up dw ltac:(lia) Hn Hu Hd Hh HU HJ) as [vec [rest [E [KO [L [F M]]]]]]; auto.
  { intros J EJ. rewrite EJ in HX. exact HX. }
  assert (Hr : rest <> []).
  { intros ->. cbn [map] in KO. destruct (Nat.ltb_spec 1 n); [discriminate|lia]. }
  destruct (matvec_is_todense K truthy _ vec rest empty w L Hr F Lw Le) as [D [y [ED [R [C [V0 [EY [Ly Vy]]]]]]]].
  exists (OpLocal K vec :: rest), (match h with H2 _ _ => f_writeable fl | H3 _ _ => true end), y, D.
  split. { unfold build_mb_ham. rewrite E. destruct h; cbn [settable] in HS; now rewrite HS. }
  split; [exact ED|]. split; [exact EY|]. split; [exact Ly|].
  intros ja ka ua da Ha1 Ha2.
  assert (Hja : (ja < length up)%nat) by (apply nth_error_Some; congruence).
  assert (Hka : (ka < length dw)%nat) by (apply nth_error_Some; congruence).
  split; [intros jb kb ub db Hb1 Hb2; rewrite V0; exact (M _ _ _ _ _ _ _ _ Ha1 Ha2 Hb1 Hb2)|].
  rewrite Vy by nia. rewrite (Nat.mul_comm (length up)), nsum_mul.
  apply nsum_ext. intros kb Hkb. apply nsum_ext. intros jb Hjb.
  rewrite V0. f_equal. apply (M _ _ _ _ _ _ _ _ Ha1 Ha2); now apply nth_error_nth'.
Qed.

End Mb.

(** Witnesses over the rationals. *)
Definition wHop (s i j : nat) : QcRing := if (i =? j)%nat then qz (Z.of_nat s + Z.of_nat i) else qz 2.
Definition wU (i j : nat) : QcRing := if (i =? j)%nat then qz 4 else qz 1.

(** With only Jp given, build_mb_ham raises and the caller's (2,n,n) array stays
    read-only. *)
Lemma left_readonly :
  build_mb_ham QcRing wbig qhalf 2 (H3 QcRing wHop) (mkflags true true true)
    (VDict QcRing (Some wU) None (Some wJ)) (StSz [1; 2]%N [1; 2]%N) false (qz 0) None = (Err AttributeError, false).
Proof. vm_compute. reflexivity. Qed.

(** A read-only (2,n,n) array comes back writeable, a read-only (n,n) array raises. *)
Lemma readonly_inputs :
  snd (build_mb_ham QcRing wbig qhalf 2 (H3 QcRing wHop) (mkflags false true false)
    (VArray QcRing wU) (StSz [1; 2]%N [1; 2]%N) false (qz 0) None) = true /\
  fst (build_mb_ham QcRing wbig qhalf 2 (H2 QcRing (wHop 0)) (mkflags false true false)
    (VArray QcRing wU) (StSz [1; 2]%N [1; 2]%N) false (qz 0) None) = Err ValueError.
Proof. split; vm_compute; reflexivity. Qed.

(** todense fails for a single site and for N symmetry without couplings. *)
Lemma todense_fails :
  (exists ops w f, build_mb_ham QcRing wbig qhalf 1 (H3 QcRing wHop) (mkflags true true true)
    (VArray QcRing wU) (StSz [1]%N [0]%N) false (qz 0) None = (Ok (ops, w), f) /\ todense QcRing ops = Err IndexError) /\
  (exists ops w f, build_mb_ham QcRing wbig qhalf 2 (H3 QcRing wHop) (mkflags true true true)
    (VArray QcRing wU) (StN [3; 5; 6; 9; 10; 12]%N) false (qz 0) None = (Ok (ops, w), f) /\ todense QcRing ops = Err IndexError).
Proof. split; eexists; eexists; eexists; (split; [vm_compute; reflexivity|reflexivity]). Qed.
