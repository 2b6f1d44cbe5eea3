(** Lemmas about the local Hamiltonian. *)
From Coq Require Import List Arith NArith ZArith Lia Bool Permutation Ring.
From Verif Require Import Base OperatorsModel OperatorsSpec OperatorsProofs LookupModel LookupSpec
  LookupProofs SectorProofs FockSpec LocalModel LocalSpec.
Import ListNotations.

(** ** Array writes *)

Section Writes.
Variable K : CRing.

Lemma run_writes_spec : forall (ws : list (nat * K)) (a : list K),
  NoDup (map fst ws) -> (forall w, In w ws -> fst w < length a) ->
  exists a', run_writes K ws a = Ok a' /\ length a' = length a /\
    (forall i v, In (i, v) ws -> nth_error a' i = Some v) /\
    (forall i, ~ In i (map fst ws) -> nth_error a' i = nth_error a i).
Proof.
  induction ws as [|[i v] ws IH]; intros a ND HL; cbn [run_writes foldM].
  - exists a. repeat split; auto. intros i v [].
  - inversion ND as [|? ? Hni ND']; subst. cbn [fst snd] in *.
    assert (Hi : i < length a) by (apply (HL (i, v)); simpl; auto).
    unfold run_writes in *. cbn [foldM fst snd].
    rewrite upd_upd_tot by auto. cbn [bind].
    destruct (IH (upd_tot a i v) ND') as [a' [E [L [H1 H2]]]].
    { intros w Hw. rewrite upd_tot_length. apply HL. simpl; auto. }
    exists a'. rewrite upd_tot_length in L. repeat split; auto.
    + intros j w [Ej|Hj].
      * inversion Ej; subst. rewrite H2 by auto. rewrite nth_error_upd_tot.
        rewrite Nat.eqb_refl. replace (j <? length a) with true by (symmetry; now apply Nat.ltb_lt).
        reflexivity.
      * auto.
    + intros j Hj. cbn [map fst] in Hj. rewrite H2 by (simpl in Hj; tauto).
      rewrite nth_error_upd_tot.
      replace (i =? j) with false; auto. symmetry. apply Nat.eqb_neq. simpl in Hj. tauto.
Qed.

End Writes.

Lemma flat_map_fst {A B C} (f : A -> list (B * C)) l :
  map fst (flat_map f l) = flat_map (fun a => map fst (f a)) l.
Proof. induction l; simpl; auto. rewrite map_app. congruence. Qed.

Lemma NoDup_app {A} (l1 l2 : list A) : NoDup l1 -> NoDup l2 ->
  (forall x, In x l1 -> ~ In x l2) -> NoDup (l1 ++ l2).
Proof.
  intros H1 H2 H. induction H1; simpl; auto. constructor.
  - rewrite in_app_iff. intros [|]; auto. apply (H x); simpl; auto.
  - apply IHNoDup. intros y Hy. apply H. simpl; auto.
Qed.

Lemma NoDup_index_pairs dup m :
  NoDup (flat_map (fun idw => map (fun iup => iup + idw * dup) (seq 0 dup)) (seq 0 m)).
Proof.
  induction m.
  - constructor.
  - rewrite seq_S, flat_map_app. simpl. rewrite app_nil_r. apply NoDup_app; auto.
    + apply FinFun.Injective_map_NoDup; [|apply seq_NoDup]. intros x y; lia.
    + intros x Hx Hx2. apply in_flat_map in Hx. destruct Hx as [j [Hj Hx]].
      apply in_map_iff in Hx, Hx2. destruct Hx as [i [<- Hi]], Hx2 as [i2 [E Hi2]].
      apply in_seq in Hj, Hi, Hi2. nia.
Qed.

Lemma fold_left_ext {A B} (f g : A -> B -> A) l : (forall a b, f a b = g a b) ->
  forall a, fold_left f l a = fold_left g l a.
Proof. intros H. induction l; intros; simpl; auto. rewrite H. apply IHl. Qed.

(** ** Energies *)

Section Energy.
Variable K : CRing.
Add Ring kring : (cth K).
Variable half : K.
Local Open Scope cr_scope.

Lemma occf_num s i : occf K s i = num K s i.
Proof.
  unfold occf, num. rewrite bitval_spec. destruct (occ s i); reflexivity.
Qed.

Section Fix.
Variable n : nat.
Variable H : nat -> nat -> nat -> K.
Variable V : nat -> nat -> K.
Variable z : nat -> K.
Variable hf : bool.
Variable mu : K.

Lemma coulomb_spec (nu nd : nat -> K) r :
  coulomb K half n V z hf nu nd r =
  r + nsum n (fun i => V i i * ((nu i - if hf then half else 0) * (nd i - if hf then half else 0)))
    + half * nsum n (fun i => nsum n (fun j =>
        if (i =? j)%nat then 0 else V i j * ((nu i + nd i - z i) * (nu j + nd j - z j)))).
Proof.
  unfold coulomb.
  set (g := fun i : nat => V i i * ((nu i - if hf then half else 0) * (nd i - if hf then half else 0))
     + half * nsum n (fun j => if (i =? j)%nat then 0
                  else V i j * ((nu i + nd i - z i) * (nu j + nd j - z j)))).
  transitivity (fold_left (fun r i => r + g i) (seq 0 n) r).
  - apply fold_left_ext. intros r0 i.
    rewrite bsum_fold_left. unfold g. fold (nsum n (fun j => Vij K V i j * (nu j + nd j - z j))).
    replace (nsum n (fun j => if (i =? j)%nat then 0 else V i j * ((nu i + nd i - z i) * (nu j + nd j - z j))))
      with ((nu i + nd i - z i) * nsum n (fun j => Vij K V i j * (nu j + nd j - z j))).
    + unfold Vi. destruct hf; ring.
    + rewrite <- nsum_scal_l. apply nsum_ext. intros j _. unfold Vij.
      destruct (Nat.eqb_spec i j) as [<-|]; ring.
  - rewrite bsum_fold_left. fold (nsum n g). unfold g. rewrite nsum_add, nsum_scal_l. ring.
Qed.

Lemma sz_value_spec sup sdw :
  sz_value K half n H V z hf mu sup sdw =
  fock_energy K half n (fun i => H 0%nat i i + mu) (fun i => H 1%nat i i + mu) V z hf sup sdw.
Proof.
  unfold sz_value, edw_of, fock_energy. rewrite coulomb_spec.
  rewrite !bsum_fold_left.
  fold (nsum n (fun i => edwdiag K H mu i * occf K sdw i)).
  fold (nsum n (fun i => occf K sup i * eupdiag K H mu i)).
  f_equal; [f_equal|].
  - rewrite nsum_add.
    rewrite (nsum_ext K n (fun i => (H 0%nat i i + mu) * num K sup i)
              (fun i => occf K sup i * eupdiag K H mu i)).
    2:{ intros i _. rewrite occf_num. unfold eupdiag. ring. }
    rewrite (nsum_ext K n (fun i => (H 1%nat i i + mu) * num K sdw i)
              (fun i => edwdiag K H mu i * occf K sdw i)).
    2:{ intros i _. rewrite occf_num. unfold edwdiag. ring. }
    ring.
  - apply nsum_ext. intros i _. now rewrite !occf_num.
  - f_equal. apply nsum_ext. intros i _. apply nsum_ext. intros j _. now rewrite !occf_num.
Qed.

Lemma n_value_spec sup sdw : (n <= 16)%nat -> (sup < 2 ^ N.of_nat n)%N -> (sdw < 2 ^ N.of_nat n)%N ->
  n_value K half n H V z hf mu (combine n sup sdw) =
  fock_energy K half n (fun i => H 1%nat i i + mu) (fun i => H 1%nat i i + mu) V z hf sup sdw.
Proof.
  intros Hn Hu Hd.
  assert (Em : mask_up n = N.ones (N.of_nat n)).
  { unfold mask_up. rewrite N.shiftl_1_l, N.ones_equiv. rewrite N.sub_1_r. apply u32_small.
    assert (2 ^ N.of_nat n <= 2 ^ 32)%N by (apply N.pow_le_mono_r; lia).
    pose proof (pow2_nz (N.of_nat n)). lia. }
  assert (Eu : N.land (combine n sup sdw) (mask_up n) = sup).
  { rewrite Em, N.land_ones. unfold combine. rewrite N.mod_add by auto. now apply N.mod_small. }
  assert (Ed : N.shiftr (N.land (combine n sup sdw) (mask_dw n)) (N.of_nat n) = sdw).
  { unfold mask_dw. rewrite Em, N.shiftr_land. rewrite N.shiftr_shiftl_l by lia.
    rewrite N.sub_diag, N.shiftl_0_r, N.land_ones, N.shiftr_div_pow2.
    unfold combine. rewrite N.div_add, N.div_small by auto. rewrite N.add_0_l.
    now apply N.mod_small. }
  unfold n_value. rewrite Eu, Ed. unfold fock_energy. rewrite coulomb_spec.
  rewrite !bsum_fold_left.
  fold (nsum n (fun i => edwdiag K H mu i * (occf K sdw i + occf K sup i))).
  f_equal; [f_equal|].
  - rewrite (nsum_ext K n (fun i => (H 1%nat i i + mu) * num K sup i + (H 1%nat i i + mu) * num K sdw i)
              (fun i => edwdiag K H mu i * (occf K sdw i + occf K sup i))).
    2:{ intros i _. rewrite !occf_num. unfold edwdiag. ring. }
    ring.
  - apply nsum_ext. intros i _. now rewrite !occf_num.
  - f_equal. apply nsum_ext. intros i _. apply nsum_ext. intros j _. now rewrite !occf_num.
Qed.

Lemma fock_energy_ext eup edw eup' edw' sup sdw :
  (forall i, (i < n)%nat -> eup i = eup' i) -> (forall i, (i < n)%nat -> edw i = edw' i) ->
  fock_energy K half n eup edw V z hf sup sdw = fock_energy K half n eup' edw' V z hf sup sdw.
Proof.
  intros H1 H2. unfold fock_energy. do 2 f_equal.
  apply nsum_ext. intros i Hi. now rewrite H1, H2.
Qed.

Lemma combine_split s : (s < 2 ^ N.of_nat (2 * n))%N ->
  exists sup sdw, s = combine n sup sdw /\ (sup < 2 ^ N.of_nat n)%N /\ (sdw < 2 ^ N.of_nat n)%N.
Proof.
  intros Hs. exists (s mod 2 ^ N.of_nat n)%N, (s / 2 ^ N.of_nat n)%N.
  split; [|split].
  - unfold combine. rewrite (N.div_mod s (2 ^ N.of_nat n)) at 1 by auto. lia.
  - apply N.mod_lt. auto.
  - apply N.div_lt_upper_bound; auto. replace (2 * n)%nat with (n + n)%nat in Hs by lia.
    now rewrite pow2_add in Hs.
Qed.

Lemma sz_all_schedules up dw ws :
  Permutation ws (flat_map (sz_writes K half n H V z hf mu up dw) (seq 0 (length dw))) ->
  exists a, run_writes K ws (repeat 0 (length up * length dw)) = Ok a /\
    length a = (length up * length dw)%nat /\
    forall iup idw sup sdw, nth_error up iup = Some sup -> nth_error dw idw = Some sdw ->
      nth_error a (iup + idw * length up) =
      Some (fock_energy K half n (fun i => H 0%nat i i + mu) (fun i => H 1%nat i i + mu)
              V z hf sup sdw).
Proof.
  intros P.
  set (all := flat_map _ _) in P.
  assert (Efst : map fst all = flat_map (fun idw => map (fun iup => (iup + idw * length up)%nat)
                   (seq 0 (length up))) (seq 0 (length dw))).
  { unfold all. rewrite flat_map_fst. apply flat_map_ext. intros idw.
    unfold sz_writes. rewrite map_map. reflexivity. }
  assert (ND : NoDup (map fst ws)).
  { apply (Permutation_NoDup (l := map fst all)).
    - apply Permutation_map. now apply Permutation_sym.
    - rewrite Efst. apply NoDup_index_pairs. }
  assert (HL : forall w, In w ws -> (fst w < length (repeat (c0 K) (length up * length dw)))%nat).
  { intros w Hw. rewrite repeat_length. apply (Permutation_in _ P) in Hw.
    unfold all in Hw. apply in_flat_map in Hw. destruct Hw as [idw [Hi Hw]].
    unfold sz_writes in Hw. apply in_map_iff in Hw. destruct Hw as [iup [<- Hu]].
    apply in_seq in Hi, Hu. cbn [fst]. nia. }
  destruct (run_writes_spec K ws _ ND HL) as [a [E [L [H1 _]]]].
  exists a. split; auto. split; [now rewrite L, repeat_length|].
  intros iup idw sup sdw Eu Ed. rewrite <- sz_value_spec. apply H1.
  apply (Permutation_in _ (Permutation_sym P)). unfold all. apply in_flat_map.
  assert (iup < length up)%nat by (apply nth_error_Some; congruence).
  assert (idw < length dw)%nat by (apply nth_error_Some; congruence).
  exists idw. split; [apply in_seq; lia|]. unfold sz_writes. apply in_map_iff.
  exists iup. split; [|apply in_seq; lia].
  now rewrite (nth_error_nth _ _ _ Eu), (nth_error_nth _ _ _ Ed).
Qed.

Lemma n_all_schedules states ws : (n <= 16)%nat ->
  (forall s, In s states -> (s < 2 ^ N.of_nat (2 * n))%N) ->
  Permutation ws (flat_map (n_writes K half n H V z hf mu states) (seq 0 (length states))) ->
  exists a, run_writes K ws (repeat 0 (length states)) = Ok a /\
    length a = length states /\
    forall idu sup sdw, (sup < 2 ^ N.of_nat n)%N -> (sdw < 2 ^ N.of_nat n)%N ->
      nth_error states idu = Some (combine n sup sdw) ->
      nth_error a idu =
      Some (fock_energy K half n (fun i => H 1%nat i i + mu) (fun i => H 1%nat i i + mu)
              V z hf sup sdw).
Proof.
  intros Hn Hst P. set (all := flat_map _ _) in P.
  assert (Efst : map fst all = seq 0 (length states)).
  { unfold all. rewrite flat_map_fst. unfold n_writes. simpl.
    generalize (seq 0 (length states)). induction l; simpl; congruence. }
  assert (ND : NoDup (map fst ws)).
  { apply (Permutation_NoDup (l := map fst all)).
    - apply Permutation_map. now apply Permutation_sym.
    - rewrite Efst. apply seq_NoDup. }
  assert (HL : forall w, In w ws -> (fst w < length (repeat (c0 K) (length states)))%nat).
  { intros w Hw. rewrite repeat_length. apply (Permutation_in _ P) in Hw.
    apply (in_map fst) in Hw. rewrite Efst in Hw. apply in_seq in Hw. lia. }
  destruct (run_writes_spec K ws _ ND HL) as [a [E [L [H1 _]]]].
  exists a. split; auto. split; [now rewrite L, repeat_length|].
  intros idu sup sdw Hu Hd Es. rewrite <- n_value_spec by auto. apply H1.
  apply (Permutation_in _ (Permutation_sym P)). unfold all. apply in_flat_map.
  assert (idu < length states)%nat by (apply nth_error_Some; congruence).
  exists idu. split; [apply in_seq; lia|]. unfold n_writes. simpl. left.
  now rewrite (nth_error_nth _ _ _ Es).
Qed.

End Fix.

Lemma build_ham_local_sz n H V up dw hf mu z :
  exists a, build_ham_local K half n H V (StSz up dw) hf mu z = Ok a /\
    length a = (length up * length dw)%nat /\
    forall iup idw sup sdw, nth_error up iup = Some sup -> nth_error dw idw = Some sdw ->
      nth_error a (iup + idw * length up) =
      Some (fock_energy K half n (fun i => H 0%nat i i + mu) (fun i => H 1%nat i i + mu) V
              (match z with Some z => z | None => fun _ => if hf then 1 else 0 end) hf sup sdw).
Proof.
  unfold build_ham_local, build_sz. cbn [states_dim].
  destruct (sz_all_schedules n H V (default_z K hf z) hf mu up dw _ (Permutation_refl _))
    as [a [E [L G]]].
  exists a. split; auto. split; auto. intros iup idw sup sdw Eu Ed.
  rewrite (G _ _ _ _ Eu Ed). destruct z; auto. unfold default_z. destruct hf; auto.
Qed.

Lemma build_ham_local_n n H V states hf mu z : (n <= 16)%nat ->
  (forall s, In s states -> (s < 2 ^ N.of_nat (2 * n))%N) ->
  exists a, build_ham_local K half n H V (StN states) hf mu z = Ok a /\
    length a = length states /\
    forall idu sup sdw, (sup < 2 ^ N.of_nat n)%N -> (sdw < 2 ^ N.of_nat n)%N ->
      nth_error states idu = Some (combine n sup sdw) ->
      nth_error a idu =
      Some (fock_energy K half n (fun i => H 1%nat i i + mu) (fun i => H 1%nat i i + mu) V
              (match z with Some z => z | None => fun _ => if hf then 1 else 0 end) hf sup sdw).
Proof.
  intros Hn Hs. unfold build_ham_local, build_n. cbn [states_dim].
  destruct (n_all_schedules n H V (default_z K hf z) hf mu states _ Hn Hs (Permutation_refl _))
    as [a [E [L G]]].
  exists a. split; auto. split; auto. intros idu sup sdw Hu Hd Ed.
  rewrite (G _ _ _ Hu Hd Ed). destruct z; auto. unfold default_z. destruct hf; auto.
Qed.

Lemma n_sz_agree n H V states hf mu z up dw idu iup idw sup sdw :
  (n <= 16)%nat -> (forall s, In s states -> (s < 2 ^ N.of_nat (2 * n))%N) ->
  (sup < 2 ^ N.of_nat n)%N -> (sdw < 2 ^ N.of_nat n)%N ->
  (forall i, (i < n)%nat -> H 0%nat i i = H 1%nat i i) ->
  nth_error states idu = Some (combine n sup sdw) ->
  nth_error up iup = Some sup -> nth_error dw idw = Some sdw ->
  exists an asz v, build_ham_local K half n H V (StN states) hf mu z = Ok an /\
    build_ham_local K half n H V (StSz up dw) hf mu z = Ok asz /\
    nth_error an idu = Some v /\ nth_error asz (iup + idw * length up) = Some v.
Proof.
  intros Hn Hs Hu Hd HH En Eu Ed.
  destruct (build_ham_local_n n H V states hf mu z Hn Hs) as [an [E1 [_ G1]]].
  destruct (build_ham_local_sz n H V up dw hf mu z) as [asz [E2 [_ G2]]].
  exists an, asz. eexists. split; [exact E1|]. split; [exact E2|].
  split; [exact (G1 _ _ _ Hu Hd En)|]. rewrite (G2 _ _ _ _ Eu Ed). f_equal.
  apply fock_energy_ext; auto. intros i Hi. now rewrite HH.
Qed.

End Energy.

(** Witness: different spin blocks. *)
Definition wH (s i j : nat) : QcRing := match s with O => qz 1 | _ => qz 0 end.
Lemma n_sz_disagree :
  exists an asz vn vz,
    build_ham_local QcRing qhalf 1 wH (fun _ _ => qz 0) (StN [1; 2]%N) false (qz 0) None = Ok an /\
    build_ham_local QcRing qhalf 1 wH (fun _ _ => qz 0) (StSz [1]%N [0]%N) false (qz 0) None = Ok asz /\
    nth_error an 0 = Some vn /\ nth_error asz 0 = Some vz /\ vn <> vz.
Proof.
  eexists _, _, _, _. split; [vm_compute; reflexivity|]. split; [vm_compute; reflexivity|].
  split; [reflexivity|]. split; [reflexivity|]. intros H. apply (f_equal (fun q : QcRing => Qcanon.this q)) in H.
  vm_compute in H. discriminate.
Qed.
