(** Occupations: bounds, sums, layouts, thermal averages, distributed runs. *)
From Coq Require Import Reals List Arith NArith ZArith Bool Lia Lra Psatz Ring.
From Verif Require Import Base RBase RLin OperatorsModel OperatorsSpec OperatorsProofs LookupSpec LookupProofs SectorModel SectorSpec SectorProofs
  FockSpec FockProofs LocalModel ProjModel ProjProofs ProjFinalProofs GfMoreProofs ObsModel ObsSpec ObsProofs.
Import ListNotations.

Section Ring.
Variable K : CRing.
Add Ring Kr : (cth K).
Local Open Scope cr_scope.
Notation ent2 v j i := (nth i (nth j v []) (c0 K)).

Lemma shaped_eq (x y : list (list K)) nr nc : shape2 K x nr nc -> shape2 K y nr nc ->
  (forall j i, (j < nr)%nat -> (i < nc)%nat -> ent2 x j i = ent2 y j i) -> x = y.
Proof.
  intros [L1 A1] [L2 A2] H. apply nth_ext with (d := []) (d' := []); [congruence|]. intros j Hj. rewrite L1 in Hj.
  apply nth_ext with (d := 0) (d' := 0).
  - rewrite A1, A2 by (apply nth_In; lia). reflexivity.
  - intros i Hi. rewrite A1 in Hi by (apply nth_In; lia). auto.
Qed.

Lemma expect_ext n up dw (v w : nat -> K) orb : (forall i, (i < length dw * length up)%nat -> v i = w i) -> expect K n up dw v orb = expect K n up dw w orb.
Proof. intros H. unfold expect. apply nsum_ext. intros a Ha. now rewrite H. Qed.

Lemma layouts_agree n up dw (a b : arr K) nev coeffs : (forall s, In s up -> (s < 2 ^ N.of_nat n)%N) ->
  matrix_arr K a (length up * length dw) nev -> matrix_arr K b (length up * length dw) nev ->
  match coeffs with Some c => length c = nev | None => True end ->
  (forall i j, (i < length up * length dw)%nat -> (j < nev)%nat -> entry K a (length up * length dw) nev i j = entry K b (length up * length dw) nev i j) ->
  fst (evecs_occupation K a up dw n coeffs) = fst (evecs_occupation K b up dw n coeffs).
Proof.
  intros HU Ha Hb Hc HE.
  destruct (evecs_occupation_ok K n up dw HU a nev coeffs Ha Hc) as (mu & md & a' & -> & S1 & S2 & H & _).
  destruct (evecs_occupation_ok K n up dw HU b nev coeffs Hb Hc) as (mu' & md' & b' & -> & S1' & S2' & H' & _).
  cbn [fst]. f_equal. f_equal; apply (shaped_eq _ _ n nev); auto; intros k j Hk Hj; destruct (H k j Hk Hj) as [A B], (H' k j Hk Hj) as [A' B'].
  - rewrite A, A'. f_equal. apply expect_ext. intros i Hi. apply HE; lia.
  - rewrite B, B'. f_equal. apply expect_ext. intros i Hi. apply HE; lia.
Qed.

Lemma weights_linear n up dw (a : arr K) nev c : (forall s, In s up -> (s < 2 ^ N.of_nat n)%N) ->
  matrix_arr K a (length up * length dw) nev -> length c = nev ->
  exists mu md wu wd, fst (evecs_occupation K a up dw n None) = Ok (mu, md) /\ fst (evecs_occupation K a up dw n (Some c)) = Ok (wu, wd) /\
  shaped wu n nev /\ shaped wd n nev /\
  forall k j, (k < n)%nat -> (j < nev)%nat -> ent2 wu k j = nth j c 0 * ent2 mu k j /\ ent2 wd k j = nth j c 0 * ent2 md k j.
Proof.
  intros HU Ha Hc.
  destruct (evecs_occupation_ok K n up dw HU a nev None Ha Logic.I) as (mu & md & a' & -> & S1 & S2 & H & _).
  destruct (evecs_occupation_ok K n up dw HU a nev (Some c) Ha Hc) as (wu & wd & b' & -> & S1' & S2' & H' & _).
  exists mu, md, wu, wd. repeat split; auto; try apply S1'; try apply S2';
  destruct (H k j ltac:(auto) ltac:(auto)) as [A B], (H' k j ltac:(auto) ltac:(auto)) as [A' B']; cbn [weight_of] in *.
  - rewrite A, A'. ring.
  - rewrite B, B'. ring.
Qed.

Lemma second_call n up dw (a : arr K) nev coeffs coeffs' : (forall s, In s up -> (s < 2 ^ N.of_nat n)%N) ->
  matrix_arr K a (length up * length dw) nev -> match coeffs with Some c => length c = nev | None => True end ->
  let r := evecs_occupation K a up dw n coeffs in
  (a_f K a = true -> snd r = a) /\
  (a_f K a = false -> a_shape K (snd r) = [length dw; length up; nev] /\
     (up <> [] -> dw <> [] -> nev <> length up -> fst (evecs_occupation K (snd r) up dw n coeffs') = Err ValueError)).
Proof.
  intros HU Ha Hc. destruct (evecs_occupation_ok K n up dw HU a nev coeffs Ha Hc) as (mu & md & a' & E & _ & _ & _ & Ea). cbn zeta. rewrite E. cbn [snd]. split.
  - intros F. now rewrite Ea, F.
  - intros F. rewrite F in Ea. rewrite Ea. split; [reflexivity|]. intros U D NE. unfold evecs_occupation. cbn [a_shape nth_error a_f].
    unfold set_shape, size_of. cbn [fold_left a_buf]. destruct Ha as [_ ->].
    replace (1 * length dw * length up * length up =? length up * length dw * nev)%nat with false; [reflexivity|].
    symmetry. apply Nat.eqb_neq. assert (length up <> 0)%nat by (destruct up; simpl; congruence). assert (length dw <> 0)%nat by (destruct dw; simpl; congruence).
    intros C. apply NE. apply (Nat.mul_cancel_l nev (length up) (length up * length dw)); nia.
Qed.

(** ** Distributed *)
Lemma madd_ok x y nr nc : shape2 K x nr nc -> shape2 K y nr nc -> shape2 K (madd K x y) nr nc /\
  forall j i, (j < nr)%nat -> (i < nc)%nat -> ent2 (madd K x y) j i = ent2 x j i + ent2 y j i.
Proof.
  intros [L1 A1] [L2 A2]. unfold madd. split; [split|].
  - rewrite map_length, combine_length. lia.
  - intros r Hr. apply in_map_iff in Hr. destruct Hr as ([s t] & <- & Hr). cbn [fst snd].
    rewrite map_length, combine_length, (A1 s) by (eapply in_combine_l; eauto). rewrite (A2 t) by (eapply in_combine_r; eauto). lia.
  - intros j i Hj Hi. rewrite (nth_map_combine _ x y j [] []) by lia. cbn [fst snd].
    assert (length (nth j x []) = nc) by (apply A1, nth_In; lia). assert (length (nth j y []) = nc) by (apply A2, nth_In; lia).
    rewrite (nth_map_combine _ (nth j x []) (nth j y []) i 0 0) by lia. reflexivity.
Qed.
Lemma fold_madd l nr nc : (forall x, In x l -> shape2 K x nr nc) -> forall x, shape2 K x nr nc ->
  shape2 K (fold_left (madd K) l x) nr nc /\
  forall j i, (j < nr)%nat -> (i < nc)%nat -> ent2 (fold_left (madd K) l x) j i = ent2 x j i + bsum (fun m => ent2 m j i) l.
Proof.
  induction l as [|y l IH]; intros H x Sx.
  - split; [exact Sx|]. intros. simpl. ring.
  - destruct (madd_ok x y nr nc Sx (H y (or_introl eq_refl))) as [A B]. destruct (IH (fun z Hz => H z (or_intror Hz)) _ A) as [C D].
    cbn [fold_left]. split; [exact C|]. intros j i Hj Hi. rewrite D, B by auto. simpl. ring.
Qed.
Lemma msum_ok l nr nc : l <> [] -> (forall x, In x l -> shape2 K x nr nc) -> shape2 K (msum K l) nr nc /\
  forall j i, (j < nr)%nat -> (i < nc)%nat -> ent2 (msum K l) j i = bsum (fun m => ent2 m j i) l.
Proof.
  destruct l as [|x l]; [congruence|]. intros _ H. simpl. destruct (fold_madd l nr nc (fun z Hz => H z (or_intror Hz)) x (H x (or_introl eq_refl))) as [A B]. auto.
Qed.

Lemma mapM_enum {A B} (f : nat * A -> res B) (P : nat -> B -> Prop) (l : list A) d :
  (forall i, (i < length l)%nat -> exists b, f (i, nth i l d) = Ok b /\ P i b) ->
  exists bs, mapM f (enum l) = Ok bs /\ length bs = length l /\ forall i db, (i < length l)%nat -> P i (nth i bs db).
Proof.
  unfold enum. set (m := 0%nat). intros H.
  assert (G : forall m (l : list A), (forall i, (i < length l)%nat -> exists b, f ((m + i)%nat, nth i l d) = Ok b /\ P (m + i)%nat b) ->
    exists bs, mapM f (List.combine (seq m (length l)) l) = Ok bs /\ length bs = length l /\ forall i db, (i < length l)%nat -> P (m + i)%nat (nth i bs db)).
  { clear. intros m l. revert m. induction l as [|a l IH]; intros m H.
    - exists []. simpl. split; [auto|]. split; [auto|]. intros; lia.
    - destruct (H 0%nat) as (b & E & Pb); [simpl; lia|]. rewrite Nat.add_0_r in E, Pb. simpl in E.
      destruct (IH (S m)) as (bs & E' & L & Q). { intros i Hi. destruct (H (S i)) as (b' & Eb & Pb'); [simpl; lia|]. rewrite Nat.add_succ_r in Eb, Pb'. exists b'. auto. }
      exists (b :: bs). simpl. rewrite E. cbn [bind]. rewrite E'. cbn [bind]. split; [auto|]. split; [simpl; lia|].
      intros [|i] db Hi; [now rewrite Nat.add_0_r|]. rewrite Nat.add_succ_r. apply (Q i db). lia. }
  apply (G m l). exact H.
Qed.

Lemma nth_slice {A} (l : list A) loc a i d : (i < loc)%nat -> nth i (firstn loc (skipn a l)) d = nth (a + i) l d.
Proof.
  intros H. rewrite <- (firstn_skipn a l) at 2. destruct (Nat.le_gt_cases a (length l)).
  - rewrite app_nth2 by (rewrite firstn_length; lia). rewrite firstn_length_le by auto. replace (a + i - a)%nat with i by lia.
    revert loc H. generalize (skipn a l). intros m. revert i. induction m as [|x m IH]; intros i loc Hi; destruct loc; simpl; try lia; auto.
    destruct i; auto. apply IH. lia.
  - rewrite skipn_all2, firstn_nil, app_nil_r by lia. rewrite (firstn_all2 l) by lia. rewrite (nth_overflow l) by lia. now destruct i.
Qed.

Lemma mpi_ok n up dw (arrs : list (arr K)) nev coeffs (v : nat -> nat -> K) d0 :
  (forall s, In s up -> (s < 2 ^ N.of_nat n)%N) -> arrs <> [] ->
  match coeffs with Some c => length c = nev | None => True end ->
  let loc := (length dw / length arrs)%nat in
  (forall r, (r < length arrs)%nat -> matrix_arr K (nth r arrs d0) (loc * length up) nev /\
     forall i j, (i < loc * length up)%nat -> (j < nev)%nat -> entry K (nth r arrs d0) (loc * length up) nev i j = v (r * (loc * length up) + i)%nat j) ->
  exists mu md, evecs_occupation_mpi K arrs up dw n coeffs = Ok (mu, md) /\ shape2 K mu n nev /\ shape2 K md n nev /\
  forall k j, (k < n)%nat -> (j < nev)%nat ->
    ent2 mu k j = weight_of K coeffs j * expect K n up (firstn (length arrs * loc) dw) (fun i => v i j) k /\
    ent2 md k j = weight_of K coeffs j * expect K n up (firstn (length arrs * loc) dw) (fun i => v i j) (n + k).
Proof.
  intros HU NE Hc loc H. assert (HP : (length arrs <> 0)%nat) by (destruct arrs; simpl; congruence).
  assert (HL : (length arrs * loc <= length dw)%nat) by (apply Nat.mul_div_le; auto).
  unfold evecs_occupation_mpi. fold loc.
  set (slice := fun r => firstn loc (skipn (r * loc) dw)).
  destruct (mapM_enum (fun p => fst (evecs_occupation K (snd p) up (firstn loc (skipn (fst p * loc) dw)) n coeffs))
    (fun r (b : list (list K) * list (list K)) => shape2 K (fst b) n nev /\ shape2 K (snd b) n nev /\ forall k j, (k < n)%nat -> (j < nev)%nat ->
      ent2 (fst b) k j = weight_of K coeffs j * expect K n up (slice r) (fun i => v (r * (loc * length up) + i)%nat j) k /\
      ent2 (snd b) k j = weight_of K coeffs j * expect K n up (slice r) (fun i => v (r * (loc * length up) + i)%nat j) (n + k)) arrs d0) as (bs & E & L & Q).
  { intros r Hr. cbn [fst snd]. fold (slice r). destruct (H r Hr) as [Hm He].
    assert (Ls : length (slice r) = loc) by (unfold slice; rewrite firstn_length, skipn_length; nia).
    destruct (evecs_occupation_ok K n up (slice r) HU (nth r arrs d0) nev coeffs) as (mu & md & a' & -> & S1 & S2 & Hk & _); [now rewrite Ls, Nat.mul_comm|exact Hc|].
    exists (mu, md). split; [reflexivity|]. cbn [fst snd]. split; [exact S1|]. split; [exact S2|]. intros k j Hk' Hj. destruct (Hk k j Hk' Hj) as [-> ->].
    rewrite Ls, (Nat.mul_comm (length up)). split; f_equal; apply expect_ext; rewrite Ls; intros i Hi; apply He; auto. }
  rewrite E. cbn [bind]. eexists _, _. split; [reflexivity|].
  assert (NB : bs <> []) by (destruct bs; simpl in L; congruence).
  destruct (msum_ok (map fst bs) n nev) as [S1 H1]; [destruct bs; simpl; congruence| |].
  { intros x Hx. apply in_map_iff in Hx. destruct Hx as (b & <- & Hb). apply (In_nth _ _ b) in Hb. destruct Hb as (i & Hi & <-). apply (Q i b). lia. }
  destruct (msum_ok (map snd bs) n nev) as [S2 H2]; [destruct bs; simpl; congruence| |].
  { intros x Hx. apply in_map_iff in Hx. destruct Hx as (b & <- & Hb). apply (In_nth _ _ b) in Hb. destruct Hb as (i & Hi & <-). apply (Q i b). lia. }
  split; [exact S1|]. split; [exact S2|]. intros k j Hk Hj. rewrite H1, H2, !bsum_map, !(bsum_nth K _ bs ([], [])), L by auto.
  assert (Lf : length (firstn (length arrs * loc) dw) = (length arrs * loc)%nat) by (apply firstn_length_le; auto).
  rewrite (expect_up K n up _ HU) by auto. rewrite (expect_dw K n up _ HU), Lf. rewrite <- !nsum_scal_l. split.
  - transitivity (nsum (length arrs) (fun r => weight_of K coeffs j * expect K n up (slice r) (fun i => v (r * (loc * length up) + i)%nat j) k)).
    { apply nsum_ext. intros r Hr. apply (proj2 (proj2 (Q r ([], []) Hr))); auto. }
    rewrite nsum_scal_l, nsum_scal_l. f_equal.
    transitivity (nsum (length arrs) (fun r => nsum (length up) (fun i => if occ (nth i up 0%N) k then nsum loc (fun m => v (i + (m + r * loc) * length up)%nat j * v (i + (m + r * loc) * length up)%nat j) else 0))).
    + apply nsum_ext. intros r Hr. assert (Ls : length (slice r) = loc) by (unfold slice; rewrite firstn_length, skipn_length; nia).
      rewrite (expect_up K n up _ HU), Ls by auto. apply nsum_ext. intros i Hi. destruct (occ (nth i up 0%N) k); [|reflexivity]. apply nsum_ext. intros m _. do 2 f_equal; lia.
    + rewrite nsum_swap. apply nsum_ext. intros i Hi. destruct (occ (nth i up 0%N) k); [|now apply nsum_0]. now rewrite nsum_mul.
  - transitivity (nsum (length arrs) (fun r => weight_of K coeffs j * expect K n up (slice r) (fun i => v (r * (loc * length up) + i)%nat j) (n + k))).
    { apply nsum_ext. intros r Hr. apply (proj2 (proj2 (Q r ([], []) Hr))); auto. }
    rewrite nsum_scal_l, nsum_scal_l. f_equal. rewrite nsum_mul. apply nsum_ext. intros r Hr.
    assert (Ls : length (slice r) = loc) by (unfold slice; rewrite firstn_length, skipn_length; nia).
    rewrite (expect_dw K n up _ HU), Ls. apply nsum_ext. intros m Hm. unfold slice. rewrite nth_slice by auto.
    replace (nth (m + r * loc) (firstn (length arrs * loc) dw) 0%N) with (nth (r * loc + m) dw 0%N).
    2: { pose proof (nth_slice dw (length arrs * loc) 0 (m + r * loc) 0%N ltac:(nia)) as Z. simpl skipn in Z. rewrite Z. f_equal. lia. }
    destruct (occ (nth (r * loc + m) dw 0%N) k); [|reflexivity]. apply nsum_ext. intros i _. do 2 f_equal; lia.
Qed.

Lemma mpi_serial n up dw (a : arr K) (arrs : list (arr K)) nev coeffs d0 :
  (forall s, In s up -> (s < 2 ^ N.of_nat n)%N) -> arrs <> [] -> Nat.divide (length arrs) (length dw) ->
  match coeffs with Some c => length c = nev | None => True end ->
  matrix_arr K a (length up * length dw) nev ->
  let loc := (length dw / length arrs)%nat in
  (forall r, (r < length arrs)%nat -> matrix_arr K (nth r arrs d0) (loc * length up) nev /\
     forall i j, (i < loc * length up)%nat -> (j < nev)%nat -> entry K (nth r arrs d0) (loc * length up) nev i j = entry K a (length up * length dw) nev (r * (loc * length up) + i) j) ->
  evecs_occupation_mpi K arrs up dw n coeffs = fst (evecs_occupation K a up dw n coeffs).
Proof.
  intros HU NE [c Hd] Hc Ha loc H. assert (HP : (length arrs <> 0)%nat) by (destruct arrs; simpl; congruence).
  destruct (mpi_ok n up dw arrs nev coeffs (fun i j => entry K a (length up * length dw) nev i j) d0 HU NE Hc H) as (mu & md & -> & S1 & S2 & HH).
  destruct (evecs_occupation_ok K n up dw HU a nev coeffs Ha Hc) as (mu' & md' & a' & -> & S1' & S2' & H' & _). cbn [fst].
  assert (E : firstn (length arrs * (length dw / length arrs)) dw = dw) by (apply firstn_all2; rewrite Hd, Nat.div_mul by auto; lia).
  f_equal. f_equal; apply (shaped_eq _ _ n nev); auto; intros k j Hk Hj; destruct (HH k j Hk Hj) as [A B], (H' k j Hk Hj) as [A' B']; rewrite E in *; congruence.
Qed.
End Ring.

(** ** Bounds and sums over the reals *)
Local Open Scope R_scope.
Notation entR v j i := (nth i (nth j v []) 0).

Lemma expect_bounds n up dw (v : nat -> R) orb : rsum (length up * length dw) (fun i => v i * v i) = 1 ->
  0 <= expect RRing n up dw v orb <= 1.
Proof.
  intros H. unfold expect. rewrite Nat.mul_comm in H. split.
  - apply rsum_nonneg. intros a _. destruct (occ _ orb); [apply Rle_0_sqr|apply Rle_refl].
  - rewrite <- H. apply rsum_le. intros a _. destruct (occ _ orb); [apply Rle_refl|apply Rle_0_sqr].
Qed.

Lemma count_sites (s : N) n p : in_sector n p s -> rsum n (fun k => if occ s k then 1 else 0) = INR p.
Proof.
  intros [B C]. rewrite <- C, <- (nocc_popcount n s B). unfold nocc. rewrite Nat.sub_0_r. clear.
  induction n as [|n IH]; [reflexivity|]. rewrite rsum_S, IH, seq_S, filter_app, app_length, plus_INR. cbn [plus filter]. destruct (occ s n); simpl; lra.
Qed.

Lemma expect_total_up n p up dw (v : nat -> R) : (forall s, In s up -> in_sector n p s) ->
  rsum (length up * length dw) (fun i => v i * v i) = 1 -> rsum n (fun k => expect RRing n up dw v k) = INR p.
Proof.
  intros HU H. unfold expect. change (rsum n (fun k => rsum (length dw * length up) (fun a => if occ (fock_at n up dw a) k then v a * v a else 0)) = INR p).
  rewrite rsum_swap. rewrite <- (Rmult_1_r (INR p)), <- H, (Nat.mul_comm (length up)), <- rsum_scal_l. apply rsum_ext. intros a Ha.
  transitivity (rsum n (fun k => (if occ (nth (a mod length up) up 0%N) k then 1 else 0) * (v a * v a))).
  - apply rsum_ext. intros k Hk. rewrite (occ_fock_up n up dw a k) by (auto; intros s Hs; apply (HU s Hs)). destruct (occ _ k); ring.
  - rewrite rsum_scal_r, (count_sites _ n p); [reflexivity|]. apply HU, nth_In, Nat.mod_upper_bound. lia.
Qed.
Lemma expect_total_dw n q up dw (v : nat -> R) : (forall s, In s up -> (s < 2 ^ N.of_nat n)%N) -> (forall s, In s dw -> in_sector n q s) ->
  rsum (length up * length dw) (fun i => v i * v i) = 1 -> rsum n (fun k => expect RRing n up dw v (n + k)) = INR q.
Proof.
  intros HU HD H. unfold expect. change (rsum n (fun k => rsum (length dw * length up) (fun a => if occ (fock_at n up dw a) (n + k) then v a * v a else 0)) = INR q).
  rewrite rsum_swap. rewrite <- (Rmult_1_r (INR q)), <- H, (Nat.mul_comm (length up)), <- rsum_scal_l. apply rsum_ext. intros a Ha.
  transitivity (rsum n (fun k => (if occ (nth (a / length up) dw 0%N) k then 1 else 0) * (v a * v a))).
  - apply rsum_ext. intros k Hk. rewrite (occ_fock_dw n up dw a k) by auto. destruct (occ _ k); ring.
  - rewrite rsum_scal_r, (count_sites _ n q); [reflexivity|]. apply HD, nth_In. apply Nat.div_lt_upper_bound; lia.
Qed.

Lemma occupation_bounds n p q up dw a nev : (p <= n)%nat -> (q <= n)%nat -> (n <= 32)%nat ->
  generate_states n p = Ok up -> generate_states n q = Ok dw ->
  matrix_arr RRing a (length up * length dw) nev -> unit_columns a (length up * length dw) nev ->
  exists mu md, fst (evecs_occupation RRing a up dw n None) = Ok (mu, md) /\ shaped mu n nev /\ shaped md n nev /\
  (forall k j, (k < n)%nat -> (j < nev)%nat -> 0 <= entR mu k j <= 1 /\ 0 <= entR md k j <= 1) /\
  forall j, (j < nev)%nat -> rsum n (fun k => entR mu k j) = INR p /\ rsum n (fun k => entR md k j) = INR q.
Proof.
  intros Hp Hq Hn Eu Ed Ha Hc. destruct (states_facts n p up Hp Hn Eu) as [_ Iu]. destruct (states_facts n q dw Hq Hn Ed) as [_ Id].
  assert (HU : forall s, In s up -> (s < 2 ^ N.of_nat n)%N) by (intros s Hs; apply Iu in Hs; apply Hs).
  destruct (evecs_occupation_ok RRing n up dw HU a nev None Ha Logic.I) as (mu & md & a' & -> & S1 & S2 & H & _).
  assert (H1 : forall k j, (k < n)%nat -> (j < nev)%nat ->
     entR mu k j = expect RRing n up dw (fun i => entry RRing a (length up * length dw) nev i j) k /\
     entR md k j = expect RRing n up dw (fun i => entry RRing a (length up * length dw) nev i j) (n + k)).
  { intros k j Hk Hj. destruct (H k j Hk Hj) as [A B]. cbn [weight_of] in A, B. split; [exact (eq_trans A (Rmult_1_l _))|exact (eq_trans B (Rmult_1_l _))]. }
  exists mu, md. split; [reflexivity|]. split; [exact S1|]. split; [exact S2|]. split.
  - intros k j Hk Hj. destruct (H1 k j Hk Hj) as [-> ->]. split; apply expect_bounds; apply (Hc j Hj).
  - intros j Hj. split.
    + rewrite (rsum_ext _ _ (fun k => expect RRing n up dw (fun i => entry RRing a (length up * length dw) nev i j) k)) by (intros k Hk; apply (H1 k j Hk Hj)).
      apply expect_total_up; [intros s Hs; now apply Iu|apply (Hc j Hj)].
    + rewrite (rsum_ext _ _ (fun k => expect RRing n up dw (fun i => entry RRing a (length up * length dw) nev i j) (n + k))) by (intros k Hk; apply (H1 k j Hk Hj)).
      apply expect_total_dw; [exact HU|intros s Hs; now apply Id|apply (Hc j Hj)].
Qed.

(** ** Thermal averages *)
Lemma fold_rsum (l : list R) : fold_left Rplus l 0 = rsum (length l) (fun j => nth j l 0).
Proof.
  assert (G : forall acc, fold_left Rplus l acc = acc + rsum (length l) (fun j => nth j l 0)).
  { induction l as [|x l IH]; intros acc; cbn [fold_left length]; [unfold rsum, nsum; simpl; symmetry; apply Rplus_0_r|]. rewrite IH, rsum_S_l. simpl. ring. }
  rewrite G. apply Rplus_0_l.
Qed.
Lemma vadd_ok (x y : list R) n : length x = n -> length y = n -> length (vadd x y) = n /\ forall k, (k < n)%nat -> nth k (vadd x y) 0 = nth k x 0 + nth k y 0.
Proof.
  intros A B. unfold vadd. split; [rewrite map_length, combine_length; lia|]. intros k Hk.
  assert (k < length x)%nat by (rewrite A; exact Hk). assert (k < length y)%nat by (rewrite B; exact Hk). exact (nth_map_combine (fun p : R * R => fst p + snd p) x y k 0 0 0 H H0).
Qed.
Lemma row_sums_ok (m : list (list R)) n nev : length m = n -> (forall x, In x m -> length x = nev) -> length (row_sums m) = n /\
  forall k, (k < n)%nat -> nth k (row_sums m) 0 = rsum nev (fun j => entR m k j).
Proof.
  intros L A. unfold row_sums. split; [now rewrite map_length|]. intros k Hk.
  rewrite (nth_indep _ 0 (fold_left Rplus [] 0)) by now rewrite map_length, L. rewrite (map_nth (fun r => fold_left Rplus r 0)), fold_rsum.
  rewrite A by (apply nth_In; lia). reflexivity.
Qed.

Definition weighted (egs beta : R) (n orb : nat) (s : osct) : R := rsum (length (o_vals s)) (fun j => boltzmann beta egs s j * sector_expect n s orb j).

Lemma loop_ok egs beta n scts : (forall s, In s scts -> sector_ok n s) -> forall nup ndw Z, length nup = n -> length ndw = n ->
  exists u d, fst (occupation_loop egs beta n scts nup ndw Z) = Ok (u, d, Z + thermal_Z scts egs beta) /\ length u = n /\ length d = n /\
  forall k, (k < n)%nat -> nth k u 0 = nth k nup 0 + bsum (K := RRing) (weighted egs beta n k) scts /\
                           nth k d 0 = nth k ndw 0 + bsum (K := RRing) (weighted egs beta n (n + k)) scts.
Proof.
  induction scts as [|s scts IH]; intros H nup ndw Z L1 L2.
  - exists nup, ndw. cbn [occupation_loop fst]. split; [do 3 f_equal; unfold thermal_Z; simpl; symmetry; apply Rplus_0_r|]. split; [auto|]. split; [auto|].
    intros k _. simpl. split; symmetry; apply Rplus_0_r.
  - destruct (H s (or_introl eq_refl)) as (p & q & up & dw & Hp & Hq & Hn & Es & Eu & Ed & Ha & Hc).
    destruct (states_facts n p up Hp Hn Eu) as [_ Iu].
    assert (HU : forall s, In s up -> (s < 2 ^ N.of_nat n)%N) by (intros t Ht; apply Iu in Ht; apply Ht).
    cbn [occupation_loop]. rewrite Es. set (exps := map (fun e : R => exp (- beta * (e - egs))) (o_vals s)).
    assert (Le : length exps = length (o_vals s)) by apply map_length.
    assert (Hexp : forall j, (j < length (o_vals s))%nat -> nth j exps 0 = boltzmann beta egs s j).
    { intros j Hj. unfold exps. rewrite (nth_indep _ 0 ((fun e : R => exp (- beta * (e - egs))) 0)) by now rewrite map_length. now rewrite (map_nth (fun e : R => exp (- beta * (e - egs)))). }
    destruct (evecs_occupation_ok RRing n up dw HU (o_vecs s) (length (o_vals s)) (Some exps) Ha Le) as (mu & md & a' & -> & S1 & S2 & HH & _).
    destruct (row_sums_ok mu n (length (o_vals s)) (proj1 S1) (proj2 S1)) as [R1 R2]. destruct (row_sums_ok md n (length (o_vals s)) (proj1 S2) (proj2 S2)) as [R3 R4].
    destruct (vadd_ok nup (row_sums mu) n L1 R1) as [V1 V2]. destruct (vadd_ok ndw (row_sums md) n L2 R3) as [V3 V4].
    destruct (IH (fun t Ht => H t (or_intror Ht)) (vadd nup (row_sums mu)) (vadd ndw (row_sums md)) (Z + fold_left Rplus exps 0) V1 V3) as (u & d & E & Lu & Ld & HK).
    destruct (occupation_loop egs beta n scts _ _ _) as [r ss]. cbn [fst] in *. exists u, d. split.
    + rewrite E. do 2 f_equal.
      change (thermal_Z (s :: scts) egs beta) with (rsum (length (o_vals s)) (boltzmann beta egs s) + thermal_Z scts egs beta).
      rewrite fold_rsum, Le, (rsum_ext _ _ (boltzmann beta egs s)) by auto. ring.
    + split; [auto|]. split; [auto|]. intros k Hk. destruct (HK k Hk) as [-> ->]. rewrite V2, V4, R2, R4 by auto. cbn [bsum].
      assert (G : forall orb (m : list (list R)), (forall j, (j < length (o_vals s))%nat -> entR m k j = nth j exps 0 * expect RRing n up dw (fun i => entry RRing (o_vecs s) (length up * length dw) (length (o_vals s)) i j) orb) ->
        rsum (length (o_vals s)) (fun j => entR m k j) = weighted egs beta n orb s).
      { intros orb m Hm. unfold weighted, sector_expect. rewrite Es. apply rsum_ext. intros j Hj. rewrite Hm, Hexp by auto. reflexivity. }
      rewrite (G k mu) by (intros j Hj; apply (HH k j Hk Hj)). rewrite (G (n + k)%nat md) by (intros j Hj; apply (HH k j Hk Hj)).
      split; apply Rplus_assoc.
Qed.

Lemma thermal_Z_pos scts egs beta : existsb (fun s => negb (length (o_vals s) =? 0)) scts = true -> 0 < thermal_Z scts egs beta.
Proof.
  unfold thermal_Z. intros H.
  assert (N : forall s, 0 <= rsum (length (o_vals s)) (boltzmann beta egs s)) by (intros s; apply rsum_nonneg; intros; left; apply exp_pos).
  assert (B : forall l, 0 <= bsum (K := RRing) (fun s => rsum (length (o_vals s)) (boltzmann beta egs s)) l).
  { induction l as [|s l IH]; cbn [bsum]; [apply Rle_refl|]. apply Rplus_le_le_0_compat; auto. }
  induction scts as [|s scts IH]; [discriminate|]. cbn [bsum existsb] in *. apply orb_true_iff in H. destruct H as [H|H].
  - apply Rplus_lt_le_0_compat; auto. apply negb_true_iff, Nat.eqb_neq in H.
    assert (P : 0 < boltzmann beta egs s 0) by apply exp_pos.
    eapply Rlt_le_trans; [exact P|]. apply (rsum_term_le _ (boltzmann beta egs s) 0); [intros; left; apply exp_pos|lia].
  - apply Rplus_le_lt_0_compat; auto.
Qed.

Lemma weighted_bounds egs beta n orb s : sector_ok n s -> 0 <= weighted egs beta n orb s <= rsum (length (o_vals s)) (boltzmann beta egs s).
Proof.
  intros (p & q & up & dw & Hp & Hq & Hn & Es & Eu & Ed & Ha & Hc). unfold weighted, sector_expect. rewrite Es.
  assert (B : forall j, (j < length (o_vals s))%nat -> 0 <= expect RRing n up dw (fun i => entry RRing (o_vecs s) (length up * length dw) (length (o_vals s)) i j) orb <= 1)
    by (intros j Hj; apply expect_bounds; apply (Hc j Hj)).
  assert (P : forall j, 0 < boltzmann beta egs s j) by (intros; apply exp_pos).
  split; [apply rsum_nonneg|apply rsum_le]; intros j Hj; specialize (B j Hj); specialize (P j); simpl in *; nra.
Qed.

Lemma thermal_ok scts egs beta n : (forall s, In s scts -> sector_ok n s) -> existsb (fun s => negb (length (o_vals s) =? 0)) scts = true ->
  exists u d, fst (get_occupation scts egs beta n) = Ok (u, d) /\ length u = n /\ length d = n /\
  forall k, (k < n)%nat -> nth k u 0 = thermal scts egs beta n k /\ nth k d 0 = thermal scts egs beta n (n + k) /\
     0 <= nth k u 0 <= 1 /\ 0 <= nth k d 0 <= 1.
Proof.
  intros H NE. pose proof (thermal_Z_pos scts egs beta NE) as ZP. unfold get_occupation.
  destruct (loop_ok egs beta n scts H (repeat 0 n) (repeat 0 n) 0 (repeat_length _ _) (repeat_length _ _)) as (u & d & E & Lu & Ld & HK).
  destruct (occupation_loop egs beta n scts _ _ _) as [r ss]. cbn [fst] in *. rewrite E. cbn [bind]. rewrite Rplus_0_l.
  eexists _, _. split; [reflexivity|]. split; [now rewrite map_length|]. split; [now rewrite map_length|]. intros k Hk.
  assert (D : forall (l : list R), length l = n -> nth k (map (fun y => y / thermal_Z scts egs beta) l) 0 = nth k l 0 / thermal_Z scts egs beta).
  { intros l Ll. rewrite (nth_indep _ 0 (0 / thermal_Z scts egs beta)) by now rewrite map_length, Ll. now rewrite (map_nth (fun y => y / thermal_Z scts egs beta)). }
  rewrite !D by auto. destruct (HK k Hk) as [-> ->]. rewrite nth_repeat, !Rplus_0_l.
  assert (B : forall orb, 0 <= bsum (K := RRing) (weighted egs beta n orb) scts <= thermal_Z scts egs beta).
  { intros orb. unfold thermal_Z. clear - H. induction scts as [|s l IH]; cbn [bsum]; [split; apply Rle_refl|].
    destruct (weighted_bounds egs beta n orb s (H s (or_introl eq_refl))). destruct (IH (fun t Ht => H t (or_intror Ht))).
    split; [apply Rplus_le_le_0_compat; auto|apply Rplus_le_compat; auto]. }
  split; [reflexivity|]. split; [reflexivity|].
  assert (G : forall x, 0 <= x <= thermal_Z scts egs beta -> 0 <= x / thermal_Z scts egs beta <= 1).
  { intros x Hx. split; [apply Rmult_le_pos; [lra|left; now apply Rinv_0_lt_compat]|]. apply (Rmult_le_reg_r (thermal_Z scts egs beta)); [auto|]. unfold Rdiv. rewrite Rmult_assoc, Rinv_l; lra. }
  split; apply G, B.
Qed.
