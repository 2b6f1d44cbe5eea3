(** Occupations: expectation values. *)
From Coq Require Import Reals List Arith NArith ZArith Bool Lia Lra Psatz Ring.
From Verif Require Import Base RBase RLin OperatorsModel OperatorsSpec OperatorsProofs LookupSpec LookupProofs SectorModel SectorSpec SectorProofs
  FockSpec FockProofs LocalModel ProjModel ProjProofs ProjFinalProofs ObsModel ObsSpec.
Import ListNotations.

Section Ring.
Variable K : CRing.
Add Ring Kr : (cth K).
Local Open Scope cr_scope.
Notation ent2 v j i := (nth i (nth j v []) (c0 K)).

Lemma nth_enum_map {A B} (f : nat * A -> B) (l : list A) (da : A) (db : B) k : (k < length l)%nat ->
  nth k (map f (List.combine (seq 0 (length l)) l)) db = f (k, nth k l da).
Proof.
  intros H. rewrite (nth_map_combine f (seq 0 (length l)) l k 0%nat da) by (rewrite ?seq_length; lia). now rewrite seq_nth by lia.
Qed.

Lemma add_occ_ok n nev acc s occps : shape2 K acc n nev -> length occps = nev ->
  shape2 K (add_occ K acc s occps) n nev /\
  forall k j, (k < n)%nat -> (j < nev)%nat -> ent2 (add_occ K acc s occps) k j = ent2 acc k j + z2k (Z.of_N (check_full s k)) * nth j occps 0.
Proof.
  intros [S1 S2] L. unfold add_occ. split.
  - split; [rewrite map_length, combine_length, seq_length; lia|]. intros x Hx. apply in_map_iff in Hx. destruct Hx as ([k r] & <- & Hx).
    apply in_combine_r in Hx. rewrite map_length, combine_length. cbn [snd]. rewrite (S2 _ Hx). lia.
  - intros k j Hk Hj. rewrite (nth_enum_map _ acc [] []) by lia. cbn [fst snd].
    assert (length (nth k acc []) = nev) by (apply S2, nth_In; lia).
    rewrite (nth_map_combine _ (nth k acc []) occps j 0 0) by lia. reflexivity.
Qed.

Lemma count_loop_ok n nev states (con : nat -> res (list K)) (g : nat -> nat -> K) :
  (forall i, (i < length states)%nat -> exists occps, con i = Ok occps /\ length occps = nev /\ forall j, (j < nev)%nat -> nth j occps 0 = g i j) ->
  exists m, count_loop K n nev states con = Ok m /\ shape2 K m n nev /\
  forall k j, (k < n)%nat -> (j < nev)%nat -> ent2 m k j = nsum (length states) (fun i => if occ (nth i states 0%N) k then g i j else 0).
Proof.
  intros H. unfold count_loop.
  destruct (fold_add K (fun acc p => do occps <- con (fst p); Ok (add_occ K acc (snd p) occps))
     (fun (p : nat * N) k j => if occ (snd p) k then g (fst p) j else 0) n nev (enum states)) with (v := repeat (repeat (c0 K) nev) n) as (m & E & S & HM).
  - intros v [i s] Hin Sv. apply in_enum in Hin. destruct Hin as [Hi Li]. destruct (H i Li) as (occps & Ec & Lc & Hc). cbn [fst snd]. rewrite Ec. cbn [bind].
    eexists. split; [reflexivity|]. destruct (add_occ_ok n nev v s occps Sv Lc) as [A B]. split; [exact A|]. intros k j Hk Hj. rewrite B, Hc by auto.
    rewrite check_full_spec. destruct (occ s k); simpl; ring.
  - apply zeros_shape.
  - exists m. split; [exact E|]. split; [exact S|]. intros k j Hk Hj. rewrite HM, zeros_ent by auto.
    rewrite (bsum_enum K states 0%N (fun i s => if occ s k then g i j else 0)). ring.
Qed.

Lemma contract_ok (buf : list K) coeffs nev m idx : match coeffs with Some c => length c = nev | None => True end ->
  exists occps, contract K buf coeffs nev m idx = Ok occps /\ length occps = nev /\
  forall j, (j < nev)%nat -> nth j occps 0 = weight_of K coeffs j * nsum m (fun r => nth (idx r j) buf 0 * nth (idx r j) buf 0).
Proof.
  intros H. unfold contract. destruct coeffs as [c|].
  - rewrite H, Nat.eqb_refl. eexists. split; [reflexivity|]. split; [now rewrite map_length, seq_length|]. intros j Hj.
    rewrite (nth_indep _ 0 (nsum m (fun r => nth 0 c 0 * nth (idx r 0%nat) buf 0 * nth (idx r 0%nat) buf 0))) by now rewrite map_length, seq_length.
    rewrite (map_nth (fun j => nsum m (fun r => nth j c 0 * nth (idx r j) buf 0 * nth (idx r j) buf 0)) (seq 0 nev) 0%nat j), seq_nth by auto. simpl weight_of.
    rewrite <- nsum_scal_l. apply nsum_ext. intros r _. simpl. ring.
  - eexists. split; [reflexivity|]. split; [now rewrite map_length, seq_length|]. intros j Hj.
    rewrite (nth_indep _ 0 (nsum m (fun r => nth (idx r 0%nat) buf 0 * nth (idx r 0%nat) buf 0))) by now rewrite map_length, seq_length.
    rewrite (map_nth (fun j => nsum m (fun r => nth (idx r j) buf 0 * nth (idx r j) buf 0)) (seq 0 nev) 0%nat j), seq_nth by auto. simpl. ring.
Qed.

Lemma occ_fock_up n (up dw : list N) a k : (forall s, In s up -> (s < 2 ^ N.of_nat n)%N) -> (a < length dw * length up)%nat -> (k < n)%nat ->
  occ (fock_at n up dw a) k = occ (nth (a mod length up) up 0%N) k.
Proof.
  intros B Ha Hk. unfold fock_at. rewrite occ_combine.
  - destruct (Nat.ltb_spec k n); [reflexivity|lia].
  - apply B, nth_In, Nat.mod_upper_bound. lia.
Qed.
Lemma occ_fock_dw n (up dw : list N) a k : (forall s, In s up -> (s < 2 ^ N.of_nat n)%N) -> (a < length dw * length up)%nat ->
  occ (fock_at n up dw a) (n + k) = occ (nth (a / length up) dw 0%N) k.
Proof.
  intros B Ha. unfold fock_at. rewrite occ_combine.
  - destruct (Nat.ltb_spec (n + k) n); [lia|]. f_equal. lia.
  - apply B, nth_In, Nat.mod_upper_bound. lia.
Qed.

Section One.
Variables (n : nat) (up dw : list N).
Hypothesis HU : forall s, In s up -> (s < 2 ^ N.of_nat n)%N.
Notation u := (length up). Notation w := (length dw).

Lemma expect_up (v : nat -> K) k : (k < n)%nat ->
  expect K n up dw v k = nsum u (fun i => if occ (nth i up 0%N) k then nsum w (fun m => v (i + m * u)%nat * v (i + m * u)%nat) else 0).
Proof.
  intros Hk. unfold expect. rewrite nsum_mul, nsum_swap. apply nsum_ext. intros i Hi.
  transitivity (nsum w (fun m => if occ (nth i up 0%N) k then v (i + m * u)%nat * v (i + m * u)%nat else 0)).
  - apply nsum_ext. intros m Hm. rewrite occ_fock_up by (auto; nia). destruct (divmod (i + m * u) u i m Hi eq_refl) as [-> _]. reflexivity.
  - destruct (occ (nth i up 0%N) k); [reflexivity|]. now apply nsum_0.
Qed.
Lemma expect_dw (v : nat -> K) k :
  expect K n up dw v (n + k) = nsum w (fun m => if occ (nth m dw 0%N) k then nsum u (fun i => v (i + m * u)%nat * v (i + m * u)%nat) else 0).
Proof.
  unfold expect. rewrite nsum_mul. apply nsum_ext. intros m Hm.
  transitivity (nsum u (fun i => if occ (nth m dw 0%N) k then v (i + m * u)%nat * v (i + m * u)%nat else 0)).
  - apply nsum_ext. intros i Hi. rewrite occ_fock_dw by (auto; nia). destruct (divmod (i + m * u) u i m Hi eq_refl) as [_ ->]. reflexivity.
  - destruct (occ (nth m dw 0%N) k); [reflexivity|]. now apply nsum_0.
Qed.

Lemma evecs_occupation_ok (a : arr K) nev coeffs : matrix_arr K a (u * w) nev -> match coeffs with Some c => length c = nev | None => True end ->
  exists mu md a', evecs_occupation K a up dw n coeffs = (Ok (mu, md), a') /\ shape2 K mu n nev /\ shape2 K md n nev /\
  (forall k j, (k < n)%nat -> (j < nev)%nat ->
     ent2 mu k j = weight_of K coeffs j * expect K n up dw (fun i => entry K a (u * w) nev i j) k /\
     ent2 md k j = weight_of K coeffs j * expect K n up dw (fun i => entry K a (u * w) nev i j) (n + k)) /\
  a' = if a_f K a then a else mkarr K false [w; u; nev] (a_buf K a).
Proof.
  intros [HS HL] Hc. unfold evecs_occupation. rewrite HS. cbn [nth_error]. destruct (a_f K a) eqn:EF.
  - unfold set_shape, size_of. cbn [fold_left]. rewrite HL. replace (1 * nev * w * u =? u * w * nev)%nat with true by (symmetry; apply Nat.eqb_eq; lia). cbn [a_buf].
    destruct (count_loop_ok n nev up (fun iup => contract K (a_buf K a) coeffs nev w (fun idw j => ((j * w + idw) * u + iup)%nat))
      (fun iup j => weight_of K coeffs j * nsum w (fun idw => nth ((j * w + idw) * u + iup) (a_buf K a) 0 * nth ((j * w + idw) * u + iup) (a_buf K a) 0))) as (mu & E1 & S1 & H1).
    { intros i _. destruct (contract_ok (a_buf K a) coeffs nev w (fun idw j => ((j * w + idw) * u + i)%nat) Hc) as (o & A & B & C). exists o. auto. }
    destruct (count_loop_ok n nev dw (fun idw => contract K (a_buf K a) coeffs nev u (fun iup j => ((j * w + idw) * u + iup)%nat))
      (fun idw j => weight_of K coeffs j * nsum u (fun iup => nth ((j * w + idw) * u + iup) (a_buf K a) 0 * nth ((j * w + idw) * u + iup) (a_buf K a) 0))) as (md & E2 & S2 & H2).
    { intros i _. destruct (contract_ok (a_buf K a) coeffs nev u (fun iup j => ((j * w + i) * u + iup)%nat) Hc) as (o & A & B & C). exists o. auto. }
    rewrite E1. cbn [bind]. rewrite E2. cbn [bind]. exists mu, md, a. split; [reflexivity|]. split; [exact S1|]. split; [exact S2|]. split; [|now rewrite ?EF].
    intros k j Hk Hj. rewrite H1, H2, expect_up, expect_dw by auto. unfold entry. rewrite EF. rewrite <- !nsum_scal_l. split; apply nsum_ext; intros i _.
    + destruct (occ (nth i up 0%N) k); [|ring]. f_equal. apply nsum_ext. intros m _. do 2 f_equal; lia.
    + destruct (occ (nth i dw 0%N) k); [|ring]. f_equal. apply nsum_ext. intros m _. do 2 f_equal; lia.
  - unfold set_shape, size_of. cbn [fold_left]. rewrite HL. replace (1 * w * u * nev =? u * w * nev)%nat with true by (symmetry; apply Nat.eqb_eq; lia). cbn [a_buf].
    destruct (count_loop_ok n nev up (fun iup => contract K (a_buf K a) coeffs nev w (fun idw j => ((idw * u + iup) * nev + j)%nat))
      (fun iup j => weight_of K coeffs j * nsum w (fun idw => nth ((idw * u + iup) * nev + j) (a_buf K a) 0 * nth ((idw * u + iup) * nev + j) (a_buf K a) 0))) as (mu & E1 & S1 & H1).
    { intros i _. destruct (contract_ok (a_buf K a) coeffs nev w (fun idw j => ((idw * u + i) * nev + j)%nat) Hc) as (o & A & B & C). exists o. auto. }
    destruct (count_loop_ok n nev dw (fun idw => contract K (a_buf K a) coeffs nev u (fun iup j => ((idw * u + iup) * nev + j)%nat))
      (fun idw j => weight_of K coeffs j * nsum u (fun iup => nth ((idw * u + iup) * nev + j) (a_buf K a) 0 * nth ((idw * u + iup) * nev + j) (a_buf K a) 0))) as (md & E2 & S2 & H2).
    { intros i _. destruct (contract_ok (a_buf K a) coeffs nev u (fun iup j => ((i * u + iup) * nev + j)%nat) Hc) as (o & A & B & C). exists o. auto. }
    rewrite E1. cbn [bind]. rewrite E2. cbn [bind]. eexists mu, md, _. split; [reflexivity|]. split; [exact S1|]. split; [exact S2|]. split; [|now rewrite ?EF].
    intros k j Hk Hj. rewrite H1, H2, expect_up, expect_dw by auto. unfold entry. rewrite EF. rewrite <- !nsum_scal_l. split; apply nsum_ext; intros i _.
    + destruct (occ (nth i up 0%N) k); [|ring]. f_equal. apply nsum_ext. intros m _. do 2 f_equal; lia.
    + destruct (occ (nth i dw 0%N) k); [|ring]. f_equal. apply nsum_ext. intros m _. do 2 f_equal; lia.
Qed.
End One.
End Ring.
