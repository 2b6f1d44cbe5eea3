(** The shared work arrays of the fit do not leak between calls. *)
From Coq Require Import Reals List Arith ZArith Bool Lia Lra.
From Verif Require Import Base RBase RLin CBase FitModel FitSpec FitProofs BufModel BufSpec.
Import ListNotations.
Local Open Scope R_scope.

(** A loop that writes every entry from its own old value. *)
Lemma fold_write {A} (f : nat -> A -> A) (d : A) n (l : list A) : (n <= length l)%nat ->
  let o := fold_left (fun out i => upd_tot out i (f i (nth i out d))) (seq 0 n) l in
  length o = length l /\ forall k, (k < length l)%nat -> nth k o d = if (k <? n)%nat then f k (nth k l d) else nth k l d.
Proof.
  induction n as [|n IH]; intros H; cbn zeta; [split; [reflexivity|intros k _; reflexivity]|].
  destruct (IH ltac:(lia)) as [L V]. rewrite seq_S, fold_left_app. cbn [fold_left Nat.add].
  set (o := fold_left _ (seq 0 n) l) in *. split; [now rewrite upd_tot_length|]. intros k Hk.
  rewrite nth_upd_tot by lia. destruct (Nat.eqb_spec n k) as [->|NE].
  - rewrite V by auto. rewrite Nat.ltb_irrefl. destruct (Nat.ltb_spec k (S k)); [reflexivity|lia].
  - rewrite V by auto. destruct (Nat.ltb_spec k n), (Nat.ltb_spec k (S n)); try reflexivity; lia.
Qed.
Lemma fold_left_ext {A B} (f g : A -> B -> A) l : (forall a b, f a b = g a b) -> forall a, fold_left f l a = fold_left g l a.
Proof. intros E. induction l as [|x l IH]; intros a; [reflexivity|]. simpl. rewrite E. apply IH. Qed.

Lemma upd_upd {A} (l : list A) i x y : (i < length l)%nat -> upd_tot (upd_tot l i x) i y = upd_tot l i y.
Proof.
  intros H. apply nth_ext with (d := x) (d' := x); [now rewrite !upd_tot_length|]. intros k Hk.
  rewrite nth_upd_tot by now rewrite upd_tot_length. rewrite !nth_upd_tot by auto. now destruct (Nat.eqb_spec i k).
Qed.
Lemma inner_sum (g : nat -> cx) i js : forall out c, (i < length out)%nat ->
  fold_left (fun out j => upd_tot out i (cxadd (nth i out (rcx 0)) (g j))) js (upd_tot out i c) =
  upd_tot out i (fold_left (fun s j => cxadd s (g j)) js c).
Proof.
  induction js as [|j js IH]; intros out c H; [reflexivity|]. cbn [fold_left].
  rewrite nth_upd_tot by auto. rewrite Nat.eqb_refl, upd_upd by auto. now apply IH.
Qed.

Lemma delta_into_fit p z out : length out = length z -> delta_into p z out = delta_fit p z.
Proof.
  intros L. unfold delta_into. cbn zeta.
  assert (G : forall n o, (n <= length z)%nat -> length o = length z ->
    fold_left (fun out i =>
    fold_left (fun out j => upd_tot out i (cxadd (nth i out (rcx 0)) (cxdiv (rcx (nth j (map (fun v => v ^ 2) (vks p)) 0)) (cxsub (nth i z (rcx 0)) (rcx (nth j (eks p) 0))))))
      (seq 0 (length (eks p))) (upd_tot out i (rcx 0))) (seq 0 n) o =
    fold_left (fun out i => upd_tot out i ((fun i _ => delta1 p (nth i z (rcx 0))) i (nth i out (rcx 0)))) (seq 0 n) o).
  { induction n as [|n IH]; intros o Hn Ho; [reflexivity|]. rewrite seq_S, !fold_left_app. cbn [fold_left Nat.add]. rewrite IH by (auto; lia).
    destruct (fold_write (fun i (_ : cx) => delta1 p (nth i z (rcx 0))) (rcx 0) n o ltac:(lia)) as [L' _]. cbn zeta in L'.
    rewrite inner_sum by lia. reflexivity. }
  rewrite G by auto.
  destruct (fold_write (fun i (_ : cx) => delta1 p (nth i z (rcx 0))) (rcx 0) (length z) out ltac:(lia)) as [L' V]. cbn zeta in L', V.
  apply nth_ext with (d := rcx 0) (d' := rcx 0); [unfold delta_fit; now rewrite map_length, L'|].
  intros k Hk. rewrite L' in Hk. rewrite V by auto. destruct (Nat.ltb_spec k (length z)); [|lia].
  unfold delta_fit. rewrite (nth_map_lt _ _ _ _ (rcx 0)) by lia. reflexivity.
Qed.
Lemma ddelta_into_map p z out : length out = length z ->
  ddelta_into p z out = map (fun q : cx * list cx => ddelta1 p (fst q) (snd q)) (combine z out).
Proof.
  intros L. unfold ddelta_into.
  destruct (fold_write (fun i row => ddelta1 p (nth i z (rcx 0)) row) [] (length z) out ltac:(lia)) as [L' V]. cbn zeta in L', V.
  apply nth_ext with (d := []) (d' := []); [rewrite map_length, combine_length, L'; lia|].
  intros k Hk. rewrite L' in Hk. rewrite V by auto. destruct (Nat.ltb_spec k (length z)); [|lia].
  rewrite (nth_map_lt _ _ _ _ (rcx 0, [])) by (rewrite combine_length; lia). rewrite combine_nth by auto. reflexivity.
Qed.

Lemma delta_fit_hyb m p z : length p = (2 * m)%nat -> holds_hyb m z p (delta_fit p z).
Proof. intros LP. unfold holds_hyb, delta_fit. apply map_ext. intros w. now apply delta1_hyb. Qed.

Lemma step_right m z vals b c : shaped m z b -> length vals = length z -> (0 < length z)%nat ->
  length (point c) = (2 * m)%nat -> off_levels (point c) z ->
  shaped m z (fst (step z vals (2 * m) b c)) /\ right_answer m z vals c (snd (step z vals (2 * m) b c)) /\
  holds_hyb m z (point c) (b_delta (fst (step z vals (2 * m) b c))).
Proof.
  intros (L1 & L2 & ROW) LV POS LP OFF.
  assert (LD : forall p, length (delta_fit p z) = length z) by (intros p; unfold delta_fit; apply map_length).
  destruct c as [p|p|p]; cbn [point] in LP, OFF; cbn [step]; cbn zeta; rewrite (delta_into_fit p z _ L1).
  - cbn [fst snd]. split; [|split; [exact I|now apply delta_fit_hyb]]. repeat split; cbn; auto.
  - cbn [fst snd]. split; [|split; [|now apply delta_fit_hyb]]. { repeat split; cbn; auto. }
    cbn. unfold distance_at. rewrite <- (chi2_misfit m p z vals LP LV). reflexivity.
  - rewrite LV, LD, Nat.eqb_refl, LP, Nat.eqb_refl. cbn [negb]. cbn [fst snd].
    destruct (gradient m p z vals (b_ddelta b) LP LV L2 ROW OFF POS) as (g & E & LG & D).
    split; [|split; [|now apply delta_fit_hyb]].
    + rewrite (ddelta_into_map p z _ L2). split; [apply LD|]. cbn [b_ddelta]. split; [rewrite map_length, combine_length; lia|].
      intros row Hr. apply in_map_iff in Hr. destruct Hr as ([w r] & <- & Hin). apply in_combine_r in Hin. cbn [fst snd].
      apply (ddelta1_entries m p LP). now apply ROW.
    + rewrite (ddelta_into_map p z _ L2). unfold dchi2 in E. rewrite LV, Nat.eqb_refl in E. cbn zeta in E. rewrite LP in E.
      match goal with |- right_answer _ _ _ _ (Vector (Ok ?v)) => assert (EV : v = g) by (assert (EV : Ok v = Ok g) by exact E; congruence) end.
      rewrite EV. unfold right_answer. split; [exact LG|]. intros k Hk.
      eapply dlim_ext; [|exact (D k Hk)]. intros t. unfold distance_at. apply chi2_misfit; [now rewrite upd_tot_length|exact LV].
Qed.

Theorem session_right m z vals : length vals = length z -> (0 < length z)%nat -> forall cs b, shaped m z b ->
  Forall (fun c => length (point c) = (2 * m)%nat /\ off_levels (point c) z) cs ->
  Forall2 (right_answer m z vals) cs (snd (session z vals (2 * m) b cs)).
Proof.
  intros LV POS. induction cs as [|c cs IH]; intros b S H; [constructor|]. inversion_clear H as [|? ? [LP OFF] T].
  destruct (step_right m z vals b c S LV POS LP OFF) as (S' & A & _). cbn [session].
  destruct (step z vals (2 * m) b c) as [b' a]. cbn [fst snd] in *. specialize (IH b' S' T).
  destruct (session z vals (2 * m) b' cs) as [b'' l]. now constructor.
Qed.
Theorem session_array m z vals : length vals = length z -> (0 < length z)%nat -> forall cs b c, shaped m z b ->
  Forall (fun c => length (point c) = (2 * m)%nat /\ off_levels (point c) z) (cs ++ [c]) ->
  holds_hyb m z (point c) (b_delta (fst (session z vals (2 * m) b (cs ++ [c])))).
Proof.
  intros LV POS. induction cs as [|c0 cs IH]; intros b c S H; inversion_clear H as [|? ? [LP OFF] T].
  - destruct (step_right m z vals b c S LV POS LP OFF) as (_ & _ & A). cbn [session app]. now destruct (step z vals (2 * m) b c).
  - destruct (step_right m z vals b c0 S LV POS LP OFF) as (S' & _ & _). cbn [session app].
    destruct (step z vals (2 * m) b c0) as [b' a]. cbn [fst] in S'. specialize (IH b' c S' T).
    now destruct (session z vals (2 * m) b' (cs ++ [c])).
Qed.

Lemma delta1_one e v w : delta1 [e; v] w = cxadd (rcx 0) (cxdiv (rcx (v ^ 2)) (cxsub w (rcx e))).
Proof. reflexivity. Qed.
Lemma array_replaced : exists z vals b p q, shaped 1 z b /\ length vals = length z /\ off_levels p z /\ off_levels q z /\
  length p = 2%nat /\ length q = 2%nat /\
  holds_hyb 1 z p (b_delta (fst (session z vals 2 b [CallDelta p]))) /\
  ~ holds_hyb 1 z p (b_delta (fst (session z vals 2 b [CallDelta p; CallDelta q]))).
Proof.
  set (z := [(0, 1) : cx]). set (b := {| b_delta := [rcx 0]; b_ddelta := [[rcx 0; rcx 0]]; b_F := [rcx 0] |}).
  assert (S : shaped 1 z b) by (repeat split; intros row [<-|[]]; reflexivity).
  assert (O : forall v, off_levels [0; v] z).
  { intros v i j Hi Hj. cbn in Hi, Hj. replace i with 0%nat by lia. replace j with 0%nat by lia. cbn. intros E. injection E. lra. }
  assert (P : (0 < length z)%nat) by (cbn; lia).
  exists z, z, b, [0; 1], [0; 2]. split; [exact S|]. do 5 (split; [auto|]). split.
  - apply (session_array 1 z z eq_refl P [] b (CallDelta [0; 1]) S). constructor; [split; [reflexivity|apply O]|constructor].
  - intros A.
    assert (B : holds_hyb 1 z [0; 2] (b_delta (fst (session z z 2 b [CallDelta [0; 1]; CallDelta [0; 2]])))).
    { apply (session_array 1 z z eq_refl P [CallDelta [0; 1]] b (CallDelta [0; 2]) S). repeat constructor; apply O. }
    unfold holds_hyb in A, B. rewrite A in B.
    assert (C : delta1 [0; 1] (0, 1) = delta1 [0; 2] (0, 1)).
    { rewrite (delta1_hyb 1 [0; 1] eq_refl), (delta1_hyb 1 [0; 2] eq_refl). exact (f_equal (hd (rcx 0)) B). }
    clear A B. rename C into B. rewrite !delta1_one in B.
    apply (f_equal (@snd R R)) in B. unfold cxdiv, cxinv, cxmul, cxadd, cxsub, cxopp, rcx, cxn2, re, im in B. cbn in B.
    field_simplify in B. lra.
Qed.

Lemma delta1_three w : delta1 [0; 0; 5] w = rcx 0.
Proof.
  change (delta1 [0; 0; 5] w) with (cxadd (rcx 0) (cxdiv (rcx (0 ^ 2)) (cxsub w (rcx 0)))).
  replace (0 ^ 2) with 0 by ring. unfold cxdiv. apply cx_eq; unfold cxmul, cxadd, rcx, re, im; cbn; ring.
Qed.
Lemma odd_gradient x y : exists g,
  snd (step [(0, 1)] [(1, 0)] 3 {| b_delta := [rcx 0]; b_ddelta := [[rcx 0; rcx 0; (x, y)]]; b_F := [rcx 0] |} (CallDchi2 [0; 0; 5])) = Vector (Ok g) /\
  nth 2 g 0 = -2 * x.
Proof.
  cbn [step]. cbn zeta. rewrite delta_into_fit by reflexivity. cbn [delta_fit map]. rewrite delta1_three.
  rewrite ddelta_into_map by reflexivity. cbn [b_ddelta length Nat.eqb negb snd combine map seq fst].
  eexists. split; [reflexivity|]. cbn [nth].
  change (nth 2 (ddelta1 [0; 0; 5] (0, 1) [rcx 0; rcx 0; (x, y)]) (rcx 0)) with ((x, y) : cx).
  unfold dotr, cxsub, cxadd, cxopp, rcx, re, im. cbn. field.
Qed.
