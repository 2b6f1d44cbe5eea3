(** C142: the calls of a fit answer from their own argument, although they share
    work arrays. *)
From Coq Require Import Reals List Arith ZArith Bool Lia Lra.
From Verif Require Import Base RBase RLin CBase FitModel FitSpec FitProofs BufModel BufSpec BufProofs.
Import ListNotations.
Local Open Scope R_scope.

(** Any sequence of calls, from any content of the arrays. *)
Theorem C142_session : forall (m : nat) (z vals : list cx), length vals = length z -> (0 < length z)%nat ->
  forall (cs : list call) (b : buffers), shaped m z b ->
  Forall (fun c => length (point c) = (2 * m)%nat /\ off_levels (point c) z) cs ->
  Forall2 (right_answer m z vals) cs (snd (session z vals (2 * m) b cs)).
Proof. exact session_right. Qed.
Print Assumptions C142_session.

(** The array handed out by [delta] holds the hybridisation of the last call of
    any kind. *)
Theorem C142_array : forall (m : nat) (z vals : list cx), length vals = length z -> (0 < length z)%nat ->
  forall (cs : list call) (b : buffers) (c : call), shaped m z b ->
  Forall (fun c => length (point c) = (2 * m)%nat /\ off_levels (point c) z) (cs ++ [c]) ->
  holds_hyb m z (point c) (b_delta (fst (session z vals (2 * m) b (cs ++ [c])))).
Proof. exact session_array. Qed.
Print Assumptions C142_array.

(** So an array kept from an earlier call is not the result of that call. *)
Theorem C142_kept_refuted : exists z vals b p q, shaped 1 z b /\ length vals = length z /\ off_levels p z /\ off_levels q z /\
  length p = 2%nat /\ length q = 2%nat /\
  holds_hyb 1 z p (b_delta (fst (session z vals 2 b [CallDelta p]))) /\
  ~ holds_hyb 1 z p (b_delta (fst (session z vals 2 b [CallDelta p; CallDelta q]))).
Proof. exact array_replaced. Qed.
Print Assumptions C142_kept_refuted.

(** With an odd number of parameters the last derivative is whatever the memory
    held. *)
Theorem C142_odd_refuted : forall x y : R, exists g,
  snd (step [(0, 1)] [(1, 0)] 3 {| b_delta := [rcx 0]; b_ddelta := [[rcx 0; rcx 0; (x, y)]]; b_F := [rcx 0] |} (CallDchi2 [0; 0; 5])) = Vector (Ok g) /\
  nth 2 g 0 = -2 * x.
Proof. exact odd_gradient. Qed.
Print Assumptions C142_odd_refuted.

(** One level, one grid point; the value after other calls, from any memory. *)
Example C142_ex : forall a c d f : cx, exists g,
  snd (session [(0, 1)] [(0, -1)] 2 {| b_delta := [a]; b_ddelta := [[c; d]]; b_F := [f] |}
    [CallChi2 [0; 1]; CallDchi2 [0; 3]; CallChi2 [0; 2]]) = [Number 0; g; Number 9].
Proof.
  intros a c d f.
  assert (D : forall v, distance_at 1 [(0, 1)] [(0, -1)] [0; v] = (v ^ 2 - 1) ^ 2).
  { intros v. unfold distance_at. rewrite <- (chi2_misfit 1 [0; v] [(0, 1)] [(0, -1)] eq_refl eq_refl).
    unfold chi2, chi2_loop, delta_fit. cbn [map length seq fold_left nth]. rewrite delta1_one.
    unfold cxdiv, cxinv, cxmul, cxadd, cxsub, cxopp, rcx, cxn2, re, im. cbn. field. }
  assert (O : forall v, off_levels [0; v] [(0, 1)]).
  { intros v i j Hi Hj. cbn in Hi, Hj. replace i with 0%nat by lia. replace j with 0%nat by lia. cbn. intros E. injection E. lra. }
  set (b := {| b_delta := [a]; b_ddelta := [[c; d]]; b_F := [f] |}).
  assert (S : shaped 1 [(0, 1)] b) by (repeat split; intros row [<-|[]]; reflexivity).
  assert (H := session_right 1 [(0, 1)] [(0, -1)] eq_refl ltac:(cbn; lia) [CallChi2 [0; 1]; CallDchi2 [0; 3]; CallChi2 [0; 2]] b S
    ltac:(repeat constructor; apply O)).
  change (2 * 1)%nat with 2%nat in H.
  destruct (snd (session [(0, 1)] [(0, -1)] 2 b [CallChi2 [0; 1]; CallDchi2 [0; 3]; CallChi2 [0; 2]])) as [|a1 [|a2 [|a3 [|a4 l]]]];
    inversion_clear H as [|? ? ? ? H1 T1]; inversion_clear T1 as [|? ? ? ? H2 T2]; inversion_clear T2 as [|? ? ? ? H3 T3]; inversion_clear T3.
  destruct a1 as [|x1|]; try contradiction. destruct a3 as [|x3|]; try contradiction. cbn [right_answer] in H1, H3. rewrite D in H1, H3.
  exists a2. subst x1 x3. f_equal; [f_equal; ring|]. f_equal. f_equal. f_equal. ring.
Qed.
