(** Distributed Lanczos steps and the second pass. *)
From Coq Require Import List Arith Bool Lia Ring Field.
From Verif Require Import Base LanczosModel LanczosSpec LanczosProofs LanczosOrthoProofs.
Import ListNotations.

(** ** Two related steps give the same coefficients *)
Section Sim.
Variables V1 V2 F E : Type.
Variable step1 : V1 -> V1 -> res (F * F * V1 * V1).
Variable step2 : V2 -> V2 -> res (F * F * V2 * V2).
Variable Rv : V1 -> V2 -> Prop.
Definition rel_out (x : F * F * V1 * V1) (y : F * F * V2 * V2) : Prop :=
  match x, y with (a, b, l, v), (a', b', l', v') => a = a' /\ b = b' /\ Rv l l' /\ Rv v v' end.
Hypothesis Hstep : forall v v' l l', Rv v v' -> Rv l l' -> res_rel rel_out (step1 v l) (step2 v' l').
Definition rel_st (s : lst V1 F) (s' : lst V2 F) : Prop :=
  l_n _ _ s = l_n _ _ s' /\ l_a _ _ s = l_a _ _ s' /\ l_b _ _ s = l_b _ _ s' /\ l_steps _ _ s = l_steps _ _ s' /\
  Rv (l_l _ _ s) (l_l _ _ s') /\ Rv (l_v _ _ s) (l_v _ _ s').
Variables (tiny : F -> bool) (egs : list F -> list F -> res E) (close : option E -> E -> bool) (maxn : nat).

Lemma inner_sim k : forall s s', rel_st s s' ->
  res_rel (fun x y => rel_st (fst x) (fst y) /\ snd x = snd y) (sl_inner V1 F step1 tiny maxn k s) (sl_inner V2 F step2 tiny maxn k s').
Proof.
  induction k as [|k IH]; intros s s' H; cbn [sl_inner]; [simpl; auto|].
  destruct s as [n a b l v c], s' as [n' a' b' l' v' c'].
  destruct H as (Hn & Ha & Hb & Hs & Hl & Hv). cbn [l_n l_a l_b l_l l_v l_steps] in *. subst n' a' b' c'.
  specialize (Hstep _ _ _ _ Hv Hl).
  destruct (step1 v l) as [[[[x1 x2] x3] x4]|], (step2 v' l') as [[[[y1 y2] y3] y4]|]; simpl in Hstep; try tauto.
  destruct Hstep as (-> & -> & ? & ?). cbn [bind].
  destruct (npset a n y1); cbn [bind]; [|reflexivity]. destruct (npset b n y2); cbn [bind]; [|reflexivity].
  destruct (tiny y2 || (maxn - 1 <=? n)).
  - destruct (n =? 0); simpl; [reflexivity|]. split; [|reflexivity]. repeat split; auto.
  - apply IH. repeat split; auto.
Qed.
Lemma outer_sim ND fuel : forall prev s s', rel_st s s' ->
  res_rel rel_st (sl_outer V1 F E step1 tiny egs close maxn ND fuel prev s) (sl_outer V2 F E step2 tiny egs close maxn ND fuel prev s').
Proof.
  induction fuel as [|fuel IH]; intros prev s s' H; cbn [sl_outer]; [reflexivity|].
  pose proof (inner_sim ND _ _ H) as I.
  destruct (sl_inner V1 F step1 tiny maxn ND s) as [[s1 c]|], (sl_inner V2 F step2 tiny maxn ND s') as [[s1' c']|]; simpl in I; try tauto.
  destruct I as [I ->]. cbn [bind]. pose proof I as I'. destruct I' as (Hn & Ha & Hb & _). rewrite Hn, Ha, Hb.
  destruct (l_n _ _ s1' =? 1); [exact I|].
  destruct (egs _ _) as [e|]; cbn [bind]; [|reflexivity]. destruct (c' || close prev e); [exact I|]. apply IH; auto.
Qed.
Lemma build_sim zero zero' phi phi' ga gb ND : Rv zero zero' -> Rv phi phi' ->
  res_rel rel_st (build_sl_tridiag V1 F E step1 tiny egs close zero phi ga gb maxn ND)
                 (build_sl_tridiag V2 F E step2 tiny egs close zero' phi' ga gb maxn ND).
Proof. intros. apply outer_sim. repeat split; auto. Qed.
End Sim.

Section Mpi.
Variable K : CField.
Local Open Scope cr_scope.
Add Field Kfield2 : (fth K).
Notation shaped := (@shaped K).

Lemma shaped_len shape (xs ys : list (list K)) : shaped shape xs -> shaped shape ys -> length xs = length ys.
Proof. unfold shaped. intros <- H. rewrite <- (map_length (@length K) ys), H. now rewrite map_length. Qed.
Lemma shaped_concat shape (xs ys : list (list K)) : shaped shape xs -> shaped shape ys -> length (concat xs) = length (concat ys).
Proof.
  unfold shaped. revert shape ys. induction xs as [|x xs IH]; intros shape [|y ys] <- H; try discriminate; auto.
  simpl in H. injection H as H1 H2. simpl. rewrite !app_length. erewrite IH; eauto.
Qed.
Lemma dots_ok shape xs : forall ys, shaped shape xs -> shaped shape ys -> exists ds,
  mapM (fun p => dot K (fst p) (snd p)) (combine xs ys) = Ok ds /\ allreduce K ds = vdot K (concat xs) (concat ys).
Proof.
  revert shape. induction xs as [|x xs IH]; intros shape ys Hx Hy.
  - exists []. destruct ys; [split; reflexivity|]. unfold shaped in *. simpl in *. congruence.
  - destruct ys as [|y ys]; [unfold shaped in *; simpl in *; congruence|].
    unfold LanczosSpec.shaped in *. simpl in Hx, Hy. subst shape. injection Hy as E1 E2.
    destruct (IH (map (@length K) xs) ys eq_refl E2) as (ds & Ed & Es).
    simpl. unfold dot at 1. rewrite <- E1, Nat.eqb_refl. cbn [bind fst snd]. rewrite Ed. cbn [bind].
    eexists. split; [reflexivity|]. unfold allreduce in *. simpl. rewrite Es. unfold vdot.
    assert (C : forall (x y : list K) u v, length x = length y -> combine (x ++ u) (y ++ v) = combine x y ++ combine u v).
    { clear. induction x as [|a x IH]; intros [|b y] u v H; try discriminate; simpl; auto. f_equal. apply IH. now injection H. }
    rewrite C by auto. rewrite bsum_app. reflexivity.
Qed.
Lemma dots_self shape xs : shaped shape xs -> exists ds, mapM (fun v => dot K v v) xs = Ok ds /\ allreduce K ds = vdot K (concat xs) (concat xs).
Proof.
  intros H. destruct (dots_ok shape xs xs H H) as (ds & E & S). exists ds. split; [|exact S]. rewrite <- E. clear.
  induction xs as [|x xs IH]; simpl; auto. rewrite IH. reflexivity.
Qed.
Lemma scal_shaped shape c xs : shaped shape xs -> shaped shape (map (scal K c) xs) /\ concat (map (scal K c) xs) = scal K c (concat xs).
Proof.
  unfold LanczosSpec.shaped. intros <-. split.
  - rewrite map_map. apply map_ext. intros. apply scal_len.
  - unfold scal. rewrite concat_map. reflexivity.
Qed.
Lemma axpys_ok shape c xs : forall ys, shaped shape xs -> shaped shape ys -> exists zs,
  mapM (fun p => axpy K (fst p) (snd p) c) (combine xs ys) = Ok zs /\ shaped shape zs /\
  axpy K (concat xs) (concat ys) c = Ok (concat zs).
Proof.
  revert shape. induction xs as [|x xs IH]; intros shape ys Hx Hy.
  - exists []. destruct ys; [repeat split; auto|]. unfold shaped in *. simpl in *. congruence.
  - destruct ys as [|y ys]; [unfold shaped in *; simpl in *; congruence|].
    pose proof (shaped_concat _ _ _ Hx Hy) as LC.
    unfold LanczosSpec.shaped in *. simpl in Hx, Hy. subst shape. injection Hy as E1 E2.
    destruct (IH (map (@length K) xs) ys eq_refl E2) as (zs & Ed & Es & Ea).
    simpl. unfold axpy at 1. rewrite <- E1, Nat.eqb_refl. cbn [bind fst snd]. rewrite Ed. cbn [bind].
    eexists. split; [reflexivity|]. split.
    + simpl. rewrite Es, map_length, combine_length. f_equal. lia.
    + unfold axpy in *. simpl in LC. rewrite LC, Nat.eqb_refl.
      assert (C : forall (x y : list K) u v, length x = length y -> combine (x ++ u) (y ++ v) = combine x y ++ combine u v).
      { clear. induction x as [|a x IH]; intros [|b y] u v H; try discriminate; simpl; auto. f_equal. apply IH. now injection H. }
      rewrite C by auto. rewrite map_app. simpl. destruct (length (concat xs) =? length (concat ys)); [|discriminate].
      injection Ea as ->. reflexivity.
Qed.

Variable sq : K -> K.
Lemma step_mpi shape mv mvd v l : distributes shape mv mvd -> shaped shape v -> shaped shape l ->
  exists a b v' w', sl_step_mpi K sq mvd v l = Ok (a, b, v', w') /\ shaped shape v' /\ shaped shape w' /\
  sl_step K sq mv (concat v) (concat l) = Ok (a, b, concat v', concat w').
Proof.
  intros D Hv Hl. unfold sl_step_mpi, sl_step, norm.
  destruct (dots_self _ _ Hv) as (ds & Ed & Sd). rewrite Ed. cbn [bind]. rewrite Sd.
  set (b := sq (vdot K (concat v) (concat v))).
  destruct (scal_shaped shape (cdiv K 1 b) v Hv) as [Hs Cs]. set (v' := map (scal K (cdiv K 1 b)) v) in *.
  rewrite <- Cs. destruct (D v' Hs) as (w & Ew & Hw & Cw). rewrite Ew, Cw. cbn [bind].
  rewrite (shaped_len _ _ _ Hw Hs), Nat.eqb_refl. cbn [negb].
  destruct (dots_ok shape v' w Hs Hw) as (da & Ea & Sa). rewrite Ea. cbn [bind].
  unfold dot at 1. rewrite (shaped_concat _ _ _ Hs Hw), Nat.eqb_refl. cbn [bind]. rewrite Sa.
  destruct (axpys_ok shape (- vdot K (concat v') (concat w)) v' w Hs Hw) as (w1 & E1 & H1 & C1).
  rewrite E1, C1. cbn [bind].
  destruct (axpys_ok shape (- b) l w1 Hl H1) as (w2 & E2 & H2 & C2). rewrite E2, C2. cbn [bind].
  repeat eexists; auto.
Qed.

Theorem build_mpi (E : Type) tiny (egs : list K -> list K -> res E) close shape mv mvd phi0 ga gb maxn ND :
  distributes shape mv mvd -> shaped shape phi0 ->
  res_rel (fun s s' => ret_a _ _ s = ret_a _ _ s' /\ ret_b _ _ s = ret_b _ _ s' /\
            l_steps _ _ s = l_steps _ _ s' /\ concat (l_l _ _ s) = l_l _ _ s')
    (build_sl_tridiag _ K E (sl_step_mpi K sq mvd) tiny egs close (map (map (fun _ => 0)) phi0) phi0 ga gb maxn ND)
    (build_sl_tridiag _ K E (sl_step K sq mv) tiny egs close (map (fun _ => 0) (concat phi0)) (concat phi0) ga gb maxn ND).
Proof.
  intros D Hp.
  pose proof (build_sim (list (list K)) (list K) K E (sl_step_mpi K sq mvd) (sl_step K sq mv)
    (fun x y => shaped shape x /\ y = concat x)) as S.
  match type of S with ?A -> _ => assert (Hs : A) end.
  { intros v v' l l' [Hv ->] [Hl ->]. destruct (step_mpi shape mv mvd v l D Hv Hl) as (a & b & v' & w' & -> & ? & ? & ->).
    simpl. auto. }
  specialize (S Hs tiny egs close maxn (map (map (fun _ => 0)) phi0) (map (fun _ => 0) (concat phi0)) phi0 (concat phi0) ga gb ND).
  match type of S with ?A -> _ => assert (Hz : A) end.
  { split; [|now rewrite concat_map]. unfold LanczosSpec.shaped in *. rewrite map_map, <- Hp. apply map_ext. intros; apply map_length. }
  specialize (S Hz (conj Hp eq_refl)).
  destruct (build_sl_tridiag (list (list K)) _ _ _ _ _ _ _ _ _ _ _ _) as [s|], (build_sl_tridiag (list K) _ _ _ _ _ _ _ _ _ _ _ _) as [s'|];
    simpl in *; auto.
  destruct S as (Hn & Ha & Hb & Hs' & [_ Hl] & _). unfold ret_a, ret_b. rewrite Hn, Ha, Hb. auto.
Qed.
End Mpi.
