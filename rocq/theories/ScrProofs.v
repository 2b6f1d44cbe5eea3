(** The thermal sum over the states kept is a Lehmann sum with the weights of the others put to zero. *)
From Coq Require Import Reals List Arith NArith ZArith Bool Lia Lra Psatz Ring Field Permutation.
From Verif Require Import Base RBase RLin CBase OperatorsSpec FockSpec SectorModel LocalModel MatvecModel EspaceModel EspaceSpec EspaceMoreProofs ProjModel ProjSpec ProjProofs ProjFinalProofs
  CfModel CfSpec GfModel GfSpec GfProofs GfSumProofs GfMoreProofs GmModel GmSpec GmProofs GflSpec AgrSpec AgrProofs ScrSpec.
Import ListNotations.
Local Open Scope R_scope.
Add Field cxfscr : cx_field.

Lemma csum_filter {A} (f : A -> bool) (g : A -> cx) (d : A) l :
  csum (length (filter f l)) (fun i => g (nth i (filter f l) d)) = csum (length l) (fun i => if f (nth i l d) then g (nth i l d) else rcx 0).
Proof.
  induction l as [|a l IH]; [reflexivity|]. cbn [filter]. destruct (f a) eqn:E; cbn [length]; unfold csum; rewrite !nsum_S_l; cbn [nth]; rewrite ?E; fold (csum (length l)).
  - f_equal. exact IH.
  - change (csum (length (filter f l)) (fun i => g (nth i (filter f l) d)) = cxadd (rcx 0) (csum (length l) (fun i => if f (nth i l d) then g (nth i l d) else rcx 0))). rewrite IH. ring.
Qed.
Lemma rsum_filter {A} (f : A -> bool) (g : A -> R) (d : A) l :
  rsum (length (filter f l)) (fun i => g (nth i (filter f l) d)) = rsum (length l) (fun i => if f (nth i l d) then g (nth i l d) else 0).
Proof.
  induction l as [|a l IH]; [reflexivity|]. cbn [filter]. destruct (f a) eqn:E; cbn [length]; unfold rsum; rewrite !nsum_S_l; cbn [nth]; rewrite ?E; fold (rsum (length l)).
  - f_equal. exact IH.
  - change (rsum (length (filter f l)) (fun i => g (nth i (filter f l) d)) = 0 + rsum (length l) (fun i => if f (nth i l d) then g (nth i l d) else 0)). rewrite IH. ring.
Qed.

(** Pairs of a sector. *)
Section Sector.
Variables (keep : R -> bool) (s : sct RRing).
Hypothesis HP : paired RRing s.
Lemma pairs_at i : (i < nvals s)%nat -> nth i (pairs RRing s) (0, []) = (energy s i, vec RRing s i).
Proof. intros Hi. destruct HP as (c & E & L). unfold pairs, energy, vec. rewrite E. change (Base.car RRing) with R. exact (combine_nth (s_vals RRing s) c i 0 [] (eq_sym L)). Qed.
Lemma pairs_len : length (pairs RRing s) = nvals s.
Proof. destruct HP as (c & E & L). unfold pairs, nvals. rewrite E, combine_length, L. apply Nat.min_id. Qed.
End Sector.
Lemma cut_csum keep s (phi : R -> list R -> cx) : paired RRing s ->
  csum (nvals (cut RRing keep s)) (fun i => phi (energy (cut RRing keep s) i) (vec RRing (cut RRing keep s) i)) =
  csum (nvals s) (fun i => if keep (energy s i) then phi (energy s i) (vec RRing s i) else rcx 0).
Proof.
  intros HP. destruct (cut_paired RRing keep s HP) as [HP' EP].
  transitivity (csum (length (pairs RRing (cut RRing keep s))) (fun i => (fun p => phi (fst p) (snd p)) (nth i (pairs RRing (cut RRing keep s)) (0, [])))).
  - rewrite (pairs_len _ HP'). apply csum_ext. intros i Hi. now rewrite (pairs_at _ HP' i Hi).
  - rewrite EP. etransitivity; [apply (csum_filter (fun p : R * list R => keep (fst p)) (fun p => phi (fst p) (snd p)))|]. replace (@length (R * list R) (pairs RRing s)) with (nvals s) by (symmetry; exact (pairs_len s HP)). apply csum_ext. intros i Hi. exact (f_equal (fun p : R * list R => if keep (fst p) then phi (fst p) (snd p) else rcx 0) (pairs_at s HP i Hi)).
Qed.
Lemma cut_rsum keep s (phi : R -> list R -> R) : paired RRing s ->
  rsum (nvals (cut RRing keep s)) (fun i => phi (energy (cut RRing keep s) i) (vec RRing (cut RRing keep s) i)) =
  rsum (nvals s) (fun i => if keep (energy s i) then phi (energy s i) (vec RRing s i) else 0).
Proof.
  intros HP. destruct (cut_paired RRing keep s HP) as [HP' EP].
  transitivity (rsum (length (pairs RRing (cut RRing keep s))) (fun i => (fun p => phi (fst p) (snd p)) (nth i (pairs RRing (cut RRing keep s)) (0, [])))).
  - rewrite (pairs_len _ HP'). apply rsum_ext. intros i Hi. now rewrite (pairs_at _ HP' i Hi).
  - rewrite EP. etransitivity; [apply (rsum_filter (fun p : R * list R => keep (fst p)) (fun p => phi (fst p) (snd p)))|]. replace (@length (R * list R) (pairs RRing s)) with (nvals s) by (symmetry; exact (pairs_len s HP)). apply rsum_ext. intros i Hi. exact (f_equal (fun p : R * list R => if keep (fst p) then phi (fst p) (snd p) else 0) (pairs_at s HP i Hi)).
Qed.
Lemma none_kept (keep : R -> bool) (s : sct RRing) i : existsb keep (s_vals RRing s) = false -> (i < nvals s)%nat -> keep (energy s i) = false.
Proof.
  intros E Hi. destruct (keep (energy s i)) eqn:K; [|reflexivity]. rewrite <- E. symmetry. apply existsb_exists. exists (energy s i). split; [apply nth_In; exact Hi|exact K].
Qed.

Section Cut.
Variables (n : nat) (es : espace RRing) (F : family) (M : nat -> nat -> nat -> nat -> R) (beta egs : R) (s : nat) (keep : R -> bool).
Hypothesis HF : lists_family n es F. Hypothesis Hs : (s <= 1)%nat.
Hypothesis EB : forall p q, (p <= n)%nat -> (q <= n)%nat -> eigenbasis (F p q).
Hypothesis SY : forall p q, (p <= n)%nat -> (q <= n)%nat -> matrix_symmetric (dimn n p q) (M p q).
Hypothesis EV : forall p q, (p <= n)%nat -> (q <= n)%nat -> forall k a, (k < sdim RRing (F p q))%nat -> (a < sdim RRing (F p q))%nat ->
  rsum (sdim RRing (F p q)) (fun b => M p q a b * nth b (vec RRing (F p q) k) 0) = energy (F p q) k * nth a (vec RRing (F p q) k) 0.
Notation ispin := (Z.of_nat s).
Notation W := (cut_weight keep beta egs).
Notation kept := (cut_all RRing keep es).

Lemma paired_F p q : (p <= n)%nat -> (q <= n)%nat -> paired RRing (F p q).
Proof. intros Hp Hq. destruct (proj2 (proj2 HF) p q Hp Hq) as (_ & _ & _ & _ & _ & _ & cs & E & L & _). exists cs. auto. Qed.
Definition br op x p q p' q' k (v : list R) : R := bracket RRing n (lad op (x + s * n)) (F p' q') (F p q) (vec RRing (F p' q') k) v.
Definition elem_sum op x y p q p' q' z (e : R) (v : list R) : cx :=
  csum (nvals (F p' q')) (fun k => cxdiv (rcx (br op y p q p' q' k v * br op x p q p' q' k v)) (cxsub z (rcx (side op * (energy (F p' q') k - e))))).
Lemma cut_state op x y z X p q p' q' i : im z <> 0 -> resolved n M ispin kept x z X -> (p <= n)%nat -> (q <= n)%nat -> existsb keep (s_vals RRing (F p q)) = true -> (i < nvals (cut RRing keep (F p q)))%nat -> moved n op ispin p q = Some (p', q') ->
  csum (dimn n p' q') (fun a => cxmul (rcx (exc n op ispin y p' q' (cut RRing keep (F p q)) i a)) (X op [p; q] i a)) =
  elem_sum op x y p q p' q' z (energy (cut RRing keep (F p q)) i) (vec RRing (cut RRing keep (F p q)) i).
Proof.
  intros Hz HX Hp Hq HE Hi HM. destruct (moved_range n s Hs op p q p' q' Hp Hq HM) as [Hp' Hq']. pose proof (proj2 (proj2 HF) p' q' Hp' Hq') as IS.
  assert (I : In ([p; q], cut RRing keep (F p q)) kept) by (apply in_cut_all; exists (F p q); split; [apply (proj1 (proj2 HF)); exists p, q; auto|auto]).
  pose proof (HX op p q _ i p' q' I Hi HM) as SX. destruct (EB p' q' Hp' Hq') as [NV ON]. pose proof (dimn_sector n p' q' _ IS) as DE. pose proof (SY p' q' Hp' Hq') as SY'.
  unfold elem_sum. rewrite NV. rewrite DE in SX, SY' |- *. set (c := cut RRing keep (F p q)) in *.
  rewrite (element (sdim RRing (F p' q')) _ (fun k b => nth b (vec RRing (F p' q') k) 0) (fun k => side op * (energy (F p' q') k - energy c i)) z (X op [p; q] i)
    (exc n op ispin x p' q' c i) (exc n op ispin y p' q' c i) ON (shifted_sym _ _ _ _ SY')
    (fun k a Hk Ha => shifted_eig _ op _ _ (fun b => nth b (vec RRing (F p' q') k) 0) _ (fun a' Ha' => EV p' q' Hp' Hq' k a' Hk Ha') a Ha) Hz SX).
  assert (B : forall w k, rsum (sdim RRing (F p' q')) (fun a => exc n op ispin w p' q' c i a * nth a (vec RRing (F p' q') k) 0) = br op w p q p' q' k (vec RRing c i)).
  { intros w k. unfold br, bracket. apply rsum_ext. intros a _. rewrite (exc_sector n op ispin w p' q' _ _ _ _ IS), (orbital_spin n s Hs). apply Rmult_comm. }
  apply csum_ext. intros k _. now rewrite !B.
Qed.

(** Contribution of a sector of the complete family. *)
Definition cvalue op x y z (key : qnums) : cx :=
  match key with
  | [p; q] => match moved n op ispin p q with
    | Some (p', q') => csum (nvals (F p q)) (fun i => cxmul (rcx (W (energy (F p q) i))) (elem_sum op x y p q p' q' z (energy (F p q) i) (vec RRing (F p q) i)))
    | None => rcx 0 end
  | _ => rcx 0
  end.
Lemma cut_contribution op x y z X p q : im z <> 0 -> resolved n M ispin kept x z X -> (p <= n)%nat -> (q <= n)%nat ->
  (if existsb keep (s_vals RRing (F p q)) then contribution n beta egs ispin y X op ([p; q], cut RRing keep (F p q)) else rcx 0) = cvalue op x y z [p; q].
Proof.
  intros Hz HX Hp Hq. unfold cvalue, contribution. cbn [fst snd]. destruct (moved n op ispin p q) as [[p' q']|] eqn:HM; [|now destruct existsb].
  destruct (existsb keep (s_vals RRing (F p q))) eqn:HE.
  - etransitivity; [apply csum_ext; intros i Hi; rewrite (cut_state op x y z X p q p' q' i Hz HX Hp Hq HE Hi HM); reflexivity|].
    rewrite (cut_csum keep (F p q) (fun e v => cxmul (rcx (weight beta egs e)) (elem_sum op x y p q p' q' z e v)) (paired_F p q Hp Hq)).
    apply csum_ext. intros i Hi. unfold cut_weight. destruct (keep _); [reflexivity|ring].
  - symmetry. apply csum_0. intros i Hi. unfold cut_weight. rewrite (none_kept keep _ i HE Hi). ring.
Qed.
Lemma cut_contributions op x y z X : im z <> 0 -> resolved n M ispin kept x z X ->
  csuml (map (contribution n beta egs ispin y X op) kept) = csum (S n) (fun p => csum (S n) (fun q => cvalue op x y z [p; q])).
Proof.
  intros Hz HX. rewrite csuml_bsum. transitivity (@bsum CxRing _ (cvalue op x y z) (map fst es)).
  - unfold cut_all. rewrite bsum_flat_map, bsum_map. apply (bsum_ext CxRing). intros [key t] I. pose proof (proj1 (proj1 (proj2 HF) _ _) I) as (p & q & Hp & Hq & -> & ->). cbn [fst snd].
    rewrite <- (cut_contribution op x y z X p q Hz HX Hp Hq). destruct existsb; [|reflexivity]. cbn [bsum fold_right]. change (cxadd (contribution n beta egs ispin y X op ([p; q], cut RRing keep (F p q))) (rcx 0) = contribution n beta egs ispin y X op ([p; q], cut RRing keep (F p q))). ring.
  - rewrite (bsum_perm CxRing _ _ _ (keys_perm n es F HF)), grid_sum. reflexivity.
Qed.
Lemma cut_Z : Zof beta egs kept = Zsum_w n W F.
Proof.
  unfold Zof, Zsum_w. transitivity (@bsum RRing _ (fun key => match key with [p; q] => rsum (nvals (F p q)) (fun i => W (energy (F p q) i)) | _ => 0 end) (map fst es)).
  - assert (E : forall (f : qnums * sct RRing -> R) l, rsuml (map f l) = @bsum RRing _ f l).
    { intros f l. induction l; cbn [map rsuml fold_right bsum]; auto. fold (rsuml (map f l)). now rewrite IHl. }
    rewrite E. unfold cut_all. rewrite bsum_flat_map, bsum_map. apply (bsum_ext RRing). intros [key t] I. pose proof (proj1 (proj1 (proj2 HF) _ _) I) as (p & q & Hp & Hq & -> & ->). cbn [fst snd].
    match goal with |- context [if ?b then [_] else []] => destruct b eqn:HE end.
    + cbn [bsum fold_right snd]. match goal with |- ?a = _ => change a with (rsum (nvals (cut RRing keep (F p q))) (fun i => weight beta egs (energy (cut RRing keep (F p q)) i)) + 0) end. rewrite Rplus_0_r.
      exact (cut_rsum keep (F p q) (fun e _ => weight beta egs e) (paired_F p q Hp Hq)).
    + cbn [bsum fold_right]. symmetry. match goal with |- @eq _ ?a ?b => change (@eq R a 0) end. apply rsum_0. intros i Hi. unfold cut_weight. now rewrite (none_kept keep _ i HE Hi).
  - rewrite (bsum_perm RRing _ _ _ (keys_perm n es F HF)), grid_sum. reflexivity.
Qed.

Definition part_w (op : fop) (ej ei : R) : R := match op with OpCdg => W ei | OpC => W ej end.
Definition lehmann_pw x y op z : cx :=
  csum n (fun m => csum (S n) (fun o => let I := of_spin F s m o in let J := of_spin F s (S m) o in
    csum (nvals J) (fun j => csum (nvals I) (fun i =>
      cxdiv (rcx (add_amp n s x J I j i * add_amp n s y J I j i * part_w op (energy J j) (energy I i)))
            (cxsub z (rcx (energy J j - energy I i))))))).
Lemma cut_part op x y z X : im z <> 0 -> resolved n M ispin kept x z X ->
  csuml (map (contribution n beta egs ispin y X op) kept) = lehmann_pw x y op z.
Proof.
  intros Hz HX. rewrite (cut_contributions op x y z X Hz HX), (grid_spin n s) by exact Hs. unfold lehmann_pw. cbv zeta. destruct op.
  - change (csum (S n)) with (@nsum CxRing (S n)) at 1. rewrite nsum_S_l. change (@nsum CxRing n) with (csum n).
    rewrite (nsum_0 CxRing (S n)); [|intros o _; unfold cvalue; now rewrite (moved_rem n s Hs)].
    etransitivity; [apply (Radd_0_l (cth CxRing))|]. apply csum_ext. intros m Hm. change (@nsum CxRing (S n)) with (csum (S n)). apply csum_ext. intros o Ho. rewrite !(of_spin_nu F s) by exact Hs.
    unfold cvalue. rewrite (moved_rem n s Hs).
    apply csum_ext. intros j Hj. unfold elem_sum. rewrite <- csum_scal_l. apply csum_ext. intros i Hi. unfold br.
    rewrite !(bracket_adj RRing n OpC). cbn [opp_op lad part_w side]. unfold add_amp. replace (-1 * (energy (F (nu s m o) (nd s m o)) i - energy (F (nu s (S m) o) (nd s (S m) o)) j)) with (energy (F (nu s (S m) o) (nd s (S m) o)) j - energy (F (nu s m o) (nd s m o)) i) by ring.
    rewrite !rcx_mul. unfold cxdiv. ring.
  - change (csum (S n)) with (@nsum CxRing (S n)) at 1. rewrite nsum_S. change (@nsum CxRing n) with (csum n).
    rewrite (csum_0 (S n) (fun o => cvalue OpCdg x y z [nu s n o; nd s n o])); [|intros o _; unfold cvalue; rewrite (moved_add n s Hs), Nat.ltb_irrefl; reflexivity].
    etransitivity; [apply (Radd_comm (cth CxRing))|]. etransitivity; [apply (Radd_0_l (cth CxRing))|]. apply csum_ext. intros m Hm. change (@nsum CxRing (S n)) with (csum (S n)). apply csum_ext. intros o Ho. rewrite !(of_spin_nu F s) by exact Hs.
    unfold cvalue. pose proof (moved_add n s Hs m o) as MA. destruct (Nat.ltb_spec m n); [|lia]. rewrite MA.
    rewrite csum_swap. apply csum_ext. intros i Hi. unfold elem_sum. rewrite <- csum_scal_l. apply csum_ext. intros j Hj. unfold br.
    cbn [lad part_w side]. unfold add_amp. replace (1 * (energy (F (nu s (S m) o) (nd s (S m) o)) j - energy (F (nu s m o) (nd s m o)) i)) with (energy (F (nu s (S m) o) (nd s (S m) o)) j - energy (F (nu s m o) (nd s m o)) i) by ring.
    rewrite !rcx_mul. unfold cxdiv. ring.
Qed.
Theorem cut_green x y z X : im z <> 0 -> resolved n M ispin kept x z X ->
  green n beta egs ispin kept y X [OpCdg; OpC] = cxdiv (lehmann_w n s x y W F z) (rcx (Zsum_w n W F)).
Proof.
  intros Hz HX. unfold green. cbn [map]. rewrite !(cut_part _ x y z X Hz HX), cut_Z. cbn [csuml fold_right]. f_equal.
  transitivity (cxadd (lehmann_pw x y OpCdg z) (lehmann_pw x y OpC z)); [ring|].
  unfold lehmann_pw, lehmann_w. rewrite <- csum_add. apply csum_ext. intros m _. rewrite <- csum_add. apply csum_ext. intros o _. cbv zeta. rewrite <- csum_add. apply csum_ext. intros j _.
  rewrite <- csum_add. apply csum_ext. intros i _. cbn [part_w]. rewrite !rcx_mul, rcx_add. unfold cxdiv. ring.
Qed.
End Cut.
