(** Two dictionaries with the same content, listed in different orders. *)
From Coq Require Import String Reals List Arith NArith ZArith Bool Lia Lra Ring Permutation.
From Verif Require Import Base RBase RLin CBase SectorModel LocalModel MatvecModel EspaceModel ProjModel ProjSpec CfModel CfSpec GfModel GfSpec GflModel GflSpec GflExProofs VisSpec VisProofs VisMainProofs.
Import ListNotations.
Local Open Scope R_scope.

Definition swapped_es : espace RRing := [([0; 0]%nat, ex_vac); ([1; 0]%nat, cut_one)].
Lemma cut_sectors : sectors 2 cut_es.
Proof.
  split; [repeat constructor; cbn; intuition congruence|]. intros key s [E|[E|[]]]; injection E as <- <-.
  - exists 1%nat, 0%nat. split; [reflexivity|]. repeat split; try lia. exists [[1; 0]]. split; [reflexivity|]. split; [reflexivity|]. intros x [<-|[]]. reflexivity.
  - exists 0%nat, 0%nat. split; [reflexivity|]. repeat split; try lia. exists [[1]]. split; [reflexivity|]. split; [reflexivity|]. intros x [<-|[]]. reflexivity.
Qed.
Lemma cut_eigen : eigenstates 2 ex_M cut_es.
Proof.
  intros p q s [E|[E|[]]]; injection E as <- <- <-; (split; [intros j k Hj Hk|intros i a Hi Ha]).
  - change (nvals cut_one) with 1%nat in *. replace j with 0%nat by lia. replace k with 0%nat by lia. change (dimn 2 1 0) with 2%nat. rewrite !rsum_S, (rsum_0 0) by (intros; lia). cbn.
    match goal with |- ?x = ?y => change (@eq R x y) end. ring.
  - change (nvals cut_one) with 1%nat in *. replace i with 0%nat by lia. change (dimn 2 1 0) with 2%nat in *. rewrite !rsum_S, (rsum_0 0) by (intros; lia).
    destruct a as [|[|]]; [| |lia]; unfold ex_M; cbn; match goal with |- ?x = ?y => change (@eq R x y) end; ring.
  - change (nvals ex_vac) with 1%nat in *. replace j with 0%nat by lia. replace k with 0%nat by lia. change (dimn 2 0 0) with 1%nat. rewrite !rsum_S, (rsum_0 0) by (intros; lia). cbn.
    match goal with |- ?x = ?y => change (@eq R x y) end. ring.
  - change (nvals ex_vac) with 1%nat in *. replace i with 0%nat by lia. change (dimn 2 0 0) with 1%nat in *. rewrite !rsum_S, (rsum_0 0) by (intros; lia).
    replace a with 0%nat by lia. unfold ex_M; cbn; match goal with |- ?x = ?y => change (@eq R x y) end; ring.
Qed.
Lemma cut_visits : visits ex_solve 2 0 [] cut_es = cut_es /\ finally ex_solve 2 0 cut_es = [([1; 0]%nat, cut_full); ([0; 0]%nat, ex_vac)] /\
  visits ex_solve 2 0 [] swapped_es = [([0; 0]%nat, ex_vac); ([1; 0]%nat, cut_full)].
Proof. repeat split. Qed.
Lemma cut_Z : Zof 0 0 (visits ex_solve 2 0 [] cut_es) = 2 /\ Zof 0 0 (finally ex_solve 2 0 cut_es) = 3 /\ Zof 0 0 (visits ex_solve 2 0 [] swapped_es) = 3.
Proof.
  destruct cut_visits as (-> & -> & ->). unfold Zof. cbn [map rsuml fold_right cut_es snd].
  change (nvals cut_one) with 1%nat. change (nvals ex_vac) with 1%nat. change (nvals cut_full) with 2%nat.
  rewrite !rsum_S, !(rsum_0 0) by (intros; lia). rewrite !boltz0. repeat split; ring.
Qed.
Definition called (es : espace RRing) : res cx :=
  match build_gf_lanczos ex_solve ex_mvop ex_tridiag ex_eigh 2 es 0 0 0 "cf" 0 false with Ok (_, g, _) => gl_call g (rcx 0) 1 | Err e => Err e end.
Lemma cut_called : called cut_es = Ok (0, - (2 / 3)).
Proof.
  cbv -[Rplus Rmult Ropp IZR Rminus exp pow Rinv INR Rdiv]. rewrite ?Ropp_0, ?Rmult_0_l, ?exp_0. cbn [INR]. f_equal.
  apply injective_projections; cbn [fst snd]; field_simplify; lra.
Qed.
Lemma swapped_called : called swapped_es = Ok (1 / 6, - (5 / 6)).
Proof.
  cbv -[Rplus Rmult Ropp IZR Rminus exp pow Rinv INR Rdiv]. rewrite ?Ropp_0, ?Rmult_0_l, ?exp_0. cbn [INR]. f_equal.
  apply injective_projections; cbn [fst snd]; field_simplify; lra.
Qed.
Lemma order_matters : exists es es', Permutation es es' /\ sectors 2 es /\ eigenstates 2 ex_M es /\ called es <> called es'.
Proof.
  exists cut_es, swapped_es. split; [apply perm_swap|]. split; [exact cut_sectors|]. split; [exact cut_eigen|]. rewrite cut_called, swapped_called. intros E. injection E as E _. lra.
Qed.
