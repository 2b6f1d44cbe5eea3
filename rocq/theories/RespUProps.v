(** C138: occupations bound the response of the free energy to the repulsion. *)
From Coq Require Import String Reals List Arith NArith ZArith Bool Lia Lra.
From Verif Require Import Base RBase RLin LocalModel MatvecModel EspaceModel MbModel MbSpec GfSpec ObsModel DedModel ExactSpec EighProofs ExactProps ExactMoreProofs OccSpec OccProofs RespSpec RespUSpec RespUProofs.
Import ListNotations.
Local Open Scope R_scope.

(** Without [hfmode]: for each site, from the over-filling with the larger repulsion to
    the rarer spin with the smaller one. *)
Theorem C138_repulsion big half n z h mu beta V V' U U' es es' e e' scts scts' : 0 < beta -> repulsion_raised n V V' U U' ->
  solved big half n V U false z h mu es e scts -> solved big half n V' U' false z h mu es' e' scts' ->
  exists u d u' d', fst (get_occupation scts e beta n) = Ok (u, d) /\ fst (get_occupation scts' e' beta n) = Ok (u', d') /\
    rsum n (fun i => (U' i i - U i i) * Rmax 0 (nth i u' 0 + nth i d' 0 - 1)) <= free_energy beta es' e' - free_energy beta es e <= rsum n (fun i => (U' i i - U i i) * Rmin (nth i u 0) (nth i d 0)).
Proof. exact (repulsion_plain big half n z h mu beta V V' U U' es es' e e' scts scts'). Qed.
Print Assumptions C138_repulsion.

(** With [hfmode]: the distance from half filling bounds from below, the moment from above. *)
Theorem C138_hfmode big half n z h mu beta V V' U U' es es' e e' scts scts' : 0 < beta -> repulsion_raised n V V' U U' ->
  solved big half n V U true z h mu es e scts -> solved big half n V' U' true z h mu es' e' scts' ->
  exists u d u' d', fst (get_occupation scts e beta n) = Ok (u, d) /\ fst (get_occupation scts' e' beta n) = Ok (u', d') /\
    rsum n (fun i => (U' i i - U i i) * (Rabs (nth i u' 0 + nth i d' 0 - 1) / 2 - / 4)) <= free_energy beta es' e' - free_energy beta es e <=
    rsum n (fun i => (U' i i - U i i) * (/ 4 - Rabs (nth i u 0 - nth i d 0) / 2)).
Proof. exact (repulsion_half big half n z h mu beta V V' U U' es es' e e' scts scts'). Qed.
Print Assumptions C138_hfmode.

(** Whatever the filling. *)
Theorem C138_bounds big half n z h mu beta V V' U U' hf es es' e e' scts scts' : 0 < beta -> repulsion_raised n V V' U U' ->
  solved big half n V U hf z h mu es e scts -> solved big half n V' U' hf z h mu es' e' scts' ->
  (if hf then - (/ 4 * rsum n (fun i => U' i i - U i i)) else 0) <= free_energy beta es' e' - free_energy beta es e <= (if hf then / 4 else 1) * rsum n (fun i => U' i i - U i i).
Proof. exact (repulsion_bounds big half n z h mu beta V V' U U' hf es es' e e' scts scts'). Qed.
Print Assumptions C138_bounds.

(** The dimer of C85 can be solved for every repulsion and every [hfmode] ... *)
Definition dimU (x : R) (i j : nat) : R := if (i =? j)%nat then x else 0.
Lemma dimU_ok x : model_ok (/ 2) 2 dim_h dim_fl (VArray RRing (dimU x)) (dimU x).
Proof.
  split; [split; [lia|split; [lia|lra]]|]. split; [reflexivity|]. split; [auto|]. split; [split; exact I|]. split; [|reflexivity].
  intros sp i j _ _. cbn. rewrite (Nat.eqb_sym j i). reflexivity.
Qed.
Lemma dimU_solved x hf mu : exists es e scts, solved (fun _ => true) (/ 2) 2 (VArray RRing (dimU x)) (dimU x) hf None dim_h mu es e scts.
Proof.
  destruct (C85_ground (fun _ => true) (/ 2) 2 dim_h dim_fl (VArray RRing (dimU x)) hf mu None (dimU x) real_eigh (fun _ _ _ => Err ValueError) (dimU_ok x) C85_contract) as (es & e & E & _).
  pose proof (dimU_ok x) as ((Hn & Hn' & Hh) & HU & HJ & (HSx & HSp) & HSy & Hset).
  destruct (exact_family (fun _ => true) (/ 2) 2 dim_h dim_fl (VArray RRing (dimU x)) hf mu None (dimU x) Hn Hn' Hh HU HJ HSx HSp HSy Hset real_eigh (fun _ _ _ => Err ValueError) C85_contract es (Some e) E) as (F & LF & _).
  exists es, e, (map (fun e => as_array (snd e)) es). exists dim_fl, real_eigh, (fun _ _ _ => Err ValueError). split; [exact (dimU_ok x)|]. split; [exact C85_contract|]. split; [exact E|]. exact (as_array_family 2 es F LF).
Qed.
Lemma dimU_raised x y : x <= y -> repulsion_raised 2 (VArray RRing (dimU x)) (VArray RRing (dimU y)) (dimU x) (dimU y).
Proof.
  intros H. split; [reflexivity|]. split; [reflexivity|]. unfold dimU. split; intros i; [intros j _ _ N; now destruct (Nat.eqb_spec i j)|]. intros _. now rewrite Nat.eqb_refl.
Qed.
(** ... and from U = 1 to U = 4 its free energy grows by at most 6, or with [hfmode]
    changes by at most 3/2. *)
Example C138_ex : exists es e scts es' e' scts', solved (fun _ => true) (/ 2) 2 (VArray RRing (dimU 1)) (dimU 1) false None dim_h (-1) es e scts /\
  solved (fun _ => true) (/ 2) 2 (VArray RRing (dimU 4)) (dimU 4) false None dim_h (-1) es' e' scts' /\ 0 <= free_energy 5 es' e' - free_energy 5 es e <= 6.
Proof.
  destruct (dimU_solved 1 false (-1)) as (es & e & scts & S). destruct (dimU_solved 4 false (-1)) as (es' & e' & scts' & S').
  exists es, e, scts, es', e', scts'. split; [exact S|]. split; [exact S'|].
  pose proof (C138_bounds _ _ _ _ _ _ 5 _ _ _ _ _ _ _ _ _ _ _ ltac:(lra) (dimU_raised 1 4 ltac:(lra)) S S') as C. rewrite !rsum_S, !(rsum_0 0) in C by (intros; lia). cbn [dimU Nat.eqb] in C. lra.
Qed.
Example C138_ex_hf : exists es e scts es' e' scts', solved (fun _ => true) (/ 2) 2 (VArray RRing (dimU 1)) (dimU 1) true None dim_h 0 es e scts /\
  solved (fun _ => true) (/ 2) 2 (VArray RRing (dimU 4)) (dimU 4) true None dim_h 0 es' e' scts' /\ - (3 / 2) <= free_energy 5 es' e' - free_energy 5 es e <= 3 / 2.
Proof.
  destruct (dimU_solved 1 true 0) as (es & e & scts & S). destruct (dimU_solved 4 true 0) as (es' & e' & scts' & S').
  exists es, e, scts, es', e', scts'. split; [exact S|]. split; [exact S'|].
  pose proof (C138_bounds _ _ _ _ _ _ 5 _ _ _ _ _ _ _ _ _ _ _ ltac:(lra) (dimU_raised 1 4 ltac:(lra)) S S') as C. rewrite !rsum_S, !(rsum_0 0) in C by (intros; lia). cbn [dimU Nat.eqb] in C. lra.
Qed.
