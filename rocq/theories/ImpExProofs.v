(** The sample with poles -1 and 1: the sector of the ground state. *)
From Coq Require Import String Reals List Arith NArith ZArith Bool Lia Lra Psatz.
From Verif Require Import Base RBase RLin CBase OperatorsSpec LookupSpec LocalModel MatvecModel MbModel MbSpec EspaceModel ProjSpec CfModel GfModel ExactSpec EighProofs ExactProps DedModel DedSpec ImpSpec ImpProofs ImpMirrorProofs.
Import ListNotations.
Local Open Scope R_scope.

Lemma two_states p x y l : (forall u, In u l <-> (u < 2 ^ N.of_nat 2)%N /\ popcount u = p) -> NoDup l -> x <> y ->
  (forall u, In u [0; 1; 2; 3]%N -> popcount u = p <-> u = x \/ u = y) -> In x [0; 1; 2; 3]%N -> In y [0; 1; 2; 3]%N -> l = [x; y] \/ l = [y; x].
Proof.
  intros H ND XY U X Y.
  assert (L4 : forall u, (u < 2 ^ N.of_nat 2)%N <-> In u [0; 1; 2; 3]%N) by (intros u; change (2 ^ N.of_nat 2)%N with 4%N; cbn [In]; lia).
  assert (A : forall u, In u l -> u = x \/ u = y) by (intros u Hu; apply H in Hu; destruct Hu as [Hu Pu]; apply (U u); auto; now apply L4).
  assert (B : In x l) by (apply H; split; [now apply L4|apply U; auto]). assert (C : In y l) by (apply H; split; [now apply L4|apply U; auto]).
  destruct l as [|a [|b [|c l]]]; [destruct B|cbn in B, C; destruct B as [<-|[]], C as [<-|[]]; contradiction| |exfalso].
  - destruct (A a (or_introl eq_refl)) as [->| ->], (A b (or_intror (or_introl eq_refl))) as [->| ->]; auto; inversion ND as [|? ? NI]; exfalso; apply NI; now left.
  - inversion ND as [|? ? N1 ND1]. inversion ND1 as [|? ? N2 ND2]. subst. destruct (A a (or_introl eq_refl)) as [->| ->], (A b (or_intror (or_introl eq_refl))) as [->| ->], (A c (or_intror (or_intror (or_introl eq_refl)))) as [->| ->]; cbn in *; tauto.
Qed.
Definition even (u d : N) : R := match u, d with 1%N, 1%N | 2%N, 2%N | 1%N, 2%N | 2%N, 1%N => / 2 | _, _ => 0 end.
Lemma energy_even H : energy_of 2 H even =
  / 4 * (H 1%N 1%N 1%N 1%N + H 1%N 1%N 1%N 2%N + H 1%N 1%N 2%N 1%N + H 1%N 1%N 2%N 2%N + H 1%N 2%N 1%N 1%N + H 1%N 2%N 1%N 2%N + H 1%N 2%N 2%N 1%N + H 1%N 2%N 2%N 2%N + H 2%N 1%N 1%N 1%N + H 2%N 1%N 1%N 2%N + H 2%N 1%N 2%N 1%N + H 2%N 1%N 2%N 2%N + H 2%N 2%N 1%N 1%N + H 2%N 2%N 1%N 2%N + H 2%N 2%N 2%N 1%N + H 2%N 2%N 2%N 2%N).
Proof. unfold energy_of, over_states, rsum, nsum. cbn -[IZR]. cbn. field. Qed.

Lemma one_val (v m x : R) : x * x = 1 -> m * x = v * x -> - (17 / 10) <= m -> - (17 / 10) <= v.
Proof. intros X M ?. assert (m = v) by (apply (Rmult_eq_reg_r x); [exact M|intros ->; lra]). lra. Qed.
Lemma two_val (v a b x y : R) : x * x + y * y = 1 -> a * x - y = v * x -> b * y - x = v * y -> - (51 / 50) <= a -> - (51 / 50) <= b -> (- (1 / 25) <= a \/ - (1 / 25) <= b) -> - (17 / 10) <= v.
Proof.
  intros X A B LA LB C. assert (v = a * (x * x) + b * (y * y) - 2 * (x * y)) as ->.
  { transitivity (v * (x * x + y * y)); [rewrite X; ring|]. replace (v * (x * x + y * y)) with ((v * x) * x + (v * y) * y) by ring. rewrite <- A, <- B. ring. }
  pose proof (Rle_0_sqr x) as SX. pose proof (Rle_0_sqr y) as SY. unfold Rsqr in SX, SY.
  destruct C as [C|C]; [pose proof (Rmult_le_compat_r _ _ _ SX C); pose proof (Rmult_le_compat_r _ _ _ SY LB); pose proof (Rle_0_sqr (y - 25 / 17 * x))
    |pose proof (Rmult_le_compat_r _ _ _ SX LA); pose proof (Rmult_le_compat_r _ _ _ SY C); pose proof (Rle_0_sqr (x - 25 / 17 * y))]; unfold Rsqr in *; nra.
Qed.
Section Dimer.
Variables (eps U : R) (H V : nat -> nat -> R).
Hypothesis HS : is_siam 2 eps (fun _ => 0) (fun _ => 1) U H V.
Hypothesis HE : - U / 2 - 1 / 50 <= eps <= - U / 2. Hypothesis HU : 0 <= U <= 2.
Notation es_of := (build_espace RRing Rleb (fun _ => true) (/ 2) real_eigh (fun _ _ _ => Err ValueError) 2 (H2 RRing H) (mkflags true true true) (VArray RRing V) false 0 None None "sz").
Lemma dimer_model : model_ok (/ 2) 2 (H2 RRing H) (mkflags true true true) (VArray RRing V) V.
Proof. apply (siam_model (/ 2) 2 eps (fun _ => 0) (fun _ => 1) U); [lia|lia|lra|exact HS]. Qed.
Lemma H00 : H 0%nat 0%nat = eps. Proof. rewrite (proj1 (HS 0 0 ltac:(lia) ltac:(lia))%nat). reflexivity. Qed.
Lemma H01 : H 0%nat 1%nat = -1. Proof. rewrite (proj1 (HS 0 1 ltac:(lia) ltac:(lia))%nat). reflexivity. Qed.
Lemma H10 : H 1%nat 0%nat = -1. Proof. rewrite (proj1 (HS 1 0 ltac:(lia) ltac:(lia))%nat). reflexivity. Qed.
Lemma H11 : H 1%nat 1%nat = 0. Proof. rewrite (proj1 (HS 1 1 ltac:(lia) ltac:(lia))%nat). reflexivity. Qed.
Lemma V00 : V 0%nat 0%nat = U. Proof. rewrite (proj2 (HS 0 0 ltac:(lia) ltac:(lia))%nat). reflexivity. Qed.
Lemma V01 : V 0%nat 1%nat = 0. Proof. rewrite (proj2 (HS 0 1 ltac:(lia) ltac:(lia))%nat). reflexivity. Qed.
Lemma V10 : V 1%nat 0%nat = 0. Proof. rewrite (proj2 (HS 1 0 ltac:(lia) ltac:(lia))%nat). reflexivity. Qed.
Lemma V11 : V 1%nat 1%nat = 0. Proof. rewrite (proj2 (HS 1 1 ltac:(lia) ltac:(lia))%nat). reflexivity. Qed.
Ltac values := rewrite ?H00, ?H01, ?H10, ?H11, ?V00, ?V01, ?V10, ?V11.
Lemma ground_low es e : es_of = Ok (es, Some e) -> e <= -2.
Proof.
  intros E. destruct (C85_ground (fun _ => true) (/ 2) 2 (H2 RRing H) (mkflags true true true) (VArray RRing V) false 0 None V real_eigh (fun _ _ _ => Err ValueError) dimer_model C85_contract) as (es' & e' & E' & LB & _).
  rewrite E in E'. injection E' as <- <-. specialize (LB even). rewrite energy_even in LB. assert (NN : norm2 2 even = 1) by (unfold norm2, over_states, rsum, nsum; cbn; field). rewrite NN in LB.
  cbv -[Rplus Rmult Ropp Rminus Rinv IZR Rdiv Rle] in LB. revert LB. values. intros LB. lra.
Qed.
Lemma p0 : forall u, In u [0; 1; 2; 3]%N -> popcount u = 0%nat <-> u = 0%N. Proof. intros u [<-|[<-|[<-|[<-|[]]]]]; vm_compute; split; intros; congruence. Qed.
Lemma p1 : forall u, In u [0; 1; 2; 3]%N -> popcount u = 1%nat <-> u = 1%N \/ u = 2%N. Proof. intros u [<-|[<-|[<-|[<-|[]]]]]; vm_compute; split; intros Q; try congruence; try (destruct Q; congruence); auto. Qed.
Lemma p2 : forall u, In u [0; 1; 2; 3]%N -> popcount u = 2%nat <-> u = 3%N. Proof. intros u [<-|[<-|[<-|[<-|[]]]]]; vm_compute; split; intros; congruence. Qed.
Definition mb := many_body (fun _ => true) (/ 2) 2 (H2 RRing H) (VArray RRing V) false 0 None V.
Lemma sector_high es e p q s : es_of = Ok (es, Some e) -> In ([p; q], s) es -> [p; q] <> [1; 1]%nat -> - (17 / 10) <= nth 0 (s_vals RRing s) 0.
Proof.
  intros E I NE. destruct (C85_sectors _ _ _ _ _ _ _ _ _ _ _ _ _ _ dimer_model C85_contract E) as (_ & KEY & SEC).
  assert (PQ : (p <= 2)%nat /\ (q <= 2)%nat). { assert (X : In [p; q] (map fst es)) by (apply in_map_iff; exists ([p; q], s); auto). apply KEY in X. destruct X as (a & b & Ha & Hb & Q). injection Q as -> ->. auto. }
  destruct (SEC _ _ _ I) as (up & dw & cols & _ & _ & MU & MD & NU & ND & SV).
  assert (UP : up = [0%N] /\ p = 0%nat \/ up = [1%N; 2%N] /\ p = 1%nat \/ up = [2%N; 1%N] /\ p = 1%nat \/ up = [3%N] /\ p = 2%nat).
  { destruct p as [|[|[|]]]; [| | |lia].
    - left. split; auto. apply (one_state 0 0 up MU NU p0). cbn; auto.
    - right. destruct (two_states 1 1 2 up MU NU ltac:(congruence) p1) as [->| ->]; cbn; auto.
    - right. right. right. split; auto. apply (one_state 2 3 up MU NU p2). cbn; auto. }
  assert (DW : dw = [0%N] /\ q = 0%nat \/ dw = [1%N; 2%N] /\ q = 1%nat \/ dw = [2%N; 1%N] /\ q = 1%nat \/ dw = [3%N] /\ q = 2%nat).
  { destruct q as [|[|[|]]]; [| | |lia].
    - left. split; auto. apply (one_state 0 0 dw MD ND p0). cbn; auto.
    - right. destruct (two_states 1 1 2 dw MD ND ltac:(congruence) p1) as [->| ->]; cbn; auto.
    - right. right. right. split; auto. apply (one_state 2 3 dw MD ND p2). cbn; auto. }
  destruct SV as (LV & _ & ON & EV & _). set (psi := fun a : nat => nth a (nth 0 cols []) 0 : R). set (v := nth 0 (s_vals RRing s) 0) in *.
  assert (D0 : (0 < length up * length dw)%nat) by (destruct UP as [[-> _]|[[-> _]|[[-> _]|[-> _]]]], DW as [[-> _]|[[-> _]|[[-> _]|[-> _]]]]; cbn; lia).
  assert (NN : rsum (length up * length dw) (fun a => psi a * psi a) = 1) by (exact (ON 0%nat 0%nat D0 D0)).
  assert (EE : forall j l, (j < length up)%nat -> (l < length dw)%nat ->
    rsum (length up) (fun j' => rsum (length dw) (fun l' => mb (nth j' up 0%N) (nth l' dw 0%N) (nth j up 0%N) (nth l dw 0%N) * psi (j' + l' * length up)%nat)) = v * psi (j + l * length up)%nat) by (intros j l; exact (EV 0%nat j l D0)).
  clear SEC MU MD NU ND LV ON EV KEY E I. clearbody psi v. clear cols s.
  destruct UP as [[-> ->]|[[-> ->]|[[-> ->]|[-> ->]]]], DW as [[-> ->]|[[-> ->]|[[-> ->]|[-> ->]]]]; try congruence; cbn [length Nat.mul Nat.add] in NN, EE.
  all: try (pose proof (EE 0 0 ltac:(lia) ltac:(lia))%nat as E0).
  all: try (pose proof (EE 1 0 ltac:(lia) ltac:(lia))%nat as E1).
  all: try (pose proof (EE 0 1 ltac:(lia) ltac:(lia))%nat as E1).
  all: clear EE; cbv -[Rplus Rmult Ropp Rminus Rinv IZR Rdiv Rle] in NN, E0; try (cbv -[Rplus Rmult Ropp Rminus Rinv IZR Rdiv Rle] in E1).
  all: revert NN E0; try revert E1; values; intros.
  all: first [ apply (one_val v 0 (psi 0%nat)); lra | apply (one_val v eps (psi 0%nat)); lra | apply (one_val v (eps + eps + U) (psi 0%nat)); lra
             | apply (two_val v eps 0 (psi 0%nat) (psi 1%nat)); [lra|lra|lra|lra|lra|lra]
             | apply (two_val v 0 eps (psi 0%nat) (psi 1%nat)); [lra|lra|lra|lra|lra|lra]
             | apply (two_val v (eps + eps + U) eps (psi 0%nat) (psi 1%nat)); [lra|lra|lra|lra|lra|lra]
             | apply (two_val v eps (eps + eps + U) (psi 0%nat) (psi 1%nat)); [lra|lra|lra|lra|lra|lra] ].
Qed.
(** The ground state has one electron of each spin. *)
Lemma dimer_sector es e key s : es_of = Ok (es, Some e) -> ground_sector es e key s -> key = [1; 1]%nat.
Proof.
  intros E (l1 & l2 & EQ & (v & r & SV & NV) & _). pose proof (ground_low es e E) as G.
  destruct (C85_sectors _ _ _ _ _ _ _ _ _ _ _ _ _ _ dimer_model C85_contract E) as (_ & KEY & _).
  assert (I : In (key, s) es) by (rewrite EQ; apply in_or_app; right; left; reflexivity).
  assert (X : In key (map fst es)) by (apply in_map_iff; exists (key, s); auto). apply KEY in X. destruct X as (p & q & _ & _ & ->).
  destruct (list_eq_dec Nat.eq_dec [p; q] [1; 1]%nat) as [D|D]; [exact D|exfalso].
  pose proof (sector_high es e p q s E I D) as S. rewrite SV in S. cbn in S. apply Rabs_def2 in NV. lra.
Qed.
End Dimer.
