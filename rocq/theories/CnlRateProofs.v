(** Rates of cotnl.py, method 'approximate'. *)
From Coq Require Import Reals List Arith NArith ZArith Bool Lia Lra Sorted Permutation.
From Verif Require Import Base RBase RLin OperatorsSpec FockSpec LookupModel SectorModel LocalModel MatvecModel EspaceModel ProjModel ProjSpec
  GfModel GfSpec RateModel RateSpec RateProofs RateDictProofs TransModel TransSpec TransProofs TransFinalProofs CotModel CotSpec CotBuildProofs CotFinalProofs TnlModel TnlSpec TnlProofs TnlMatProofs CnlSpec CnlProofs.
Import ListNotations.
Local Open Scope R_scope.

Lemma cross_reversed n es N ae ai f i z X S : nsolved n es -> In ([N], S) es -> cross n es N ae ai f i z X -> cross n es N ai ae i f (z + (energy S f - energy S i)) X.
Proof.
  intros HS HI (T00 & T01 & T10 & T11 & A & B & C & D & ->). exists T00, T10, T01, T11.
  repeat split; try (eapply second_order_reversed; eassumption). ring.
Qed.
Lemma cross_fun n es N ae ai f i z X X' : nsolved n es -> cross n es N ae ai f i z X -> cross n es N ae ai f i z X' -> X = X'.
Proof.
  intros HS (T00 & T01 & T10 & T11 & A & B & C & D & ->) (T00' & T01' & T10' & T11' & A' & B' & C' & D' & ->).
  now rewrite (second_order_fun _ _ _ _ _ _ _ _ _ _ _ _ HS A A'), (second_order_fun _ _ _ _ _ _ _ _ _ _ _ _ HS B B'), (second_order_fun _ _ _ _ _ _ _ _ _ _ _ _ HS C C'), (second_order_fun _ _ _ _ _ _ _ _ _ _ _ _ HS D D').
Qed.
Lemma cross_nonneg n es N ae ai f i z X : cross n es N ae ai f i z X -> 0 <= X.
Proof. intros (T00 & T01 & T10 & T11 & _ & _ & _ & _ & ->). pose proof (pow2_ge_0 T00). pose proof (pow2_ge_0 T01). pose proof (pow2_ge_0 T10). pose proof (pow2_ge_0 T11). lra. Qed.
Lemma Gfun_nonneg beta z : 0 < beta -> 0 <= Gfun beta z.
Proof.
  intros Hb. unfold Gfun. destruct (Rltb _ _) eqn:E; [lra|]. destruct (Rltb (10 ^ 3) (beta * z)); [lra|]. destruct (Rtotal_order z 0) as [L|[->|L]].
  - assert (exp (beta * z) < 1) by (rewrite <- exp_0; apply exp_increasing; nra). replace (z / (exp (beta * z) - 1)) with ((- z) / (1 - exp (beta * z))) by (field; lra). apply Rlt_le, Rdiv_lt_0_compat; lra.
  - unfold Rdiv. lra.
  - assert (1 < exp (beta * z)) by (rewrite <- exp_0; apply exp_increasing; nra). apply Rlt_le, Rdiv_lt_0_compat; lra.
Qed.

Lemma approximate_value n es N f i sp s A ext inj ae ai beta mu me mi S : exact_sig n es N f i sp s -> In ([N], S) es -> nsolved n es ->
  nth_error A ext = Some ae -> nth_error A inj = Some ai -> length ae = n -> length ai = n -> nth_error mu ext = Some me -> nth_error mu inj = Some mi ->
  exists T, second_order n es N (fst sp) (snd sp) ae ai f i (1 / 2 * (energy S f - energy S i + fold_right Rplus 0 mu)) T /\
  napproximate s A ext inj beta mu = Ok (Gfun beta (energy S f - energy S i - me + mi) * T ^ 2).
Proof.
  intros (_ & (S' & HI' & DE) & C) HI HS Ee Ei Le Li Me Mi. pose proof (nst_unique n es HS _ _ _ HI HI'). subst S'.
  destruct (C A ext inj ae ai (1 / 2 * (energy S f - energy S i + fold_right Rplus 0 mu)) Ee Ei Le Li) as (T & HT & CT). exists T. split; [exact HT|].
  unfold napproximate, lead. rewrite Me, Mi. cbn [bind]. rewrite DE, CT. reflexivity.
Qed.
Theorem gamma_value n es N f i l A ext inj ae ai beta mu me mi S : nsolved n es -> In ([N], S) es -> Forall2 (exact_sig n es N f i) [(0, 0); (0, 1); (1, 0); (1, 1)]%nat l ->
  nth_error A ext = Some ae -> nth_error A inj = Some ai -> length ae = n -> length ai = n -> nth_error mu ext = Some me -> nth_error mu inj = Some mi ->
  exists X, cross n es N ae ai f i (1 / 2 * (energy S f - energy S i + fold_right Rplus 0 mu)) X /\
  co_gamma napproximate A beta mu l (ext, inj) = Ok (Gfun beta (energy S f - energy S i - me + mi) * X).
Proof.
  intros HS HI F Ee Ei Le Li Me Mi.
  inversion_clear F as [|? s0 ? ? X0 F0]. inversion_clear F0 as [|? s1 ? ? X1 F1]. inversion_clear F1 as [|? s2 ? ? X2 F2]. inversion_clear F2 as [|? s3 ? ? X3 F3]. inversion_clear F3.
  destruct (approximate_value n es N f i _ _ A ext inj ae ai beta mu me mi S X0 HI HS Ee Ei Le Li Me Mi) as (T0 & H0 & E0).
  destruct (approximate_value n es N f i _ _ A ext inj ae ai beta mu me mi S X1 HI HS Ee Ei Le Li Me Mi) as (T1 & H1 & E1).
  destruct (approximate_value n es N f i _ _ A ext inj ae ai beta mu me mi S X2 HI HS Ee Ei Le Li Me Mi) as (T2 & H2 & E2).
  destruct (approximate_value n es N f i _ _ A ext inj ae ai beta mu me mi S X3 HI HS Ee Ei Le Li Me Mi) as (T3 & H3 & E3).
  exists (T0 ^ 2 + T1 ^ 2 + T2 ^ 2 + T3 ^ 2). split; [exists T0, T1, T2, T3; auto|]. unfold co_gamma. cbn [foldM fst snd]. rewrite E0. cbn [bind]. rewrite E1. cbn [bind]. rewrite E2. cbn [bind]. rewrite E3. cbn [bind]. f_equal. ring.
Qed.
Theorem elastic_balance n es N f i l l' A ext inj ae ai beta mu me mi S : nsolved n es -> In ([N], S) es -> energy S f = energy S i ->
  Forall2 (exact_sig n es N f i) [(0, 0); (0, 1); (1, 0); (1, 1)]%nat l -> Forall2 (exact_sig n es N i f) [(0, 0); (0, 1); (1, 0); (1, 1)]%nat l' ->
  nth_error A ext = Some ae -> nth_error A inj = Some ai -> length ae = n -> length ai = n -> nth_error mu ext = Some me -> nth_error mu inj = Some mi ->
  0 < beta -> regular beta (mi - me) -> exists x, co_gamma napproximate A beta mu l' (inj, ext) = Ok x /\ co_gamma napproximate A beta mu l (ext, inj) = Ok (exp (- beta * (mi - me)) * x).
Proof.
  intros HS HI EE F F' Ee Ei Le Li Me Mi Hb RG.
  destruct (gamma_value n es N f i l A ext inj ae ai beta mu me mi S HS HI F Ee Ei Le Li Me Mi) as (X & CX & ->).
  destruct (gamma_value n es N i f l' A inj ext ai ae beta mu mi me S HS HI F' Ei Ee Li Le Mi Me) as (X' & CX' & ->).
  eexists. split; [reflexivity|]. f_equal. apply (cross_reversed n es N ae ai f i _ _ S HS HI) in CX.
  replace (1 / 2 * (energy S f - energy S i + fold_right Rplus 0 mu) + (energy S f - energy S i)) with (1 / 2 * (energy S i - energy S f + fold_right Rplus 0 mu)) in CX by (rewrite EE; ring).
  rewrite (cross_fun _ _ _ _ _ _ _ _ _ _ HS CX CX'), EE. replace (energy S i - energy S i - me + mi) with (mi - me) by ring. replace (energy S i - energy S i - mi + me) with (- (mi - me)) by ring.
  rewrite (Gfun_balance beta _ Hb RG). ring.
Qed.

Lemma napprox_nonneg s A ext inj beta mu x : 0 < beta -> napproximate s A ext inj beta mu = Ok x -> 0 <= x.
Proof.
  intros HB. unfold napproximate. destruct (lead mu ext); [|discriminate]. destruct (lead mu inj); [|discriminate]. cbn [bind]. unfold nsigma_call.
  destruct (foldM _ (n_gf2 s) 0) as [r|]; [|discriminate]. cbn [bind]. intros Q. injection Q as <-. apply Rmult_le_pos; [now apply Gfun_nonneg|apply pow2_ge_0].
Qed.
Lemma gamma_nonneg A beta mu ei x : 0 < beta -> forall l acc, 0 <= acc -> foldM (fun acc s => do x <- napproximate s A (fst ei) (snd ei) beta mu; Ok (acc + x)) l acc = Ok x -> 0 <= x.
Proof.
  intros HB. induction l as [|s l IH]; intros acc P Q; cbn [foldM] in Q; [injection Q as <-; exact P|]. destruct (napproximate s A (fst ei) (snd ei) beta mu) as [y|] eqn:E; [|discriminate]. cbn [bind] in Q.
  apply (IH _ (Rplus_le_le_0_compat _ _ P (napprox_nonneg _ _ _ _ _ _ _ HB E)) Q).
Qed.
Lemma total_nonneg A beta mu l x : 0 < beta -> co_total napproximate A beta mu l = Ok x -> 0 <= x.
Proof.
  intros HB. unfold co_total. cbn [foldM].
  assert (G : forall ei y, co_gamma napproximate A beta mu l ei = Ok y -> 0 <= y) by (intros ei y; apply gamma_nonneg; [exact HB|lra]).
  destruct (co_gamma napproximate A beta mu l (0, 0)%nat) eqn:E0; [|discriminate]. destruct (co_gamma napproximate A beta mu l (0, 1)%nat) eqn:E1; [|discriminate].
  destruct (co_gamma napproximate A beta mu l (1, 0)%nat) eqn:E2; [|discriminate]. destruct (co_gamma napproximate A beta mu l (1, 1)%nat) eqn:E3; [|discriminate]. cbn [bind].
  intros Q. injection Q as <-. apply G in E0, E1, E2, E3. lra.
Qed.
(** * Matrices; entries on the diagonal only contribute to the current *)
Section Diag.
Context {V : Type}.
Variables (total trans : V -> res R).
Theorem dict_diag (d : list (key2 * V)) ids W idsT T : build_dict_matrices V total trans d = Ok ((ids, W), (idsT, T)) ->
  (forall x, In x ids <-> exists F I v, In ((F, I), v) d /\ F <> I /\ (x = F \/ x = I)) /\
  StronglySorted before idsT /\ (forall x, In x idsT <-> exists F I v, In ((F, I), v) d /\ (x = F \/ x = I)) /\
  forall f i, (f < length idsT)%nat -> (i < length idsT)%nat -> T f i = rate_of (fun v (_ : unit) => trans v) d tt (nth f idsT []) (nth i idsT []).
Proof.
  unfold build_dict_matrices. destruct (check_transition_elements V d); [|discriminate]. cbn [bind].
  destruct (foldM (dict_step V total trans) d ([], [])) as [[WD TD]|] eqn:E; [|discriminate]. cbn [bind fst snd]. intros Q.
  assert (QW : dict_to_matrix WD = (ids, W)) by congruence. assert (QT : dict_to_matrix TD = (idsT, T)) by congruence. clear Q.
  destruct (dict_foldT V total trans d _ _ _ _ E) as (A & B & C). destruct (to_matrix_entries _ _ _ QW) as (S1 & I1 & _). destruct (to_matrix_entries _ _ _ QT) as (S2 & I2 & M2).
  split; [|split; [exact S2|split]].
  - intros x. rewrite I1. split.
    + intros ([k r] & H & Q). cbn [fst] in Q. assert (K : In k (map fst WD)) by (apply in_map_iff; exists (k, r); auto). apply C in K. destruct K as [[]|([F I] & K & NE & O)].
      apply in_map_iff in K. destruct K as ([k' v] & Ek & K). cbn [fst snd] in *. subst k'. exists F, I, v. split; [exact K|]. split; [exact NE|]. destruct O as [->| ->]; cbn [fst snd] in Q; intuition.
    + intros (F & I & v & H & NE & Q). assert (K : In (F, I) (map fst WD)) by (apply C; right; exists (F, I); split; [apply in_map_iff; exists ((F, I), v); auto|]; split; [exact NE|now left]).
      apply in_map_iff in K. destruct K as ([k r] & Ek & K). cbn [fst] in Ek. subst k. exists ((F, I), r). split; [exact K|]. cbn [fst snd]. destruct Q as [->| ->]; auto.
  - intros x. rewrite I2. split.
    + intros ([k r] & H & Q). cbn [fst] in Q. assert (K : In k (map fst TD)) by (apply in_map_iff; exists (k, r); auto). apply B in K. destruct K as [[]|K].
      apply in_map_iff in K. destruct K as ([[F I] v] & Ek & K). cbn [fst snd] in *. subst k. cbn [fst snd] in Q. exists F, I, v. intuition.
    + intros (F & I & v & H & Q). assert (K : In (F, I) (map fst TD)) by (apply B; right; apply in_map_iff; exists ((F, I), v); auto).
      apply in_map_iff in K. destruct K as ([k r] & Ek & K). cbn [fst] in Ek. subst k. exists ((F, I), r). split; [exact K|]. cbn [fst snd]. destruct Q as [->| ->]; auto.
  - intros f i Hf Hi. rewrite M2 by auto. rewrite A. unfold vsum. simpl. lra.
Qed.
End Diag.
Lemma rate_of_neg {V} (t t' : V -> res R) (d : list (key2 * V)) F I : (forall v x, t v = Ok x -> t' v = Ok (- x)) -> (forall e, In e d -> exists x, t (snd e) = Ok x) ->
  rate_of (fun v (_ : unit) => t' v) d tt F I = - rate_of (fun v (_ : unit) => t v) d tt F I.
Proof.
  intros H. unfold rate_of. induction d as [|[[F0 I0] v] d IH]; intros O; [cbn; ring|]. cbn [bsum].
  destruct (O _ (or_introl eq_refl)) as (x & Ex). cbn [fst snd] in *. rewrite Ex, (H _ _ Ex), IH by (intros; apply O; now right). cbn [cadd RRing]. destruct (dec F0 F); [destruct (dec I0 I)|]; ring.
Qed.
Lemma dict_fold_trans {V} (total trans : V -> res R) d : forall WT WT', foldM (dict_step V total trans) d WT = Ok WT' -> forall e, In e d -> exists x y, total (snd e) = Ok x /\ trans (snd e) = Ok y.
Proof.
  induction d as [|[[F I] v] d IH]; intros WT WT' E e He; [destruct He|]. cbn [foldM dict_step] in E. destruct (total v) as [g|] eqn:Eg; [|discriminate]. cbn [bind] in E. destruct (trans v) as [t|] eqn:Et; [|discriminate]. cbn [bind] in E.
  destruct He as [<-|He]; [cbn [snd]; eauto|]. eapply IH; eauto.
Qed.
Theorem lead_swap meth d beta mu A ext inj ids W idsT T : cotnl_matrices meth d beta mu A ext inj = Ok ((ids, W), (idsT, T)) ->
  exists T', cotnl_matrices meth d beta mu A inj ext = Ok ((ids, W), (idsT, T')) /\
  forall f i, (f < length idsT)%nat -> (i < length idsT)%nat -> T' f i = - T f i.
Proof.
  intros E. pose proof E as E0. unfold cotnl_matrices, build_dict_matrices in E.
  assert (CK : check_transition_elements (list nsigma) d = Ok tt) by (destruct (check_transition_elements (list nsigma) d) as [[]|]; [reflexivity|discriminate]). rewrite CK in E. cbn [bind] in E.
  set (tot := co_total meth A beta mu) in *. set (tr := co_trans meth A beta mu ext inj) in *. set (tr' := co_trans meth A beta mu inj ext).
  destruct (foldM (dict_step (list nsigma) tot tr) d ([], [])) as [WT|] eqn:FD; [|discriminate]. cbn [bind] in E.
  assert (NEG : forall v x, tr v = Ok x -> tr' v = Ok (- x)).
  { intros v x. unfold tr, tr', co_trans. destruct (co_gamma meth A beta mu v (ext, inj)) as [a|]; [|discriminate]. destruct (co_gamma meth A beta mu v (inj, ext)) as [b|]; [|discriminate]. cbn [bind]. intros Q. injection Q as <-. f_equal. ring. }
  pose proof (dict_fold_trans _ _ _ _ _ FD) as OKS.
  destruct (dict_fold_ok (list nsigma) tot tr' d) with (WT := ([] : list (key2 * R), [] : list (key2 * R))) as (WT' & FD').
  { intros e He. destruct (OKS e He) as (x & y & Ex & Ey). exists x, (- y). split; [exact Ex|]. now apply NEG. }
  assert (FW : forall l D D' X X', foldM (dict_step (list nsigma) tot tr) l D = Ok X -> foldM (dict_step (list nsigma) tot tr') l D' = Ok X' -> fst D = fst D' -> map fst (snd D) = map fst (snd D') -> fst X = fst X' /\ map fst (snd X) = map fst (snd X')).
  { assert (DA : forall D D' k x y, map fst D = map fst D' -> map fst (dadd D k x) = map fst (dadd D' k y)).
    { induction D as [|[k0 v0] D IH]; intros [|[k1 v1] D'] k x y Q; try discriminate Q; [reflexivity|]. cbn [map fst] in Q. injection Q as -> Q. cbn [dadd]. destruct (key_eqb k1 k); cbn [map fst]; f_equal; auto. }
    induction l as [|[[F I] v] l IH]; intros D D' X X' Q Q' QD QT; cbn [foldM] in *; [injection Q as <-; injection Q' as <-; auto|].
    unfold dict_step in Q at 1, Q' at 1. destruct (tot v); cbn [bind] in *; [|discriminate]. destruct (tr v); cbn [bind] in *; [|discriminate]. destruct (tr' v); cbn [bind] in *; [|discriminate].
    eapply IH; [exact Q|exact Q'| |]; cbn [fst snd]; [now rewrite QD|]. now apply DA. }
  destruct (FW _ _ _ _ _ FD FD' eq_refl eq_refl) as [QW QT].
  assert (EM : exists T', cotnl_matrices meth d beta mu A inj ext = Ok ((ids, W), (idsT, T'))).
  { unfold cotnl_matrices, build_dict_matrices. fold tot tr'. rewrite CK. cbn [bind]. rewrite FD'. cbn [bind]. rewrite <- QW. destruct (dict_to_matrix (fst WT)) as [i1 w1] eqn:D1. destruct (dict_to_matrix (snd WT)) as [i2 w2] eqn:D2.
    injection E as <- <- <- <-. destruct (dict_to_matrix (snd WT')) as [i3 w3] eqn:D3. exists w3. do 2 f_equal. f_equal.
    unfold dict_to_matrix in D2, D3. injection D2 as D2 _. injection D3 as D3 _. rewrite <- D2, <- D3. 
    rewrite <- !(map_map fst fst), <- !(map_map fst snd), QT. reflexivity. }
  destruct EM as (T' & EM). exists T'. split; [exact EM|]. intros f i Hf Hi.
  destruct (dict_diag _ _ _ _ _ _ _ E0) as (_ & _ & _ & TE). destruct (dict_diag _ _ _ _ _ _ _ EM) as (_ & _ & _ & TE'). rewrite TE, TE' by auto.
  apply rate_of_neg; [exact NEG|]. intros e He. destruct (OKS e He) as (x & y & _ & Ey). eauto.
Qed.

Section Matrices.
Variables (n : nat) (es : espace RRing) (No : option nat) (N : nat) (egs : option R) (d : list (key2 * list nsigma)).
Hypothesis HS : nsolved n es.
Hypothesis HC : chosen es No N.
Hypothesis HG : No = None -> egs <> None.
Hypothesis LK : links_stored n es N.
Hypothesis HD : co_elements n es No egs None = Ok d.
Variables (a0 a1 : list R) (beta m0 m1 : R) (ext inj : nat).
Hypothesis L0 : length a0 = n. Hypothesis L1 : length a1 = n. Hypothesis HB : 0 < beta.
Hypothesis Hext : (ext < 2)%nat. Hypothesis Hinj : (inj < 2)%nat.
Notation A := [a0; a1]. Notation mu := [m0; m1].

Lemma elements : NoDup (map fst d) /\
  (forall F I, (exists l, In ((F, I), l) d) <-> (exists lo, linked n N lo) /\ exists f i, F = [N; f] /\ I = [N; i] /\ is_state es N f /\ is_state es N i) /\
  (forall f i l, In (([N; f], [N; i]), l) d -> Forall2 (exact_sig n es N f i) [(0, 0); (0, 1); (1, 0); (1, 1)]%nat l).
Proof. destruct (co_elements_full n es No N egs HS HC HG LK) as (d' & E & _ & X). rewrite HD in E. injection E as <-. exact X. Qed.
Lemma gamma_ok f i l e j : In (([N; f], [N; i]), l) d -> (e < 2)%nat -> (j < 2)%nat -> exists x, co_gamma napproximate A beta mu l (e, j) = Ok x /\ 0 <= x.
Proof.
  intros H He Hj. destruct elements as (_ & KEY & ELS). destruct (proj1 (KEY [N; f] [N; i])) as (_ & f' & i' & _ & _ & (S & HI & _) & _); [eauto|].
  assert (X : forall k, (k < 2)%nat -> exists a m, nth_error A k = Some a /\ nth_error mu k = Some m /\ length a = n) by (intros [|[|k]] Hk; [exists a0, m0|exists a1, m1|lia]; auto).
  destruct (X e He) as (ae & me & Ee & Me & Le). destruct (X j Hj) as (ai & mi & Ei & Mi & Li).
  destruct (gamma_value n es N f i l A e j ae ai beta mu me mi S HS HI (ELS _ _ _ H) Ee Ei Le Li Me Mi) as (Y & CY & ->). eexists. split; [reflexivity|].
  apply Rmult_le_pos; [now apply Gfun_nonneg|]. eapply cross_nonneg; eauto.
Qed.
Lemma total_ok f i l : In (([N; f], [N; i]), l) d -> exists x00 x01 x10 x11,
  co_gamma napproximate A beta mu l (0, 0)%nat = Ok x00 /\ co_gamma napproximate A beta mu l (0, 1)%nat = Ok x01 /\ co_gamma napproximate A beta mu l (1, 0)%nat = Ok x10 /\ co_gamma napproximate A beta mu l (1, 1)%nat = Ok x11 /\
  co_total napproximate A beta mu l = Ok (x00 + x01 + x10 + x11) /\ 0 <= x00 + x01 + x10 + x11.
Proof.
  intros H. destruct (gamma_ok f i l 0 0 H ltac:(lia) ltac:(lia)) as (x00 & E00 & P00). destruct (gamma_ok f i l 0 1 H ltac:(lia) ltac:(lia)) as (x01 & E01 & P01).
  destruct (gamma_ok f i l 1 0 H ltac:(lia) ltac:(lia)) as (x10 & E10 & P10). destruct (gamma_ok f i l 1 1 H ltac:(lia) ltac:(lia)) as (x11 & E11 & P11).
  exists x00, x01, x10, x11. repeat split; auto; [|lra]. unfold co_total. cbn [foldM]. rewrite E00. cbn [bind]. rewrite E01. cbn [bind]. rewrite E10. cbn [bind]. rewrite E11. cbn [bind]. f_equal. ring.
Qed.
Theorem co_matrices : exists ids W idsT T, cotnl_matrices napproximate d beta mu A ext inj = Ok ((ids, W), (idsT, T)) /\
  StronglySorted before ids /\ StronglySorted before idsT /\
  (forall x, In x idsT <-> (exists lo, linked n N lo) /\ exists f, x = [N; f] /\ is_state es N f) /\
  (forall x, In x ids <-> In x idsT /\ exists y, In y idsT /\ y <> x) /\
  rate_matrix (length ids) W /\
  (forall f i, (f < length ids)%nat -> (i < length ids)%nat -> f <> i -> exists l, In ((nth f ids [], nth i ids []), l) d /\ co_total napproximate A beta mu l = Ok (W f i)) /\
  (forall f i, (f < length idsT)%nat -> (i < length idsT)%nat -> exists l x y, In ((nth f idsT [], nth i idsT []), l) d /\
     co_gamma napproximate A beta mu l (ext, inj) = Ok x /\ co_gamma napproximate A beta mu l (inj, ext) = Ok y /\ T f i = x - y).
Proof.
  destruct elements as (ND & KEY & ELS).
  assert (SH : forall F I l, In ((F, I), l) d -> exists f i, F = [N; f] /\ I = [N; i]).
  { intros F I l H. destruct (proj1 (KEY F I)) as (_ & f & i & -> & -> & _); eauto. }
  destruct (dict_succeeds (list nsigma) (co_total napproximate A beta mu) (co_trans napproximate A beta mu ext inj) d) as ([[ids W] [idsT T]] & E).
  - intros [[F I] l] H. destruct (SH _ _ _ H) as (f & i & -> & ->). destruct (total_ok f i l H) as (x00 & x01 & x10 & x11 & _ & _ & _ & _ & Q & _). destruct (gamma_ok f i l ext inj H Hext Hinj) as (x & Ex & _). destruct (gamma_ok f i l inj ext H Hinj Hext) as (y & Ey & _).
    cbn [snd]. exists (x00 + x01 + x10 + x11), (x - y). split; [exact Q|]. unfold co_trans. rewrite Ex. cbn [bind]. rewrite Ey. reflexivity.
  - intros F I l H. assert (K : exists l', In ((I, I), l') d); [|destruct K as (l' & K); eauto]. destruct (proj1 (KEY F I)) as (L & f & i & -> & -> & SF & SI); [eauto|]. apply KEY. split; [exact L|]. exists i, i. auto.
  - destruct (dict_rates _ _ _ _ _ _ _ _ E) as (S & CO & OD & SG). destruct (dict_diag _ _ _ _ _ _ _ E) as (I1 & S2 & I2 & TE).
    assert (IT : forall x, In x idsT <-> (exists lo, linked n N lo) /\ exists f, x = [N; f] /\ is_state es N f).
    { intros x. rewrite I2. split.
      - intros (F & I & l & H & Q). destruct (proj1 (KEY F I)) as (L & f & i & -> & -> & SF & SI); [eauto|]. split; [exact L|]. destruct Q as [->| ->]; eauto.
      - intros (L & f & -> & SF). destruct (proj2 (KEY [N; f] [N; f])) as (l & H); [split; [exact L|exists f, f; auto]|]. exists [N; f], [N; f], l. auto. }
    assert (IW : forall x, In x ids <-> In x idsT /\ exists y, In y idsT /\ y <> x).
    { intros x. rewrite I1. split.
      - intros (F & I & l & H & NE & Q). assert (HF : In F idsT) by (apply I2; exists F, I, l; auto). assert (HI : In I idsT) by (apply I2; exists F, I, l; auto). destruct Q as [->| ->]; eauto.
      - intros (Hx & y & Hy & NE). apply IT in Hx, Hy. destruct Hx as (L & f & -> & SF), Hy as (_ & i & -> & SI). destruct (proj2 (KEY [N; f] [N; i])) as (l & H); [split; [exact L|exists f, i; auto]|].
        exists [N; f], [N; i], l. repeat split; auto. }
    assert (ALL : forall x y, In x idsT -> In y idsT -> exists l, In ((x, y), l) d).
    { intros x y Hx Hy. apply IT in Hx, Hy. destruct Hx as (L & f & -> & SF), Hy as (_ & i & -> & SI). apply KEY. split; [exact L|]. exists f, i. auto. }
    assert (WE : forall f i, (f < length ids)%nat -> (i < length ids)%nat -> f <> i -> exists l, In ((nth f ids [], nth i ids []), l) d /\ co_total napproximate A beta mu l = Ok (W f i)).
    { intros f i Hf Hi NE. destruct (ALL (nth f ids []) (nth i ids [])) as (l & H); [apply IW; now apply nth_In|apply IW; now apply nth_In|]. exists l. split; [exact H|].
      rewrite (OD f i Hf Hi NE), (rate_of_In _ _ _ _ _ _ ND H). destruct (SH _ _ _ H) as (f' & i' & Q1 & Q2). rewrite Q1, Q2 in H. destruct (total_ok _ _ _ H) as (x00 & x01 & x10 & x11 & _ & _ & _ & _ & Q & _). rewrite Q. reflexivity. }
    exists ids, W, idsT, T. split; [exact E|]. split; [exact S|]. split; [exact S2|]. split; [exact IT|]. split; [exact IW|]. split; [|split; [exact WE|]].
    + split; [exact CO|]. apply SG. intros v g Q. exact (total_nonneg A beta mu v g HB Q).
    + intros f i Hf Hi. destruct (ALL (nth f idsT []) (nth i idsT [])) as (l & H); [now apply nth_In|now apply nth_In|]. destruct (SH _ _ _ H) as (f' & i' & Q1 & Q2). pose proof H as H'. rewrite Q1, Q2 in H'.
      destruct (gamma_ok _ _ l ext inj H' Hext Hinj) as (x & Ex & _). destruct (gamma_ok _ _ l inj ext H' Hinj Hext) as (y & Ey & _). exists l, x, y. repeat split; auto.
      rewrite TE by auto. rewrite (rate_of_In _ _ _ _ _ _ ND H). unfold co_trans. rewrite Ex. cbn [bind]. rewrite Ey. reflexivity.
Qed.
End Matrices.

(** Equal potentials: transitions between states of the same energy balance. *)
Theorem co_degenerate n es No N egs d a0 a1 beta m ext inj : nsolved n es -> chosen es No N -> (No = None -> egs <> None) -> links_stored n es N -> co_elements n es No egs None = Ok d ->
  length a0 = n -> length a1 = n -> 0 < beta -> (ext < 2)%nat -> (inj < 2)%nat ->
  exists ids W idsT T, cotnl_matrices napproximate d beta [m; m] [a0; a1] ext inj = Ok ((ids, W), (idsT, T)) /\
  (forall f i E, (f < length ids)%nat -> (i < length ids)%nat -> nstate_energy es (nth f ids []) E -> nstate_energy es (nth i ids []) E -> W f i = W i f) /\
  (forall f i E, (f < length idsT)%nat -> (i < length idsT)%nat -> nstate_energy es (nth f idsT []) E -> nstate_energy es (nth i idsT []) E -> T f i = - T i f) /\
  ((exists E, forall x, In x idsT -> nstate_energy es x E) -> stationary (length ids) W (fun _ => 1) /\ current (length idsT) T (fun _ => 1) = 0).
Proof.
  intros HS HC HG LK HD L0 L1 HB He Hj.
  destruct (co_matrices n es No N egs d HS HC HG LK HD a0 a1 beta m m ext inj L0 L1 HB He Hj) as (ids & W & idsT & T & EM & S & S2 & IT & IW & (CO & SG) & WE & TE).
  destruct (elements n es No N egs d HS HC HG LK HD) as (ND & KEY & ELS).
  assert (X : forall k, (k < 2)%nat -> exists a, nth_error [a0; a1] k = Some a /\ nth_error [m; m] k = Some m /\ length a = n) by (intros [|[|k]] Hk; [exists a0|exists a1|lia]; auto).
  assert (BAL : forall x y l l' E e j, In ((x, y), l) d -> In ((y, x), l') d -> nstate_energy es x E -> nstate_energy es y E -> (e < 2)%nat -> (j < 2)%nat ->
    exists g, co_gamma napproximate [a0; a1] beta [m; m] l (e, j) = Ok g /\ co_gamma napproximate [a0; a1] beta [m; m] l' (j, e) = Ok g).
  { intros x y l l' E e j H H' (Nx & f & s & -> & Hs & _ & EF) (Ny & i & s' & -> & Hs' & _ & EI) Le Lj.
    destruct (proj1 (KEY [Nx; f] [Ny; i])) as (_ & f' & i' & Q1 & Q2 & _); [eauto|]. injection Q1 as -> ->. injection Q2 as -> ->. pose proof (nst_unique n es HS _ _ _ Hs Hs'). subst s'.
    destruct (X e Le) as (ae & Ee & Me & La). destruct (X j Lj) as (ai & Ei & Mi & Lb).
    destruct (elastic_balance n es N f' i' l l' [a0; a1] e j ae ai beta [m; m] m m s HS Hs ltac:(congruence) (ELS _ _ _ H) (ELS _ _ _ H') Ee Ei La Lb Me Mi HB ltac:(left; ring)) as (g & Q' & Q).
    exists g. split; [|exact Q']. rewrite Q. f_equal. replace (- beta * (m - m)) with 0 by ring. rewrite exp_0. ring. }
  assert (SYM : forall f i E, (f < length ids)%nat -> (i < length ids)%nat -> nstate_energy es (nth f ids []) E -> nstate_energy es (nth i ids []) E -> W f i = W i f).
  { intros f i E Hf Hi EF EI. destruct (Nat.eq_dec f i) as [->|NE]; [reflexivity|]. destruct (WE f i Hf Hi NE) as (l & H & Q). destruct (WE i f Hi Hf ltac:(auto)) as (l' & H' & Q').
    destruct (BAL _ _ _ _ _ 0%nat 0%nat H H' EF EI ltac:(lia) ltac:(lia)) as (g00 & A00 & B00). destruct (BAL _ _ _ _ _ 0%nat 1%nat H H' EF EI ltac:(lia) ltac:(lia)) as (g01 & A01 & B01).
    destruct (BAL _ _ _ _ _ 1%nat 0%nat H H' EF EI ltac:(lia) ltac:(lia)) as (g10 & A10 & B10). destruct (BAL _ _ _ _ _ 1%nat 1%nat H H' EF EI ltac:(lia) ltac:(lia)) as (g11 & A11 & B11).
    unfold co_total in Q, Q'. cbn [foldM] in Q, Q'. rewrite A00 in Q. cbn [bind] in Q. rewrite A01 in Q. cbn [bind] in Q. rewrite A10 in Q. cbn [bind] in Q. rewrite A11 in Q. cbn [bind] in Q.
    rewrite B00 in Q'. cbn [bind] in Q'. rewrite B10 in Q'. cbn [bind] in Q'. rewrite B01 in Q'. cbn [bind] in Q'. rewrite B11 in Q'. cbn [bind] in Q'. injection Q as <-. injection Q' as <-. ring. }
  assert (ANTI : forall f i E, (f < length idsT)%nat -> (i < length idsT)%nat -> nstate_energy es (nth f idsT []) E -> nstate_energy es (nth i idsT []) E -> T f i = - T i f).
  { intros f i E Hf Hi EF EI. destruct (TE f i Hf Hi) as (l & x & y & H & Qx & Qy & ->). destruct (TE i f Hi Hf) as (l' & x' & y' & H' & Qx' & Qy' & ->).
    destruct (BAL _ _ _ _ _ ext inj H H' EF EI He Hj) as (g & A & B). destruct (BAL _ _ _ _ _ inj ext H H' EF EI Hj He) as (g' & A' & B').
    rewrite A in Qx. rewrite A' in Qy. rewrite B in Qy'. rewrite B' in Qx'. injection Qx as <-. injection Qy as <-. injection Qx' as <-. injection Qy' as <-. ring. }
  exists ids, W, idsT, T. split; [exact EM|]. split; [exact SYM|]. split; [exact ANTI|]. intros (E & ALL). split.
  - intros f Hf. rewrite <- (CO f Hf). apply rsum_ext. intros i Hi. rewrite (SYM f i E Hf Hi); [ring| |]; apply ALL, IW, nth_In; auto.
  - assert (Q : current (length idsT) T (fun _ => 1) = - current (length idsT) T (fun _ => 1)); [|lra]. unfold current at 1. rewrite rsum_swap. unfold current. rewrite <- rsum_neg. apply rsum_ext. intros f Hf. rewrite <- rsum_neg. apply rsum_ext. intros i Hi.
    rewrite (ANTI i f E Hi Hf); [ring| |]; apply ALL, nth_In; auto.
Qed.
