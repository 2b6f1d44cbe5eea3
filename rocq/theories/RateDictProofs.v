(** Rate matrices collected in dictionaries. *)
From Coq Require Import Reals List Arith ZArith Bool Lia Lra Psatz Sorted.
From Verif Require Import Base RBase RLin CBase RateModel RateSpec RateProofs.
Import ListNotations.
Local Open Scope R_scope.
Notation dec := (list_eq_dec Nat.eq_dec).
Ltac reqt := match goal with |- ?x = ?y => change (@eq R x y) end.

Definition vsum (D : list (key2 * R)) (F I : label) : R :=
  bsum (K := RRing) (fun e => if dec (fst (fst e)) F then if dec (snd (fst e)) I then snd e else 0 else 0) D.
Definition colsum (D : list (key2 * R)) (I : label) : R := bsum (K := RRing) (fun e => if dec (snd (fst e)) I then snd e else 0) D.

Lemma dadd_vsum D k x F I : vsum (dadd D k x) F I = vsum D F I + (if dec (fst k) F then if dec (snd k) I then x else 0 else 0).
Proof.
  unfold vsum. induction D as [|[k' y] D IH]; cbn [dadd bsum fst snd].
  - destruct (dec (fst k) F); [destruct (dec (snd k) I)|]; simpl; reqt; lra.
  - destruct (key_eqb_spec k' k) as [->|NE]; cbn [bsum fst snd].
    + destruct (dec (fst k) F); [destruct (dec (snd k) I)|]; simpl; reqt; lra.
    + rewrite IH. simpl. reqt. lra.
Qed.
Lemma dadd_colsum D k x I : colsum (dadd D k x) I = colsum D I + (if dec (snd k) I then x else 0).
Proof.
  unfold colsum. induction D as [|[k' y] D IH]; cbn [dadd bsum fst snd].
  - destruct (dec (snd k) I); simpl; reqt; lra.
  - destruct (key_eqb_spec k' k) as [->|NE]; cbn [bsum fst snd].
    + destruct (dec (snd k) I); simpl; reqt; lra.
    + rewrite IH. simpl. reqt. lra.
Qed.

(** ** Position of a label *)
Lemma index_of_nth ids a : NoDup ids -> (a < length ids)%nat -> forall x, In x ids -> (index_of ids x =? a)%nat = if dec x (nth a ids []) then true else false.
Proof.
  intros ND Ha x Hx.
  assert (G : forall l k, In x l -> exists i, (i < length l)%nat /\ nth i l [] = x /\
    (fix go l k := match l with [] => k | y :: l => if label_eqb x y then k else go l (S k) end) l k = (k + i)%nat).
  { induction l as [|y l IH]; intros k Hin; [destruct Hin|]. destruct (label_eqb_spec x y) as [->|NE].
    - exists 0%nat. simpl. repeat split; lia.
    - destruct Hin as [->|Hin]; [congruence|]. destruct (IH (S k) Hin) as (i & Li & Ni & Ei). exists (S i). simpl. split; [lia|]. split; [exact Ni|]. rewrite Ei. lia. }
  destruct (G ids 0%nat Hx) as (i & Li & Ni & Ei). unfold index_of. rewrite Ei. simpl.
  destruct (dec x (nth a ids [])) as [E|E].
  - apply Nat.eqb_eq. apply (NoDup_nth ids [] ) ; auto. congruence.
  - apply Nat.eqb_neq. intros ->. congruence.
Qed.

Lemma to_matrix_entries D ids M : dict_to_matrix D = (ids, M) -> StronglySorted before ids /\
  (forall x, In x ids <-> exists e, In e D /\ (fst (fst e) = x \/ snd (fst e) = x)) /\
  forall a b, (a < length ids)%nat -> (b < length ids)%nat -> M a b = vsum D (nth a ids []) (nth b ids []).
Proof.
  unfold dict_to_matrix, vsum. set (ids0 := usort _). intros E. injection E as <- <-. split; [apply usort_sorted|].
  assert (IN : forall x, In x ids0 <-> exists e, In e D /\ (fst (fst e) = x \/ snd (fst e) = x)).
  { intros x. unfold ids0. rewrite usort_In, in_app_iff, !in_map_iff. split.
    - intros [(e & <- & H)|(e & <- & H)]; exists e; auto.
    - intros (e & H & [<-|<-]); [left|right]; exists e; auto. }
  split; [exact IN|]. intros a b Ha Hb. pose proof (usort_NoDup (map (fun e => fst (fst e)) D ++ map (fun e => snd (fst e)) D)) as ND. fold ids0 in ND.
  assert (G : forall l (M : mat), (forall e, In e l -> In e D) ->
    fold_left (fun M e => add_at M (index_of ids0 (fst (fst e))) (index_of ids0 (snd (fst e))) (snd e)) l M a b = M a b +
    bsum (K := RRing) (fun e : (list nat * list nat) * R => if dec (fst (fst e)) (nth a ids0 []) then if dec (snd (fst e)) (nth b ids0 []) then snd e else 0 else 0) l).
  { induction l as [|e l IH]; intros M Hl; cbn [fold_left]; [simpl; reqt; lra|]. rewrite IH by (intros; apply Hl; now right).
    unfold add_at. cbn [bsum]. rewrite (Nat.eqb_sym a), (Nat.eqb_sym b).
    rewrite !index_of_nth by (auto; try (apply IN; exists e; split; [apply Hl; now left|auto])).
    destruct (dec (fst (fst e)) (nth a ids0 [])); [destruct (dec (snd (fst e)) (nth b ids0 []))|]; simpl; reqt; lra. }
  rewrite G by auto. unfold mzero. apply Rplus_0_l.
Qed.

(** Sum of a column over all labels. *)
Lemma column_total D ids b : NoDup ids -> (forall e, In e D -> In (fst (fst e)) ids) ->
  rsum (length ids) (fun a => vsum D (nth a ids []) b) = colsum D b.
Proof.
  intros ND H. unfold vsum, colsum. change (rsum (length ids) (fun a => lsum (fun e : key2 * R => if dec (fst (fst e)) (nth a ids []) then if dec (snd (fst e)) b then snd e else 0 else 0) D) = lsum (fun e => if dec (snd (fst e)) b then snd e else 0) D).
  rewrite <- lsum_rsum. apply lsum_ext. intros e He. destruct (In_nth ids (fst (fst e)) [] (H e He)) as (k & Hk & Ek).
  rewrite (rsum_single _ _ k Hk).
  - destruct (dec (fst (fst e)) (nth k ids [])); [reflexivity|congruence].
  - intros j Hj NE. destruct (dec (fst (fst e)) (nth j ids [])) as [E|]; [|reflexivity]. exfalso. apply NE. apply (NoDup_nth ids []); auto. congruence.
Qed.

Section Dict.
Variable V : Type.
Variables (total trans : V -> res R).

Lemma dict_fold d : forall W T W' T', foldM (dict_step V total trans) d (W, T) = Ok (W', T') ->
  (forall I, colsum W I = 0) -> 
  (forall I, colsum W' I = 0) /\
  (forall F I, F <> I -> vsum W' F I = vsum W F I + rate_of (fun v (_ : unit) => total v) d tt F I) /\
  (forall e, In e d -> exists g, total (snd e) = Ok g).
Proof.
  induction d as [|[[F0 I0] v] d IH]; intros W T W' T' E H0.
  - simpl in E. injection E as <- <-. split; [auto|]. split; [|intros e []]. intros F I _. unfold rate_of. simpl. lra.
  - cbn [foldM bind dict_step] in E. destruct (total v) as [g|] eqn:Eg; [|discriminate]. cbn [bind] in E. destruct (trans v) as [t|]; [|discriminate]. cbn [bind fst snd] in E.
    apply IH in E.
    + destruct E as (A & B & C). split; [exact A|]. split.
      * intros F I NE. rewrite B by auto. unfold rate_of. cbn [bsum fst snd]. rewrite Eg.
        destruct (label_eqb_spec F0 I0) as [->|NE0].
        -- destruct (dec I0 F) as [->|]; [destruct (dec F I); [congruence|]|]; simpl; reqt; lra.
        -- rewrite !dadd_vsum. cbn [fst snd]. destruct (dec I0 F) as [->|]; destruct (dec F0 F) as [->|]; try (destruct (dec F I); congruence);
           try destruct (dec F I); try destruct (dec I0 I); try congruence; simpl; reqt; lra.
      * intros e [<-|He]; [exists g; exact Eg|auto].
    + intros I. destruct (label_eqb_spec F0 I0) as [->|NE0]; [apply H0|]. rewrite !dadd_colsum, H0. cbn [snd]. destruct (dec I0 I); lra.
Qed.

Lemma vsum_nil F I : vsum [] F I = 0. Proof. reflexivity. Qed.
Lemma colsum_nil I : colsum [] I = 0. Proof. reflexivity. Qed.

(** A zero-column-sum matrix has minus the other entries on the diagonal. *)
Lemma diag_of_conserves sz (W : mat) : conserves sz W -> forall i, (i < sz)%nat -> W i i = - rsum sz (fun f => if (f =? i)%nat then 0 else W f i).
Proof.
  intros H i Hi. specialize (H i Hi).
  rewrite (rsum_ext _ _ (fun f => (if (f =? i)%nat then 0 else W f i) + (if (f =? i)%nat then W i i else 0))) in H
    by (intros f _; destruct (Nat.eqb_spec f i) as [->|]; lra).
  rewrite rsum_add, (rsum_single sz (fun f => if (f =? i)%nat then W i i else 0) i Hi) in H.
  - rewrite Nat.eqb_refl in H. lra.
  - intros j _ Hj. destruct (Nat.eqb_spec j i); [congruence|reflexivity].
Qed.

Theorem dict_rates d ids W idsT T : build_dict_matrices V total trans d = Ok ((ids, W), (idsT, T)) ->
  StronglySorted before ids /\ conserves (length ids) W /\
  (forall f i, (f < length ids)%nat -> (i < length ids)%nat -> f <> i -> W f i = rate_of (fun v (_ : unit) => total v) d tt (nth f ids []) (nth i ids [])) /\
  ((forall v g, total v = Ok g -> 0 <= g) -> rate_signs (length ids) W).
Proof.
  unfold build_dict_matrices. destruct (check_transition_elements V d); [|discriminate]. cbn [bind].
  destruct (foldM (dict_step V total trans) d ([], [])) as [[WD TD]|] eqn:E; [|discriminate]. cbn [bind fst snd]. intros Q. assert (QW : dict_to_matrix WD = (ids, W)) by congruence. clear Q.
  apply dict_fold in E; [|intros; reflexivity]. destruct E as (A & B & C).
  destruct (to_matrix_entries WD ids W QW) as (S & IN & EN). pose proof (sorted_NoDup _ S) as ND.
  assert (OD : forall f i, (f < length ids)%nat -> (i < length ids)%nat -> f <> i -> W f i = rate_of (fun v (_ : unit) => total v) d tt (nth f ids []) (nth i ids [])).
  { intros f i Hf Hi NE. rewrite EN, B by (auto; intros Q; apply NE; apply (NoDup_nth ids []); auto). rewrite vsum_nil. lra. }
  assert (CO : conserves (length ids) W).
  { intros i Hi. rewrite (rsum_ext _ _ (fun a => vsum WD (nth a ids []) (nth i ids []))) by (intros; now apply EN).
    rewrite column_total; auto. intros e He. apply IN. exists e. auto. }
  split; [exact S|]. split; [exact CO|]. split; [exact OD|]. intros P. apply closed_signs.
  - now apply diag_of_conserves.
  - intros f i Hf Hi NE. rewrite OD by auto. apply lsum_nonneg. intros e He. destruct (dec (fst (fst e)) (nth f ids [])); [|lra]. destruct (dec (snd (fst e)) (nth i ids [])); [|lra].
    destruct (total (snd e)) as [g|] eqn:Eg; [|lra]. exact (P _ _ Eg).
Qed.

(** When the builder succeeds. *)
Lemma dict_fold_ok d : (forall e, In e d -> exists g t, total (snd e) = Ok g /\ trans (snd e) = Ok t) -> forall WT, exists WT', foldM (dict_step V total trans) d WT = Ok WT'.
Proof.
  induction d as [|[[F I] v] d IH]; intros H WT; [eexists; reflexivity|]. destruct (H _ (or_introl eq_refl)) as (g & t & Eg & Et). cbn [snd] in *.
  cbn [foldM dict_step]. rewrite Eg. cbn [bind]. rewrite Et. cbn [bind]. apply IH. intros e He. apply H. now right.
Qed.
Theorem dict_succeeds d : (forall e, In e d -> exists g t, total (snd e) = Ok g /\ trans (snd e) = Ok t) ->
  (forall F I v, In ((F, I), v) d -> exists I' v', In ((I, I'), v') d) ->
  exists M, build_dict_matrices V total trans d = Ok M.
Proof.
  intros H C. unfold build_dict_matrices, check_transition_elements.
  replace (forallb _ d) with true.
  - cbn [bind]. destruct (dict_fold_ok d H ([], [])) as [WT ->]. cbn [bind]. eauto.
  - symmetry. apply forallb_forall. intros [[F I] v] He. apply existsb_exists. destruct (C F I v He) as (I' & v' & H').
    exists I. split; [|cbn [fst snd]; now destruct (label_eqb_spec I I)]. apply in_map_iff. exists ((I, I'), v'). auto.
Qed.
End Dict.

(** ** Non-negative rates *)
Lemma nF_bounds E beta : 0 < nF E beta < 1.
Proof.
  unfold nF. pose proof (exp_pos (beta * E)). split.
  - apply Rdiv_lt_0_compat; lra.
  - apply (Rmult_lt_reg_r (exp (beta * E) + 1)); [lra|]. unfold Rdiv. rewrite Rmult_assoc, Rinv_l; lra.
Qed.
Lemma nF_sym E beta : nF (- E) beta = 1 - nF E beta.
Proof.
  unfold nF. replace (beta * - E) with (- (beta * E)) by ring. rewrite exp_Ropp. pose proof (exp_pos (beta * E)). field. lra.
Qed.
Lemma nF_ratio E beta : nF E beta = exp (- beta * E) * nF (- E) beta.
Proof.
  unfold nF. replace (beta * - E) with (- (beta * E)) by ring. replace (- beta * E) with (- (beta * E)) by ring. rewrite exp_Ropp. pose proof (exp_pos (beta * E)). field. lra.
Qed.
Lemma gf_rate_bounds g a beta mu x : gf_rate g a beta mu = Ok x -> exists y, dotv (g_v g) a = Ok y /\ 0 <= x <= y ^ 2.
Proof.
  unfold gf_rate. destruct (dotv (g_v g) a) as [y|]; [|discriminate]. cbn [bind]. intros E. injection E as <-. exists y. split; [reflexivity|].
  assert (B : 0 <= match g_kind g with Electron => nF (g_E g - mu) beta | Hole => nF (- g_E g + mu) beta end <= 1).
  { destruct (g_kind g); match goal with |- 0 <= nF ?x ?b <= 1 => pose proof (nF_bounds x b) end; lra. }
  pose proof (pow2_ge_0 y). split; nra.
Qed.
Lemma sq_call_nonneg A mu beta g lead x : sq_call A mu beta g lead = Ok x -> 0 <= x.
Proof.
  unfold sq_call. destruct (nth_error A lead) as [a|]; [|discriminate]. cbn [bind]. destruct (nth_error mu lead) as [m|]; [|discriminate]. cbn [bind].
  intros E. apply gf_rate_bounds in E. destruct E as (y & _ & B). lra.
Qed.
Lemma nF_cut_nonneg x : 0 <= nF_cut x.
Proof. unfold nF_cut. destruct (Rltb 100 x); [lra|]. pose proof (exp_pos x). left. apply Rdiv_lt_0_compat; lra. Qed.
Lemma tnl_gamma_nonneg A mu beta gfs lead x : tnl_gamma A mu beta gfs lead = Ok x -> 0 <= x.
Proof.
  unfold tnl_gamma.
  assert (G : forall l acc x, 0 <= acc -> foldM (fun acc g =>
    do a <- match nth_error A lead with Some a => Ok a | None => Err IndexError end;
    do m <- match nth_error mu lead with Some m => Ok m | None => Err IndexError end;
    do x <- tnl_rate g a beta m; Ok (acc + x)) l acc = Ok x -> 0 <= x).
  { induction l as [|g l IH]; intros acc y H E; cbn [foldM] in E; [injection E as <-; exact H|].
    destruct (nth_error A lead) as [a|]; [|discriminate]. cbn [bind] in E. destruct (nth_error mu lead) as [m|]; [|discriminate]. cbn [bind] in E.
    unfold tnl_rate in E. destruct (dotv (g_v g) a) as [z|]; [|discriminate]. cbn [bind] in E. eapply IH; [|exact E].
    pose proof (pow2_ge_0 z). destruct (g_kind g); match goal with |- context[nF_cut ?x] => pose proof (nF_cut_nonneg x) end; nra. }
  apply (G gfs 0 x). lra.
Qed.
Lemma tnl_total_nonneg A mu beta gfs x : tnl_total A mu beta gfs = Ok x -> 0 <= x.
Proof.
  unfold tnl_total. destruct (tnl_gamma A mu beta gfs 0) as [y|] eqn:E1; [|discriminate]. cbn [bind]. destruct (tnl_gamma A mu beta gfs 1) as [z|] eqn:E2; [|discriminate]. cbn [bind].
  intros E. injection E as <-. apply tnl_gamma_nonneg in E1, E2. lra.
Qed.
