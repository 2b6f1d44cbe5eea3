(** Cases in which all hypotheses on free electrons hold. *)
From Coq Require Import String Reals List Arith NArith ZArith Bool Lia Lra Psatz Ring.
From Verif Require Import Base RBase RLin CBase OperatorsModel OperatorsSpec LookupModel SectorModel SectorSpec SectorProofs FockSpec FockProofs LocalModel LocalSpec HoppingModel
  CsrSpec NonLocalModel NonLocalSpec MatvecModel MatvecSpec MatvecProofs MbModel MbSpec MbProofs EspaceModel EspaceSpec EspaceProofs EspaceEigProofs
  ProjModel ProjSpec ProjProofs ProjFinalProofs CfModel GfModel GfSpec GfProofs GfSumProofs GfMoreProofs GmModel GmSpec GmFockProofs GmProofs GmFreeProofs GmEomProofs GmEspaceProofs.
Import ListNotations.
Local Open Scope R_scope.

(** ** A solver for diagonal matrices *)
Definition diagonal (D : dense RRing) : bool :=
  forallb (fun a => forallb (fun b => (a =? b)%nat || (if Req_EM_T (d_at RRing D a b) 0 then true else false)) (seq 0 (d_rows RRing D))) (seq 0 (d_rows RRing D)).
Definition unit_vec (d k : nat) : list R := map (fun i => if (i =? k)%nat then 1 else 0) (seq 0 d).
Definition diag_eigh (D : dense RRing) : res (list R * list (list R)) :=
  if diagonal D then Ok (map (fun k => d_at RRing D k k) (seq 0 (d_rows RRing D)), map (unit_vec (d_rows RRing D)) (seq 0 (d_rows RRing D))) else Err RuntimeError.

Lemma diagonal_spec D : diagonal D = true <-> forall a b, (a < d_rows RRing D)%nat -> (b < d_rows RRing D)%nat -> a <> b -> d_at RRing D a b = 0.
Proof.
  unfold diagonal. rewrite forallb_forall. split.
  - intros H a b Ha Hb N. specialize (H a ltac:(apply in_seq; lia)). rewrite forallb_forall in H. specialize (H b ltac:(apply in_seq; lia)).
    destruct (Nat.eqb_spec a b); [congruence|]. cbn [orb] in H. destruct (Req_EM_T _ 0); [auto|discriminate].
  - intros H a Ha. apply forallb_forall. intros b Hb. apply in_seq in Ha. apply in_seq in Hb. destruct (Nat.eqb_spec a b); cbn [orb]; auto.
    destruct (Req_EM_T _ 0) as [|N]; auto. exfalso. apply N. apply H; auto; lia.
Qed.
Lemma unit_nth d k i : (i < d)%nat -> nth i (unit_vec d k) 0 = if (i =? k)%nat then 1 else 0.
Proof.
  intros H. unfold unit_vec. rewrite (nth_indep _ 0 ((fun i => if (i =? k)%nat then 1 else 0) 0%nat)) by (now rewrite map_length, seq_length).
  rewrite (map_nth (fun i => if (i =? k)%nat then 1 else 0)), seq_nth by auto. reflexivity.
Qed.
Lemma nth_err_map {A} (f : nat -> A) d i x : nth_error (map f (seq 0 d)) i = Some x -> (i < d)%nat /\ x = f i.
Proof.
  intros H. assert (L : (i < d)%nat) by (rewrite <- (seq_length d 0), <- (map_length f); apply nth_error_Some; congruence).
  split; auto. rewrite nth_error_map in H. rewrite (nth_error_nth' _ 0%nat) in H by (now rewrite seq_length). rewrite seq_nth in H by auto. cbn in H. congruence.
Qed.
Lemma diag_sound : eigh_sound RRing diag_eigh.
Proof.
  intros D vals cols _ _ E i e v Hi Hv. unfold diag_eigh in E. destruct (diagonal D) eqn:DD; [|discriminate]. injection E as <- <-.
  apply nth_err_map in Hi. destruct Hi as [Hi ->]. apply nth_err_map in Hv. destruct Hv as [_ ->].
  split; [unfold unit_vec; now rewrite map_length, seq_length|]. intros a Ha. change (rsum (d_rows RRing D) (fun b => d_at RRing D a b * nth b (unit_vec (d_rows RRing D) i) 0) = d_at RRing D i i * nth a (unit_vec (d_rows RRing D) i) 0).
  rewrite unit_nth by auto. rewrite (rsum_single _ _ i Hi).
  - rewrite unit_nth, Nat.eqb_refl by auto. destruct (Nat.eqb_spec a i) as [->|N]; [reflexivity|]. rewrite (proj1 (diagonal_spec D) DD a i) by auto. change (c0 RRing) with 0. ring.
  - intros j Hj N. rewrite unit_nth by auto. destruct (Nat.eqb_spec j i); [congruence|ring].
Qed.
Lemma diag_complete : eigh_complete diag_eigh.
Proof.
  intros D vals cols _ _ E. unfold diag_eigh in E. destruct (diagonal D) eqn:DD; [|discriminate]. injection E as <- <-.
  rewrite !map_length, seq_length. split; [reflexivity|]. split; [reflexivity|].
  assert (NU : forall k, (k < d_rows RRing D)%nat -> nth k (map (unit_vec (d_rows RRing D)) (seq 0 (d_rows RRing D))) [] = unit_vec (d_rows RRing D) k).
  { intros k Hk. rewrite (nth_indep _ [] (unit_vec (d_rows RRing D) 0)) by (now rewrite map_length, seq_length). rewrite map_nth, seq_nth by auto. reflexivity. }
  intros j k Hj Hk. rewrite (NU j Hj), (NU k Hk). rewrite (rsum_single _ _ j Hj).
  - rewrite !unit_nth, Nat.eqb_refl by auto. destruct (Nat.eqb_spec j k); ring.
  - intros i Hi N. rewrite unit_nth by auto. destruct (Nat.eqb_spec i j); [congruence|ring].
Qed.

(** Free electrons without hopping: build_espace succeeds. *)
Section Diag.
Variables (big : R -> bool) (n : nat) (eps : nat -> nat -> R) (mu : R).
Hypothesis Hn : (1 < n)%nat. Hypothesis Hn' : (n <= 32)%nat.
Definition hdiag : hmat RRing := H3 RRing (fun s i j => if (i =? j)%nat then eps s i else 0).
Definition v0 : inter RRing := VArray RRing (fun _ _ => 0).
Definition no_eigsh : nat -> Z -> (list R -> res (list R)) -> res (list R * list (list R)) := fun _ _ _ => Err RuntimeError.

Lemma diag_runs leb : exists r, build_espace RRing leb big (/ 2) diag_eigh no_eigsh n hdiag (mkflags true true true) v0 false mu None None "sz" = Ok r.
Proof.
  destruct (espace_dims n None "sz" SymSz eq_refl) as (req & ER & LR & DIM).
  apply (build_espace_total RRing leb big (/ 2) diag_eigh no_eigsh n hdiag (mkflags true true true) v0 false mu None None "sz" SymSz req eq_refl Hn' ER ltac:(lia)).
  intros q st k QV QS QK _. rewrite (DIM q QV) in QK.
  destruct (qns_states_ok RRing leb big no_eigsh n mu SymSz q Hn' QV) as (st' & QS' & SD). rewrite QS in QS'. injection QS' as <-.
  unfold solve_sector. cbv zeta. rewrite SD.
  apply (f_equal (fun o => match o with Some v => v | None => 0%Z end)) in QK. cbv beta iota in QK. subst k. rewrite Z.eqb_refl. cbn [orb].
  destruct QV as (p & p' & -> & Hp & Hq). cbn [qns_states] in QS. destruct (generate_states n p) as [up|] eqn:GU; [|discriminate]. cbn [bind] in QS.
  destruct (generate_states n p') as [dw|] eqn:GD; [|discriminate]. cbn [bind] in QS. injection QS as <-.
  unfold solve_lapack, sector_ops.
  destruct (mb_matvec RRing big (/ 2) n p p' hdiag (mkflags true true true) v0 (fun _ _ => 0) false mu None up dw (fun _ => true) (repeat 0 (length up * length dw)) (repeat 0 (length up * length dw))
    Hn Hn' Hp Hq ltac:(change (/ 2 + / 2 = 1); lra) eq_refl ltac:(auto) Logic.I eq_refl GU GD ltac:(apply repeat_length) ltac:(apply repeat_length)) as (ops & f & y & D & EB & ED & _ & _ & H).
  rewrite EB. cbn [fst bind]. rewrite ED. cbn [bind].
  assert (SEC : sector_of n (StSz up dw)) by (split; [auto|]; exists p, p'; auto).
  destruct (mb_symmetric RRing big (/ 2) n hdiag (mkflags true true true) v0 (StSz up dw) false mu None ops false f D ltac:(lia) SEC ltac:(change (/ 2 + / 2 = 1); lra)
    ltac:(intros s i j _ _; cbn; rewrite (Nat.eqb_sym j i); destruct (Nat.eqb_spec i j) as [->|]; reflexivity) Logic.I Logic.I EB ED) as (DR & _ & _).
  cbn [states_dim] in DR.
  assert (DD : diagonal D = true).
  { apply diagonal_spec. rewrite DR. intros a b Ha Hb N.
    assert (LU : (0 < length up)%nat) by nia.
    assert (A1 : (a mod length up < length up)%nat) by (apply Nat.mod_upper_bound; lia). assert (A2 : (a / length up < length dw)%nat) by (apply Nat.div_lt_upper_bound; lia).
    assert (B1 : (b mod length up < length up)%nat) by (apply Nat.mod_upper_bound; lia). assert (B2 : (b / length up < length dw)%nat) by (apply Nat.div_lt_upper_bound; lia).
    pose proof (proj1 (H _ _ _ _ (nth_error_nth' up 0%N A1) (nth_error_nth' dw 0%N A2)) _ _ _ _ (nth_error_nth' up 0%N B1) (nth_error_nth' dw 0%N B2)) as Q.
    replace (a mod length up + a / length up * length up)%nat with a in Q by (rewrite (Nat.div_mod a (length up)) at 1 by lia; lia).
    replace (b mod length up + b / length up * length up)%nat with b in Q by (rewrite (Nat.div_mod b (length up)) at 1 by lia; lia).
    rewrite Q. destruct (in_states n p _ _ Hp Hn' GU A1) as [UA _]. destruct (in_states n p _ _ Hp Hn' GU B1) as [UB _].
    etransitivity; [exact (free_energy big (/ 2) n hdiag v0 false mu None (fun _ _ => 0) ltac:(auto) eq_refl eq_refl _ _ _ _ UA)|].
    unfold free_ham. apply rsum_0. intros s Hs. apply rsum_0. intros x Hx. apply rsum_0. intros y0 Hy. unfold one_body. cbn [hspin hdiag].
    destruct (Nat.eqb_spec x y0) as [->|NE].
    - rewrite elem_num by nia. destruct (N.eqb_spec (combine n (nth (b mod length up) up 0%N) (nth (b / length up) dw 0%N)) (combine n (nth (a mod length up) up 0%N) (nth (a / length up) dw 0%N))) as [E|_]; [|apply Rmult_0_r].
      exfalso. apply N. apply combine_inj in E; auto. destruct E as [E1 E2].
      apply (NoDup_nth _ 0%N) in E1; auto; [|now apply (nodup_of n p)]. apply (NoDup_nth _ 0%N) in E2; auto; [|now apply (nodup_of n p')].
      rewrite (Nat.div_mod a (length up)), (Nat.div_mod b (length up)) by lia. congruence.
    - destruct (big 0); apply Rmult_0_l. }
  unfold diag_eigh. rewrite DD. cbn [bind]. eauto.
Qed.
End Diag.

(** ** Two sites with hopping *)
Definition d_h (s x y : nat) : R := match x, y with O, O => 9 | S O, S O => 16 | _, _ => 12 end.
Definition d_vals (m : nat) : list R := match m with O => [0] | S O => [25; 0] | _ => [25] end.
Definition d_vecs (m : nat) : list (list R) := match m with S O => [[3 / 5; 4 / 5]; [4 / 5; - (3 / 5)]] | _ => [[1]] end.
Definition d_states (m : nat) : list N := match m with O => [0] | S O => [1; 2] | _ => [3] end%N.
Definition d_F : family := fun p q => mksct RRing (StSz (d_states p) (d_states q))
  (flat_map (fun e => map (fun e' => e' + e) (d_vals p)) (d_vals q))
  (Cols RRing (flat_map (fun v => map (fun v' => flat_map (fun b => map (fun a => a * b) v') v) (d_vecs p)) (d_vecs q))).
Definition d_es : espace RRing := flat_map (fun p => map (fun q => ([p; q], d_F p q)) [0; 1; 2]%nat) [0; 1; 2]%nat.

Ltac small k := destruct k as [|[|[|[|k]]]]; try (exfalso; cbn in *; lia).
Lemma d_family : lists_family 2 d_es d_F.
Proof.
  split; [|split].
  - repeat constructor; simpl; intuition congruence.
  - intros key s. split.
    + intros H. apply in_flat_map in H. destruct H as (p & Hp & H). apply in_map_iff in H. destruct H as (q & E & Hq). injection E as <- <-. exists p, q.
      cbn [In] in *. repeat split; auto; lia.
    + intros (p & q & Hp & Hq & -> & ->). apply in_flat_map. exists p. split; [cbn; lia|]. apply in_map_iff. exists q. split; auto. cbn. lia.
  - intros p q Hp Hq. split; [exact Hp|]. split; [exact Hq|]. split; [lia|]. split; [reflexivity|].
    split; [small p; reflexivity|]. split; [small q; reflexivity|]. eexists. split; [reflexivity|]. small p; small q; (split; [reflexivity|]); cbn; intuition (subst; reflexivity).
Qed.
Lemma d_basis p q : (p <= 2)%nat -> (q <= 2)%nat -> eigenbasis (d_F p q).
Proof.
  intros Hp Hq. split; [small p; small q; reflexivity|]. intros j k Hj Hk. small p; small q; small j; small k; unfold rsum, nsum; cbn;
  match goal with |- ?x = ?y => change (@eq R x y) end; field.
Qed.
Lemma d_pairs : free_pairs 2 d_h d_F.
Proof.
  intros p q Hp Hq k a Hk Ha. unfold free_ham. small p; small q; small k; small a; cbv -[Rplus Rmult Ropp IZR Rinv Rdiv Rminus];
  match goal with |- ?x = ?y => change (@eq R x y) end; field.
Qed.
