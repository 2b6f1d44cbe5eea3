(** The assumptions of the Lanczos Green's functions hold for the library's own routines. *)
From Coq Require Import String Reals List Arith NArith ZArith Bool Lia Lra Psatz Ring.
From Verif Require Import Base RBase RLin CBase OperatorsModel OperatorsSpec LookupModel LookupSpec SectorModel SectorSpec SectorProofs FockSpec FockProofs LocalModel LocalSpec HoppingModel
  CsrSpec NonLocalModel NonLocalSpec MatvecModel MatvecSpec MatvecProofs MbModel MbSpec MbProofs EspaceModel EspaceSpec EspaceProofs EspaceEigProofs
  ProjModel ProjSpec ProjProofs ProjFinalProofs CfModel CfSpec GfModel GfSpec GmModel GmSpec GmProofs SpectralProofs ExactSpec EighProofs ConserveProofs ExactProofs ExactMoreProofs
  GflModel GflSpec GflInstProofs AgrModel AgrSpec AgrProofs.
Import ListNotations.
Local Open Scope R_scope.

Section Inst.
Variables (big : R -> bool) (half : R) (n : nat) (h : hmat RRing) (fl : hflags) (V : inter RRing) (hf : bool) (mu : R) (z : option (nat -> R)) (U : nat -> nat -> R).
Hypothesis MO : model_ok half n h fl V U.
Variable eigh : dense RRing -> res (list R * list (list R)).
Variable eigsh : nat -> Z -> (list R -> res (list R)) -> res (list R * list (list R)).
Hypothesis HC : eigh_contract eigh.
Notation pairs := (all_pairs big half eigh eigsh n h fl V hf mu z).
Notation prod := (product_of big half n h fl V hf mu z).
(** The Hamiltonian of a sector in the code's order of states. *)
Definition Msec (p q a b : nat) : R := smat big half n h V hf mu z U (cand n p) (cand n q) a b.

Lemma bare_at p q : (p <= n)%nat -> (q <= n)%nat -> bare n p q = mksct RRing (StSz (cand n p) (cand n q)) [] (Cols RRing []).
Proof. intros Hp Hq. destruct MO as ((_ & Hn' & _) & _). unfold bare. now rewrite !(states_at n) by auto. Qed.
Lemma dimn_at p q : (p <= n)%nat -> (q <= n)%nat -> dimn n p q = (length (cand n p) * length (cand n q))%nat.
Proof. intros Hp Hq. unfold dimn. rewrite bare_at by auto. unfold sdim. cbn. apply Nat.mul_comm. Qed.

Lemma inst_operators : operators n prod Msec.
Proof.
  destruct MO as ((Hn & Hn' & Hh2) & HU & HJ & (HSx & HSp) & HS & Hset). intros p q Hp Hq. rewrite dimn_at, bare_at by auto. cbn [s_states].
  set (up := cand n p). set (dw := cand n q). set (d := (length up * length dw)%nat).
  pose proof (states_at n p Hn' Hp) as GU. pose proof (states_at n q Hn' Hq) as GD. fold up in GU. fold dw in GD.
  destruct (mb_matvec RRing big half n p q h fl V U hf mu z up dw (fun _ => true) (repeat 0 d) (repeat 0 d) Hn Hn' Hp Hq Hh2 HU HJ HSx Hset GU GD (repeat_length _ _) (repeat_length _ _))
    as (ops & f & y0 & D & EB & ED & _ & _ & H).
  assert (SEC : sector_of n (StSz up dw)) by (split; [auto|]; exists p, q; auto).
  destruct (mb_symmetric RRing big half n h fl V (StSz up dw) hf mu z ops false f D ltac:(lia) SEC Hh2 HS HSx HSp EB ED) as (DR & DC & DS).
  cbn [states_dim] in DR, DC, DS. fold d in DR, DC, DS.
  assert (AT : forall a b, (a < d)%nat -> (b < d)%nat -> d_at RRing D a b = Msec p q a b).
  { intros a b Ha Hb. unfold Msec. fold up dw. assert (LU : (0 < length up)%nat) by (unfold d in Ha; nia).
    assert (A1 : (a mod length up < length up)%nat) by (apply Nat.mod_upper_bound; lia). assert (A2 : (a / length up < length dw)%nat) by (apply Nat.div_lt_upper_bound; unfold d in *; lia).
    assert (B1 : (b mod length up < length up)%nat) by (apply Nat.mod_upper_bound; lia). assert (B2 : (b / length up < length dw)%nat) by (apply Nat.div_lt_upper_bound; unfold d in *; lia).
    pose proof (proj1 (H _ _ _ _ (nth_error_nth' up 0%N A1) (nth_error_nth' dw 0%N A2)) _ _ _ _ (nth_error_nth' up 0%N B1) (nth_error_nth' dw 0%N B2)) as Q.
    replace (a mod length up + a / length up * length up)%nat with a in Q by (rewrite (Nat.div_mod a (length up)) at 1 by lia; lia).
    replace (b mod length up + b / length up * length up)%nat with b in Q by (rewrite (Nat.div_mod b (length up)) at 1 by lia; lia).
    exact Q. }
  split; [intros a b Ha Hb; rewrite <- !AT by auto; now apply DS|].
  unfold product_of, sector_ops. rewrite EB. cbn [fst bind]. eexists. split; [reflexivity|]. intros w LW.
  destruct (mb_matvec RRing big half n p q h fl V U hf mu z up dw (fun _ => true) w w Hn Hn' Hp Hq Hh2 HU HJ HSx Hset GU GD LW LW)
    as (ops' & f' & y & D' & EB' & ED' & EY & LY & H').
  rewrite EB in EB'. injection EB' as <- <-. rewrite ED in ED'. injection ED' as <-. exists y. split; [exact EY|]. split; [exact LY|].
  intros i Hi. assert (LU : (0 < length up)%nat) by (unfold d in Hi; nia).
  assert (A1 : (i mod length up < length up)%nat) by (apply Nat.mod_upper_bound; lia). assert (A2 : (i / length up < length dw)%nat) by (apply Nat.div_lt_upper_bound; unfold d in *; lia).
  pose proof (H' _ _ _ _ (nth_error_nth' up 0%N A1) (nth_error_nth' dw 0%N A2)) as [_ Q].
  replace (i mod length up + i / length up * length up)%nat with i in Q by (rewrite (Nat.div_mod i (length up)) at 1 by lia; lia).
  etransitivity; [exact Q|]. clear Q. unfold d. rewrite Nat.mul_comm. unfold rsum. rewrite (nsum_mul RRing). apply (nsum_ext RRing). intros kb Hkb. apply (nsum_ext RRing). intros jb Hjb.
  f_equal. unfold Msec, smat. fold up dw. rewrite Nat.mod_add, Nat.div_add, (Nat.mod_small jb), (Nat.div_small jb), Nat.add_0_l by lia. reflexivity.
Qed.
Lemma none_all st : pairs st = solve_sector RRing big half eigh eigsh n h fl V hf mu z st (Some (Z.of_nat (states_dim st))).
Proof. reflexivity. Qed.
Lemma inst_solver : solver n pairs Msec.
Proof.
  destruct MO as ((Hn & Hn' & Hh2) & HU & HJ & (HSx & HSp) & HS & Hset). intros p q Hp Hq _. rewrite dimn_at, bare_at by auto. cbn [s_states]. rewrite none_all. cbn [states_dim].
  destruct (sector_solved big half n h fl V hf mu z U eigh eigsh Hn Hn' Hh2 HU HJ HSx HSp HS Hset HC p q _ _ Hp Hq (states_at n p Hn' Hp) (states_at n q Hn' Hq)) as (vals & cols & E & LV & LC & LN & ON & EV & _).
  exists vals, cols. split; [exact E|]. split; [exact LV|]. split; [exact LC|]. split; [|split; [exact ON|exact EV]].
  intros u Hu. apply (In_nth _ _ []) in Hu. destruct Hu as (k & Hk & <-). apply LN. now rewrite <- LC.
Qed.

Variables (es : espace RRing) (egs : option R).
Hypothesis HB : build_espace RRing Rleb big half eigh eigsh n h fl V hf mu z None "sz" = Ok (es, egs).
Lemma inst_settled : settled n pairs es.
Proof.
  destruct MO as ((Hn & Hn' & Hh2) & HU & HJ & (HSx & HSp) & HS & Hset). intros p q s I _.
  destruct (build_espace_spec RRing Rleb Rleb_total Rleb_trans big half eigh eigsh n h fl V hf mu z None "sz" es egs HB) as (sym & req & ES & ER & _ & HI & HAns & _).
  change (symmetry_of "sz") with (Ok SymSz) in ES. injection ES as <-.
  assert (QV : qvalid SymSz n [p; q]) by (apply HI, in_map_iff; exists ([p; q], s); auto).
  destruct (HAns _ _ I) as (k & c & QS & QK & _ & SOL & SV & _). exists c. split; [exact SV|].
  destruct (espace_dims n None "sz" SymSz eq_refl) as (req' & ER' & _ & DIM). rewrite ER in ER'. injection ER' as <-. rewrite (DIM [p; q] QV) in QK.
  apply (f_equal (fun o => match o with Some v => v | None => 0%Z end)) in QK. cbv beta iota in QK. subst k.
  destruct QV as (p0 & q0 & E0 & Hp & Hq). injection E0 as <- <-.
  cbn [qns_states] in QS. rewrite !(states_at n) in QS by auto. cbn [bind] in QS. injection QS as QS. rewrite <- QS in SOL |- *.
  rewrite none_all. cbn [states_dim]. rewrite !cand_length. exact SOL.
Qed.
Lemma inst_family : exists F, lists_family n es F /\ (forall p q, (p <= n)%nat -> (q <= n)%nat -> eigenbasis (F p q)) /\
  (forall p q, (p <= n)%nat -> (q <= n)%nat -> forall k a, (k < sdim RRing (F p q))%nat -> (a < sdim RRing (F p q))%nat ->
    rsum (sdim RRing (F p q)) (fun b => Msec p q a b * nth b (vec RRing (F p q) k) 0) = energy (F p q) k * nth a (vec RRing (F p q) k) 0).
Proof.
  destruct MO as ((Hn & Hn' & Hh2) & HU & HJ & (HSx & HSp) & HS & Hset).
  destruct (exact_family big half n h fl V hf mu z U Hn Hn' Hh2 HU HJ HSx HSp HS Hset eigh eigsh HC es egs HB) as (F & LF & EB & SD & _).
  exists F. split; [exact LF|]. split; [exact EB|]. intros p q Hp Hq k a Hk Ha.
  assert (I : In ([p; q], F p q) es) by (apply (proj1 (proj2 LF)); exists p, q; auto).
  destruct (exact_sector big half n h fl V hf mu z U eigh eigsh Hn Hn' Hh2 HU HJ HSx HSp HS Hset HC es egs HB p q _ I) as (S & cols & SV & LV & LC & LN & ON' & EV & AS).
  assert (UD : ups RRing (F p q) = cand n p /\ dws RRing (F p q) = cand n q) by (unfold ups, dws; now rewrite S). destruct UD as [EU ED].
  assert (SDIM : sdim RRing (F p q) = (length (cand n p) * length (cand n q))%nat) by (unfold sdim; rewrite EU, ED; apply Nat.mul_comm).
  rewrite SDIM in *. unfold vec. rewrite SV. exact (EV k a Hk Ha).
Qed.
Lemma inst_sectors : sectors n es.
Proof.
  destruct inst_family as (F & (ND & HI & HS) & _). split; [exact ND|]. intros key s I. apply HI in I. destruct I as (p & q & Hp & Hq & -> & ->). exists p, q. auto.
Qed.
End Inst.
