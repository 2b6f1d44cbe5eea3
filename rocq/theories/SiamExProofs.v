(** An impurity without repulsion whose dictionary is restored while it is read. *)
From Coq Require Import String Reals List Arith NArith ZArith Bool Lia Lra Psatz Ring Field.
From Verif Require Import Base RBase RLin CBase OperatorsModel OperatorsSpec FockSpec SectorModel LocalModel MatvecModel EspaceModel ProjModel ProjSpec ProjProofs ProjFinalProofs LanczosModel LanczosSpec ExactSpec EighProofs CfModel CfSpec GfModel GfSpec
  GmModel GmSpec GmFockProofs GmEspaceProofs GflModel GflSpec GflLoopProofs GflInstProofs GflExProofs AgrProofs VisSpec VisProofs VisMainProofs VisExProofs AgrMainProofs SiamSpec SiamInstProofs.
Import ListNotations.
Local Open Scope R_scope.
Add Field cxf_siamex : cx_field.

(** Levels 0 (impurity) and 1, no coupling, no repulsion. *)
Definition two_h (s x y : nat) : R := if (x =? y)%nat then INR x else 0.
Definition two_E (t : N) : R := occR t 1 + occR t 3.
Lemma two_ham t u : free_ham 2 two_h t u = if N.eqb t u then two_E u else 0.
Proof.
  unfold free_ham. rewrite (rsum_ext 2 _ (fun s => if N.eqb t u then occR u (1 + s * 2) else 0)).
  - rewrite !rsum_S, (rsum_0 0) by (intros; lia). unfold two_E. cbn [Nat.add Nat.mul]. destruct (N.eqb t u); ring.
  - intros s Hs. rewrite (rsum_ext 2 _ (fun x => INR x * (if N.eqb t u then occR u (x + s * 2) else 0))).
    + rewrite !rsum_S, (rsum_0 0) by (intros; lia). cbn [INR]. ring.
    + intros x Hx. rewrite (rsum_single 2 _ x Hx) by (intros y _ NE; unfold two_h; destruct (Nat.eqb_spec x y); [congruence|ring]).
      unfold two_h. rewrite Nat.eqb_refl, elem_num by nia. unfold occR. destruct (N.eqb t u), (occ u (x + s * 2)); cbn [andb]; change (@z2k RRing 1%Z) with 1; change (@z2k RRing 0%Z) with 0; ring.
Qed.
Definition two_M (p q a b : nat) : R := hubbard 2 two_h (fun _ => 0) (basis RRing 2 (bare 2 p q) a) (basis RRing 2 (bare 2 p q) b).
Lemma two_diag p q a b : (p <= 2)%nat -> (q <= 2)%nat -> (a < dimn 2 p q)%nat -> (b < dimn 2 p q)%nat -> two_M p q a b = if (a =? b)%nat then two_E (basis RRing 2 (bare 2 p q) b) else 0.
Proof.
  intros Hp Hq Ha Hb. unfold two_M, hubbard. rewrite two_ham. assert (R0 : forall t, repel 2 (fun _ => 0) t = 0) by (intros t; apply rsum_0; intros i _; destruct (_ && _); reflexivity).
  rewrite R0. destruct (Nat.eqb_spec a b) as [->|NE]; [rewrite N.eqb_refl; ring|].
  destruct (N.eqb_spec (basis RRing 2 (bare 2 p q) a) (basis RRing 2 (bare 2 p q) b)) as [E|]; [|ring].
  exfalso. apply NE. apply (basis_inj 2 p q (bare 2 p q)); auto. apply GflLoopProofs.bare_sector; auto. lia.
Qed.
Definition at_st (st : states_t) : sct RRing := mksct RRing st [] (Cols RRing []).
Definition two_mv (st : states_t) (x : list R) : res (list R) := Ok (map (fun i => two_E (basis RRing 2 (at_st st) i) * nth i x 0) (seq 0 (length x))).
Definition two_mvop (st : states_t) : res (list R -> res (list R)) := Ok (two_mv st).
Definition two_solve (st : states_t) : res (list R * list (list R)) := Ok (map (fun i => two_E (basis RRing 2 (at_st st) i)) (seq 0 (states_dim st)), unit_rows (states_dim st)).
Lemma at_bare p q : (p <= 2)%nat -> (q <= 2)%nat -> at_st (s_states RRing (bare 2 p q)) = bare 2 p q /\ states_dim (s_states RRing (bare 2 p q)) = dimn 2 p q.
Proof. intros Hp Hq. destruct p as [|[|[|]]], q as [|[|[|]]]; try lia; split; reflexivity. Qed.
Lemma two_operators : operators 2 two_mvop two_M.
Proof.
  intros p q Hp Hq. split.
  - intros i j Hi Hj. rewrite !two_diag by auto. rewrite (Nat.eqb_sym j i). destruct (Nat.eqb_spec i j) as [->|]; reflexivity.
  - eexists. split; [reflexivity|]. intros x Lx. eexists. split; [reflexivity|]. split; [now rewrite map_length, seq_length|].
    intros i Hi. rewrite nth_map_seq by lia. rewrite (rsum_single _ _ i Hi).
    + rewrite two_diag, Nat.eqb_refl by auto. now rewrite (proj1 (at_bare p q Hp Hq)).
    + intros j Hj NE. rewrite two_diag by auto. destruct (Nat.eqb_spec i j); [lia|]. ring.
Qed.
Lemma two_solver : solver 2 two_solve two_M.
Proof.
  intros p q Hp Hq _. unfold two_solve. destruct (at_bare p q Hp Hq) as [-> ->]. eexists. eexists. split; [reflexivity|]. set (d := dimn 2 p q) in *.
  destruct (unit_eigensystem d) as (_ & L2 & L3 & ON & _). unfold eigensystem. split; [now rewrite map_length, seq_length|]. split; [exact L2|]. split; [exact L3|]. split; [exact ON|].
  intros k i Hk Hi. rewrite nth_map_seq by lia. rewrite (rsum_single _ _ i Hi).
  - rewrite two_diag, Nat.eqb_refl, unit_rows_nth by auto. destruct (Nat.eqb_spec k i) as [->|]; ring.
  - intros j Hj NE. rewrite two_diag by auto. destruct (Nat.eqb_spec i j); [lia|]. ring.
Qed.
Lemma two_family : hubbard_family 2 two_h (fun _ => 0) 0 two_M.
Proof. intros p q a b _ _ _ _. unfold two_M. destruct (a =? b)%nat; ring. Qed.
Lemma two_sym : symmetric_hopping 2 two_h.
Proof. intros s x y _ _ _. unfold two_h. rewrite (Nat.eqb_sym y x). destruct (Nat.eqb_spec x y) as [->|]; reflexivity. Qed.
Lemma two_star s : star 2 s two_h (fun _ => 0) 0 (fun _ => 1) (fun _ => 0).
Proof.
  split; [reflexivity|]. intros k Hk. replace k with 1%nat by lia. split; [reflexivity|]. intros l Hl. destruct l as [|[|]]; [reflexivity|reflexivity|lia].
Qed.
(** One electron in the impurity level, then the empty state. *)
Lemma two_eigen : eigenstates 2 two_M cut_es.
Proof.
  intros p q s I. split; [exact (proj1 (cut_eigen p q s I))|]. destruct I as [E|[E|[]]]; injection E as <- <- <-; intros i a Hi Ha.
  - change (nvals cut_one) with 1%nat in *. replace i with 0%nat by lia. change (dimn 2 1 0) with 2%nat in *. rewrite !rsum_S, (rsum_0 0) by (intros; lia). rewrite !two_diag by (auto; cbv; lia).
    destruct a as [|[|]]; [| |lia]; cbn; match goal with |- ?x = ?y => change (@eq R x y) end; unfold two_E, occR; cbn; ring.
  - change (nvals ex_vac) with 1%nat in *. replace i with 0%nat by lia. change (dimn 2 0 0) with 1%nat in *. rewrite !rsum_S, (rsum_0 0) by (intros; lia). rewrite !two_diag by (auto; cbv; lia).
    replace a with 0%nat by lia. cbn; match goal with |- ?x = ?y => change (@eq R x y) end; unfold two_E, occR; cbn; ring.
Qed.
Lemma two_visits : Zof 0 0 (visits two_solve 2 0 [] cut_es) = 2 /\ Zof 0 0 (finally two_solve 2 0 cut_es) = 3.
Proof.
  unfold Zof. split.
  - set (f := visits two_solve 2 0 [] cut_es). cbv -[two_E] in f. subst f. cbn [map rsuml fold_right snd]. unfold nvals. cbn [s_vals length]. rewrite !rsum_S, !(rsum_0 0) by (intros; lia). rewrite !boltz0. ring.
  - set (f := finally two_solve 2 0 cut_es). cbv -[two_E] in f. subst f. cbn [map rsuml fold_right snd]. unfold nvals. cbn [s_vals length]. rewrite !rsum_S, !(rsum_0 0) by (intros; lia). rewrite !boltz0. ring.
Qed.
Theorem free_restored tridiag eight : exists ge, build_gf_lanczos two_solve two_mvop tridiag eight 2 cut_es 0 0 0 "cf" 0 false = Ok (finally two_solve 2 0 cut_es, ge, ge) /\
  forall e eta, im (zpoint e eta) <> 0 -> exists g, gl_call ge e eta = Ok g /\ self_energy 2 0 (fun _ => 1) (fun _ => 0) (zpoint e eta) g = cxmul (rcx (- (1 / 2))) (zpoint e eta).
Proof.
  destruct two_visits as (N & Z'). destruct (solved two_solve two_mvop tridiag eight 2 0 0 0 cut_es two_M two_h (fun _ => 0) 0 0 (fun _ => 1) (fun _ => 0) "cf" ltac:(lia) ltac:(lia) (or_introl eq_refl)
    cut_sectors two_eigen) as (ge & gh & E & -> & PT & _).
  - unfold Zof. cbn [map rsuml fold_right cut_es snd]. change (nvals cut_one) with 1%nat. change (nvals ex_vac) with 1%nat. rewrite !rsum_S, !(rsum_0 0) by (intros; lia). rewrite !boltz0. lra.
  - exact two_operators.
  - exact two_solver.
  - apply small_krylov. lia.
  - exact two_family.
  - exact two_sym.
  - exact (two_star 0).
  - exists ge. split; [exact E|]. intros e eta Hz. destruct (PT e eta Hz) as (g & EG & _ & _ & FR). exists g. split; [exact EG|]. rewrite (FR eq_refl). change (Z.of_nat 0) with 0%Z. rewrite N, Z'.
    unfold bare_inverse, hybridisation. cbn [Nat.sub]. rewrite (csum_single 1 _ 0) by (auto; intros; lia).
    assert (Q : forall y, cxdiv (rcx (0 * 0)) y = rcx 0) by (intros y; rewrite Rmult_0_l; unfold cxdiv; ring). rewrite Q.
    generalize (zpoint e eta). intros [a b]. unfold cxmul, cxsub, cxadd, rcx, re, im. cbn. f_equal; field.
Qed.

(** A diagonalisation of tridiagonal matrices. *)
Definition real_eight (a b1 : list R) : res (list R * list (list R)) :=
  do r <- real_eigh (mkdense RRing (length a) (length a) (@tri RField a (0 :: b1)));
  Ok (fst r, map (fun k => map (fun i => nth k (nth i (snd r) []) 0) (seq 0 (length a))) (seq 0 (length a))).
Lemma real_eight_sound : GflSpec.eigh_sound real_eight.
Proof.
  intros a b1 La Lb. set (d := length a) in *. unfold real_eight. fold d.
  destruct (real_eigh_contract (mkdense RRing d d (@tri RField a (0 :: b1))) eq_refl) as (vals & cols & E & LV & LC & LN & ON & EV & _).
  { intros i j _ _. cbn [d_at]. unfold tri. rewrite (Nat.eqb_sym j i). destruct (Nat.eqb_spec i j) as [->|NE]; [reflexivity|].
    destruct (Nat.eqb_spec j (S i)), (Nat.eqb_spec i (S j)); try lia; subst; reflexivity. }
  cbn [d_rows] in *. rewrite E. cbn [bind fst snd]. eexists. eexists. split; [reflexivity|]. split; [exact LV|].
  set (UU := map _ (seq 0 d)).
  assert (EN : forall k i, (k < d)%nat -> (i < d)%nat -> @LanczosSpec.ent RField UU k i = nth k (nth i cols []) 0).
  { intros k i Hk Hi. unfold LanczosSpec.ent, UU. rewrite nth_map_seq by lia. now rewrite nth_map_seq by lia. }
  split; [unfold UU; rewrite map_length, seq_length; reflexivity|]. split; [|split].
  - intros u I. unfold UU in I. apply in_map_iff in I. destruct I as (k & <- & _). rewrite map_length, seq_length. symmetry. exact LV.
  - intros i j Hi Hj. assert (Hi' : (i < d)%nat) by (rewrite <- LV; exact Hi). assert (Hj' : (j < d)%nat) by (rewrite <- LV; exact Hj). fold d. etransitivity; [|exact (ON i j Hi' Hj')]. apply (nsum_ext RRing). intros k Hk. now rewrite !EN.
  - intros i j Hi Hj. assert (Hi' : (i < d)%nat) by (rewrite <- LV; exact Hi). fold d in Hj |- *. rewrite EN by auto. etransitivity; [|exact (EV i j Hi' Hj)]. apply (nsum_ext RRing). intros k Hk. now rewrite EN.
Qed.
