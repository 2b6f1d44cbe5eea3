(** What the builders do to the dictionary, and concrete cases. *)
From Coq Require Import Reals String List Arith NArith ZArith Bool Lia Lra Ring Field.
From Verif Require Import Base RBase RLin CBase OperatorsModel OperatorsSpec LookupModel SectorModel SectorSpec FockSpec LocalModel MatvecModel EspaceModel
  ProjModel ProjSpec LanczosModel LanczosSpec CfModel CfSpec CfProofs GfModel GfSpec GflModel GflSpec DmftProofs GflProofs GflLoopProofs GflMainProofs GflPairProofs GflInstProofs NrModel.
Import ListNotations.
Local Open Scope R_scope.

(** ** The dictionary afterwards *)
Section Dict.
Variable solve : states_t -> res (list R * list (list R)).
Variable mvop : states_t -> res (list R -> res (list R)).
Variable tridiag : (list R -> res (list R)) -> list R -> res (list R * list R).
Variable eigh : list R -> list R -> res (list R * list (list R)).
Variable n : nat.
Variable es0 : espace RRing.
Definition replaced (es : espace RRing) : Prop :=
  map fst es = map fst es0 /\
  forall key s, In (key, s) es -> In (key, s) es0 \/
    (s_d RRing s <= 10)%nat /\ exists U, s_vecs RRing s = Cols RRing U /\ solve (s_states RRing s) = Ok (s_vals RRing s, U).

Lemma es_put_replaced es q w U st : replaced es -> (states_dim st <= 10)%nat -> solve st = Ok (w, U) ->
  replaced (es_put es q (mksct RRing st w (Cols RRing U))).
Proof.
  intros [K R] Hd Hs. split.
  - rewrite <- K. unfold es_put. rewrite map_map. apply map_ext. intros [k s]. cbn [fst]. now destruct (list_eq_dec _ _ _).
  - intros key s I. unfold es_put in I. apply in_map_iff in I. destruct I as ([k s1] & E & I). cbn [fst] in E.
    destruct (list_eq_dec _ _ _) as [->|]; injection E as <- <-; [|now apply R].
    right. split; [exact Hd|]. exists U. split; [reflexivity|exact Hs].
Qed.
Lemma gl_side_replaced k op pos ispin es nup ndw sI exps es' fs : replaced es ->
  gl_side solve mvop tridiag eigh n k op pos ispin es nup ndw sI exps = Ok (es', fs) -> replaced es'.
Proof.
  intros HR. unfold gl_side. destruct (target n op nup ndw ispin) as [[q|]|]; cbn [bind]; [| |discriminate].
  2: { intros E. apply ok_inj in E. injection E as <- _. exact HR. }
  destruct (arrive n es q) as [sJ|]; cbn [bind]; [|discriminate].
  destruct (Nat.leb_spec (s_d RRing sJ) 10) as [Hd|_].
  - unfold small_side. destruct (solve (s_states RRing sJ)) as [[w U]|] eqn:ES; cbn [bind]; [|discriminate].
    destruct (pick ispin _ _) as [pr|]; cbn [bind]; [|discriminate]. destruct (pr pos n op sI _) as [b|]; cbn [bind]; [|discriminate].
    intros E. apply ok_inj in E. injection E as <- _. now apply es_put_replaced.
  - destruct (pick ispin _ _) as [pr|]; cbn [bind]; [|discriminate]. destruct (pr pos n op sI _) as [b|]; cbn [bind]; [|discriminate].
    destruct (lanczos_side _ _ _ _ _ _ _ _ _ _); cbn [bind]; [|discriminate]. intros E. apply ok_inj in E. injection E as <- _. exact HR.
Qed.
Theorem build_replaces beta egs pos repr ispin separate es' ge gh :
  build_gf_lanczos solve mvop tridiag eigh n es0 beta egs pos repr ispin separate = Ok (es', ge, gh) ->
  replaced es' /\ gl_Z ge = Zof beta egs es' /\ gl_Z gh = Zof beta egs es'.
Proof.
  unfold build_gf_lanczos. destruct (repr_of repr) as [k|]; cbn [bind]; [|discriminate]. destruct (pick ispin tt tt); cbn [bind]; [|discriminate].
  assert (L : forall ks acc acc', replaced (fst (fst acc)) -> foldM (gl_step solve mvop tridiag eigh n k beta egs pos ispin separate) ks acc = Ok acc' -> replaced (fst (fst acc'))).
  { induction ks as [|key ks IH]; intros acc acc' HR; cbn [foldM].
    - intros E. apply ok_inj in E. now subst.
    - destruct (gl_step _ _ _ _ _ _ _ _ _ _ _ acc key) as [acc1|] eqn:E1; cbn [bind]; [|discriminate]. apply IH.
      destruct acc as [[es fe] fh]. unfold gl_step in E1. destruct key as [|nup [|ndw [|]]]; try discriminate.
      destruct (es_get es [nup; ndw]) as [sI|]; cbn [bind] in E1; [|discriminate].
      destruct (gl_side _ _ _ _ _ _ OpCdg _ _ es _ _ _ _) as [[es1 f1]|] eqn:G1; cbn [bind] in E1; [|discriminate].
      destruct (gl_side _ _ _ _ _ _ OpC _ _ es1 _ _ _ _) as [[es2 f2]|] eqn:G2; cbn [bind] in E1; [|discriminate].
      apply ok_inj in E1. subst acc1. assert (replaced es2) by (eapply gl_side_replaced; [|exact G2]; eapply gl_side_replaced; [|exact G1]; exact HR).
      now destruct separate. }
  destruct (foldM _ _ _) as [[[es1 fe] fh]|] eqn:EF; cbn [bind]; [|discriminate].
  assert (H1 : replaced es1). { apply (L _ _ _) in EF; [exact EF|]. split; [reflexivity|]. intros. now left. }
  intros E. apply ok_inj in E. injection E as <- <- <-. split; [exact H1|]. rewrite <- partition_Zof. destruct separate; split; reflexivity.
Qed.
End Dict.

(** ** A family of diagonal Hamiltonians *)
Definition ex_M (p q i j : nat) : R := if (i =? j)%nat then INR i else 0.
Definition ex_mv (x : list R) : res (list R) := Ok (map (fun i => INR i * nth i x 0) (seq 0 (length x))).
Definition ex_mvop (st : states_t) : res (list R -> res (list R)) := Ok ex_mv.
Definition unit_rows (k : nat) : list (list R) := map (fun r => map (fun c => if (r =? c)%nat then 1 else 0) (seq 0 k)) (seq 0 k).
Definition ex_solve (st : states_t) : res (list R * list (list R)) := Ok (map INR (seq 0 (states_dim st)), unit_rows (states_dim st)).

Lemma nth_map_seq {A} (f : nat -> A) d i m : (i < m)%nat -> nth i (map f (seq 0 m)) d = f i.
Proof. intros H. rewrite (nth_indep _ d (f 0%nat)) by (rewrite map_length, seq_length; lia). rewrite map_nth, seq_nth by lia. reflexivity. Qed.

Lemma ex_operators n : operators n ex_mvop ex_M.
Proof.
  intros p q _ _. split.
  - intros i j _ _. unfold ex_M. rewrite (Nat.eqb_sym j i). destruct (Nat.eqb_spec i j); congruence.
  - exists ex_mv. split; [reflexivity|]. intros x Lx. eexists. split; [reflexivity|]. split; [now rewrite map_length, seq_length|].
    intros i Hi. rewrite nth_map_seq by lia. rewrite (rsum_single _ _ i Hi).
    + unfold ex_M. now rewrite Nat.eqb_refl.
    + intros j _ Hj. unfold ex_M. destruct (Nat.eqb_spec i j); [lia|]. ring.
Qed.
Lemma unit_rows_nth k i j : (i < k)%nat -> (j < k)%nat -> nth j (nth i (unit_rows k) []) 0 = if (i =? j)%nat then 1 else 0.
Proof. intros Hi Hj. unfold unit_rows. rewrite nth_map_seq by lia. now rewrite nth_map_seq by lia. Qed.
Lemma unit_eigensystem k : eigensystem k (fun i j => if (i =? j)%nat then INR i else 0) (map INR (seq 0 k)) (unit_rows k).
Proof.
  unfold eigensystem. split; [now rewrite map_length, seq_length|]. split; [unfold unit_rows; now rewrite map_length, seq_length|]. split; [|split].
  - intros u I. apply in_map_iff in I. destruct I as (r & <- & _). now rewrite map_length, seq_length.
  - intros i j Hi Hj. rewrite (rsum_single _ _ i Hi).
    + rewrite !unit_rows_nth by lia. rewrite Nat.eqb_refl, (Nat.eqb_sym j i). destruct (i =? j)%nat; ring.
    + intros m Hm Hne. rewrite !unit_rows_nth by lia. destruct (Nat.eqb_spec i m); [lia|]. ring.
  - intros r i Hr Hi. rewrite (rsum_single _ _ i Hi).
    + rewrite nth_map_seq, unit_rows_nth by lia. rewrite Nat.eqb_refl. destruct (Nat.eqb_spec r i); [subst; ring|ring].
    + intros m Hm Hne. destruct (Nat.eqb_spec i m); [lia|]. ring.
Qed.
Lemma ex_solver n : (n <= 32)%nat -> solver n ex_solve ex_M.
Proof.
  intros Hn p q Hp Hq _. exists (map INR (seq 0 (dimn n p q))), (unit_rows (dimn n p q)). split.
  - unfold ex_solve. f_equal. unfold dimn, sdim, bare, dws, ups. destruct (generate_states n p), (generate_states n q); cbn [s_states states_dim]; try reflexivity; now rewrite Nat.mul_comm.
  - apply unit_eigensystem.
Qed.

Definition ex_vac : sct RRing := mksct RRing (StSz [0%N] [0%N]) [0] (Cols RRing [[1]]).
Definition ex_es : espace RRing := [([0; 0]%nat, ex_vac)].
Lemma ex_sectors : sectors 2 ex_es.
Proof.
  split; [repeat constructor; intros []|]. intros key s [E|[]]. injection E as <- <-. exists 0%nat, 0%nat. split; [reflexivity|].
  repeat split; try lia. exists [[1]]. split; [reflexivity|]. split; [reflexivity|]. intros x [<-|[]]. reflexivity.
Qed.
Lemma ex_settled : settled 2 ex_solve ex_es.
Proof. intros p q s [E|[]] _. injection E as <- <- <-. exists [[1]]. split; reflexivity. Qed.
Definition ex_tridiag := tridiag_with (E := unit) 5 3 (fun x => Reqb x 0) (fun _ _ => Ok tt) (fun _ _ => false) (fun _ => 0) (fun _ => 0).
Definition ex_eigh (a b : list R) : res (list R * list (list R)) := Err ValueError.

Lemma ex_dims : forall p q, (p <= 2)%nat -> (q <= 2)%nat -> (dimn 2 p q <= 4)%nat.
Proof. intros p q Hp Hq. destruct p as [|[|[|]]], q as [|[|[|]]]; try lia; cbv; lia. Qed.
Lemma ex_krylov ispin f least : krylov 2 ex_mvop ex_tridiag ispin ex_es f least.
Proof.
  apply (ideal_krylov unit) with (M := ex_M); auto using ex_sectors, ex_operators; try lia.
  - intros x. unfold Reqb. destruct (Req_EM_T x 0); split; congruence.
  - intros. now exists tt.
  - intros p q Hp Hq. pose proof (ex_dims p q Hp Hq). lia.
Qed.
Lemma ex_exc (i a : nat) : (i < 2)%nat -> (a < 2)%nat -> exc 2 OpCdg 0 i 1 0 ex_vac 0 a = if (i =? a)%nat then 1 else 0.
Proof.
  intros Hi Ha. destruct i as [|[|]], a as [|[|]]; try lia; cbv -[Rplus Rmult Ropp IZR Rminus];
  match goal with |- ?x = ?y => change (@eq R x y) end; ring.
Qed.
Lemma ex_never_zero i j : (i < j < 2)%nat -> never_zero 2 0 ex_es (pair_excited 2 0 i j).
Proof.
  intros Hij p' q' phi (op & p & q & s & k & sg & I & Hk & HM & Hsg & Lp & H). destruct I as [E|[]]. injection E as <- <- <-.
  change (k < 1)%nat in Hk. destruct op; cbn in HM; try discriminate; injection HM as <- <-.
  exists 0%nat. change (dimn 2 1 0) with 2%nat in *. split; [lia|]. rewrite H by lia. unfold pair_excited.
  replace k with 0%nat by lia. replace i with 0%nat by lia. replace j with 1%nat by lia. rewrite !ex_exc by lia. cbn. nra.
Qed.

(** The solution: component [a] divided by z - a. *)
Definition ex_X (z : cx) (i : nat) (op : fop) (key : qnums) (m a : nat) : cx := cxdiv (rcx (if (i =? a)%nat then 1 else 0)) (cxsub z (rcx (INR a))).
Lemma im_shift z a : im z <> 0 -> cxsub z (rcx a) <> rcx 0.
Proof. intros H E. apply H. apply (f_equal im) in E. cbn in E. lra. Qed.
Lemma ex_ltb : Rltb 1 0 = false.
Proof. unfold Rltb. destruct (Rlt_dec 1 0); [lra|reflexivity]. Qed.
Lemma ex_resolved z i : im z <> 0 -> (i < 2)%nat -> resolved 2 ex_M 0 ex_es i z (ex_X z i).
Proof.
  intros Hz Hi op p q s m p' q' [E|[]] Hm HM. injection E as <- <- <-. change (m < 1)%nat in Hm. replace m with 0%nat by lia.
  destruct op; cbn in HM; try discriminate; injection HM as <- <-. change (dimn 2 1 0) with 2%nat. intros a Ha. rewrite ex_exc by lia.
  rewrite (csum_single _ _ a Ha).
  - unfold shifted, ex_M, energy, ex_X. cbn [side s_vals ex_vac nth]. rewrite Nat.eqb_refl. rewrite ex_ltb.
    rewrite Rminus_0_r. pose proof (im_shift z (INR a) Hz). field. exact H.
  - intros b _ Hb. unfold shifted, ex_M. cbn [side]. rewrite ex_ltb. destruct (Nat.eqb_spec a b); [lia|].
    rewrite Rminus_0_r. ring.
Qed.
Lemma csum_1 f : csum 1 f = f 0%nat.
Proof. rewrite (csum_single 1 f 0); auto; lia. Qed.
Lemma ex_green beta egs z i j : (i < 2)%nat -> (j < 2)%nat -> im z <> 0 ->
  green 2 beta egs 0 ex_es j (ex_X z i) [OpCdg; OpC] = if (i =? j)%nat then cxdiv (rcx 1) (cxsub z (rcx (INR i))) else rcx 0.
Proof.
  intros Hi Hj Hz. unfold green, Zof. cbn [map csuml rsuml fold_right ex_es snd]. unfold contribution. cbn [fst snd].
  change (moved 2 OpCdg 0 0 0) with (Some (1%nat, 0%nat)). change (moved 2 OpC 0 0 0) with (@None (nat * nat)). cbv iota.
  change (nvals ex_vac) with 1%nat. change (dimn 2 1 0) with 2%nat. rewrite csum_1, (rsum_single 1 _ 0) by lia.
  rewrite (csum_single 2 _ j Hj).
  2: { intros a Ha Hne. rewrite ex_exc by lia. destruct (Nat.eqb_spec j a); [lia|]. ring. }
  rewrite ex_exc by lia. rewrite Nat.eqb_refl. unfold ex_X. set (w := weight beta egs (energy ex_vac 0)).
  assert (Hw : rcx w <> rcx 0). { intros E. apply (f_equal re) in E. cbn in E. unfold w, weight in E. pose proof (exp_pos (- beta * (energy ex_vac 0 - egs))). lra. }
  rewrite Rplus_0_r. pose proof (im_shift z (INR j) Hz) as Hj0. destruct (Nat.eqb_spec i j) as [->|]; field; auto.
Qed.

(** A dictionary that keeps one of the two states of a sector. *)
Definition cut_one : sct RRing := mksct RRing (StSz [1%N; 2%N] [0%N]) [0] (Cols RRing [[1; 0]]).
Definition cut_full : sct RRing := mksct RRing (StSz [1%N; 2%N] [0%N]) [INR 0; INR 1] (Cols RRing [[1; 0]; [0; 1]]).
Definition cut_es : espace RRing := [([1; 0]%nat, cut_one); ([0; 0]%nat, ex_vac)].
Lemma cut_result beta egs : exists ge gh,
  build_gf_lanczos ex_solve ex_mvop ex_tridiag ex_eigh 2 cut_es beta egs 0 "cf" 0 false = Ok ([([1; 0]%nat, cut_full); ([0; 0]%nat, ex_vac)], ge, gh).
Proof. eexists. eexists. cbv -[Rplus Rmult Ropp IZR Rminus exp pow]. reflexivity. Qed.

(** Two sites, one electron in the antisymmetric combination. *)
Definition anti : sct RRing := mksct RRing (StSz [1%N; 2%N] [0%N]) [1] (Cols RRing [[/ sqrt 2; - / sqrt 2]]).
Lemma anti_annihilated a : (a < dimn 2 0 0)%nat -> pair_excited 2 0 0 1 OpC 0 0 anti 0 a = 0.
Proof.
  intros Ha. change (dimn 2 0 0) with 1%nat in Ha. replace a with 0%nat by lia. unfold pair_excited.
  cbv -[Rplus Rmult Ropp IZR Rminus Rinv sqrt]. match goal with |- ?x = ?y => change (@eq R x y) end. ring.
Qed.
Lemma anti_sectors : sectors 2 [([1; 0]%nat, anti)].
Proof.
  split; [repeat constructor; intros []|]. intros key s [E|[]]. injection E as <- <-. exists 1%nat, 0%nat. split; [reflexivity|].
  repeat split; try lia. exists [[/ sqrt 2; - / sqrt 2]]. split; [reflexivity|]. split; [reflexivity|]. intros x [<-|[]]. reflexivity.
Qed.

Lemma boltz0 x : weight 0 0 x = 1.
Proof. unfold weight. rewrite Ropp_0, Rmult_0_l. apply exp_0. Qed.
Lemma cut_changes : exists solve mvop tridiag eigh n M es,
  sectors n es /\ operators n mvop M /\ solver n solve M /\
  (forall key s i a, In (key, s) es -> (i < nvals s)%nat -> (a < sdim RRing s)%nat ->
     rsum (sdim RRing s) (fun b => M (nth 0 key 0%nat) (nth 1 key 0%nat) a b * nth b (vec RRing s i) 0) = energy s i * nth a (vec RRing s i) 0) /\
  exists es' ge gh, build_gf_lanczos solve mvop tridiag eigh n es 0 0 0 "cf" 0 false = Ok (es', ge, gh) /\ Zof 0 0 es = 2 /\ gl_Z ge = 3.
Proof.
  exists ex_solve, ex_mvop, ex_tridiag, ex_eigh, 2%nat, ex_M, cut_es. split; [|split; [|split; [|split]]].
  - split; [repeat constructor; cbn; intuition congruence|]. intros key s [E|[E|[]]]; injection E as <- <-.
    + exists 1%nat, 0%nat. split; [reflexivity|]. repeat split; try lia. exists [[1; 0]]. split; [reflexivity|]. split; [reflexivity|]. intros x [<-|[]]. reflexivity.
    + exists 0%nat, 0%nat. split; [reflexivity|]. repeat split; try lia. exists [[1]]. split; [reflexivity|]. split; [reflexivity|]. intros x [<-|[]]. reflexivity.
  - apply ex_operators.
  - apply ex_solver. lia.
  - intros key s i a [E|[E|[]]] Hi Ha; injection E as <- <-; change (i < 1)%nat in Hi; replace i with 0%nat by lia.
    + change (a < 2)%nat in Ha. change (sdim RRing cut_one) with 2%nat. rewrite !rsum_S. rewrite (rsum_0 0) by (intros; lia).
      destruct a as [|[|]]; [| |lia]; unfold ex_M; cbn; match goal with |- ?x = ?y => change (@eq R x y) end; ring.
    + change (a < 1)%nat in Ha. replace a with 0%nat by lia. change (sdim RRing ex_vac) with 1%nat. rewrite !rsum_S. rewrite (rsum_0 0) by (intros; lia).
      unfold ex_M. cbn. match goal with |- ?x = ?y => change (@eq R x y) end. ring.
  - destruct (cut_result 0 0) as (ge & gh & E). exists [([1; 0]%nat, cut_full); ([0; 0]%nat, ex_vac)], ge, gh. split; [exact E|].
    destruct (build_replaces _ _ _ _ _ _ _ _ _ _ _ _ _ _ _ E) as (_ & -> & _).
    unfold Zof. cbn [map rsuml fold_right cut_es snd]. change (nvals cut_one) with 1%nat. change (nvals ex_vac) with 1%nat. change (nvals cut_full) with 2%nat.
    rewrite !rsum_S, !(rsum_0 0) by (intros; lia). rewrite !boltz0. split; ring.
Qed.
