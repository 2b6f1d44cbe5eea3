(** Proofs about dedlib_dev.py: limiting the number of states per sector, and the trials that
    cannot go on. *)
From Coq Require Import String Reals List Arith NArith ZArith Bool Lia Lra Psatz.
From Verif Require Import Base RBase RLin CBase OperatorsModel OperatorsSpec FockSpec LookupSpec SectorModel SectorSpec SectorProofs LocalModel CsrSpec MatvecModel MbModel MbSpec EspaceModel EspaceSpec EspaceProofs
  ProjModel CfModel GfModel GfSpec DedModel DedSpec DedProofs DedFitProofs DedRootProofs DedMoreProofs DedTrialProofs EighProofs ExactSpec ExactProofs ExactMoreProofs ExactFinalProofs DevModel DevSpec DevProofs.
Import ListNotations.
Local Open Scope R_scope.

Lemma min_head (l : list R) : (forall j k, (j <= k)%nat -> (k < length l)%nat -> nth j l 0 <= nth k l 0) -> list_min RRing Rleb l = match l with [] => None | a :: _ => Some a end.
Proof.
  destruct l as [|a l]; intros H; [reflexivity|]. cbn [list_min]. f_equal.
  assert (A : forall x, In x l -> a <= x). { intros x Hx. destruct (In_nth l x 0 Hx) as (k & Hk & <-). apply (H 0 (S k))%nat; [lia|cbn [length]; lia]. }
  clear H. induction l as [|b l IH]; [reflexivity|]. cbn [fold_left]. unfold kmin at 2. assert (L : Rleb a b = true) by (apply Rleb_spec, A; now left).
  match goal with |- fold_left _ l (if ?t then _ else _) = _ => replace t with true by (symmetry; exact L) end. apply IH. intros x Hx. apply A. now right.
Qed.

Lemma min_head_cut (l : list R) m d : length l = d -> (forall j k, (j <= k)%nat -> (k < d)%nat -> nth j l 0 <= nth k l 0) -> list_min RRing Rleb (firstn m l) = match firstn m l with [] => None | a :: _ => Some a end.
Proof.
  intros L A. apply min_head. intros j k Hj Hk. rewrite firstn_length in Hk.
  assert (N1 : forall i, (i < m)%nat -> (i < d)%nat -> nth i (firstn m l) 0 = nth i l 0).
  { intros i Hi Hd. rewrite <- (firstn_skipn m l) at 2. rewrite app_nth1; [reflexivity|rewrite firstn_length; lia]. }
  rewrite !N1 by lia. apply A; lia.
Qed.

(** The first [m] states of a sector. *)
Definition cut_sct (m : nat) (s : sct RRing) : sct RRing :=
  mksct RRing (s_states RRing s) (firstn m (s_vals RRing s)) (match s_vecs RRing s with Cols _ c => Cols RRing (firstn m c) | v => v end).
Definition cut (m : nat) (es : espace RRing) : espace RRing := map (fun e => (fst e, cut_sct m (snd e))) es.
Section Cut.
Variables (big : R -> bool) (half : R) (n : nat) (h : hmat RRing) (fl : hflags) (V : inter RRing) (hf : bool) (mu : R) (z : option (nat -> R)).
Variable U : nat -> nat -> R.
Variable eigh : dense RRing -> res (list R * list (list R)).
Variable eigsh : nat -> Z -> (list R -> res (list R)) -> res (list R * list (list R)).
Hypothesis MO : model_ok half n h fl V U.
Hypothesis HC : eigh_contract eigh.
Hypothesis small : forall p q, (p <= n)%nat -> (q <= n)%nat -> (binom n p * binom n q <= 512)%nat.
Variable m : nat.
Hypothesis Hm : (0 < m)%nat.
Notation solve := (solve_sector RRing big half eigh eigsh n h fl V hf mu z).
Notation build := (build_espace RRing Rleb big half eigh eigsh n h fl V hf mu z).

Notation cut2 acc := ((cut m (fst acc), snd acc) : espace RRing * option R).

Lemma step_cut req1 req2 acc q : qvalid SymSz n q -> nth_error req1 (qpos SymSz n q) = Some (Z.of_nat (qdim n q)) -> nth_error req2 (qpos SymSz n q) = Some (Z.min (Z.of_nat (qdim n q)) (Z.of_nat m)) ->
  exists acc', espace_step RRing Rleb big half eigh eigsh n h fl V hf mu z SymSz req1 acc q = Ok acc' /\ espace_step RRing Rleb big half eigh eigsh n h fl V hf mu z SymSz req2 (cut2 acc) q = Ok (cut2 acc').
Proof.
  destruct MO as ((Hn & Hn' & Hh) & HU & HJ & (HSx & HSp) & HS & Hset). intros QV R1 R2. unfold espace_step.
  destruct (qns_states_ok RRing Rleb big eigsh n mu SymSz q Hn' QV) as (st & QS & SD). rewrite QS. cbn [bind]. rewrite !qpos_index by auto. rewrite (pyget_ok _ _ _ R1), (pyget_ok _ _ _ R2). cbn [bind].
  destruct QV as (p & p' & -> & Hp & Hq). cbn [qns_states] in QS. rewrite !(states_at n) in QS by auto. cbn [bind] in QS. injection QS as <-. cbn [states_dim] in SD.
  destruct (sector_solved big half n h fl V hf mu z U eigh eigsh Hn Hn' Hh HU HJ HSx HSp HS Hset HC p p' _ _ Hp Hq (states_at n p Hn' Hp) (states_at n p' Hn' Hq)) as (vals & cols & E & LV & LC & _ & _ & _ & ASC).
  pose proof (dim_pos n p p' Hp Hq) as DP. set (d := (length (cand n p) * length (cand n p'))%nat) in *.
  assert (D512 : (d <= 512)%nat) by (unfold d; rewrite !cand_length; now apply small). cbn [qdim] in *.
  replace (binom n p * binom n p')%nat with d in * by (unfold d; rewrite !cand_length; reflexivity).
  rewrite (proj2 (Z.eqb_neq (Z.of_nat d) 0)) by lia. rewrite (proj2 (Z.eqb_neq (Z.min (Z.of_nat d) (Z.of_nat m)) 0)) by lia. rewrite E. cbn [bind fst snd].
  assert (E2 : solve (StSz (cand n p) (cand n p')) (Some (Z.min (Z.of_nat d) (Z.of_nat m))) = Ok (firstn m vals, firstn m cols)).
  { unfold solve_sector in *. cbn [states_dim] in *. fold d in E |- *. rewrite Z.eqb_refl in E. cbn [orb] in E. rewrite Z.ltb_irrefl in E.
    rewrite (proj2 (Z.leb_le (Z.of_nat d) 512)) by lia. rewrite orb_true_r. destruct (solve_lapack _ _ _ _ _ _ _ _ _ _ _ _) as [r|]; [|discriminate]. cbn [bind] in *. injection E as ->. cbn [fst snd].
    destruct (Z.ltb_spec (Z.min (Z.of_nat d) (Z.of_nat m)) (Z.of_nat d)).
    - rewrite Z.min_r by lia. unfold pyslice. destruct (Z.ltb_spec (Z.of_nat m) 0); [lia|]. rewrite Nat2Z.id. reflexivity.
    - rewrite !firstn_all2 by lia. reflexivity. }
  rewrite E2. cbn [bind fst snd]. rewrite (min_head vals) by (intros j k Hj Hk; apply ASC; [exact Hj|exact (eq_ind _ (fun x => (k < x)%nat) Hk _ LV)]).
  change (list_min RRing Rleb (@firstn (car RRing) m vals)) with (list_min RRing Rleb (@firstn R m vals)). rewrite (min_head_cut vals m d LV ASC).
  destruct vals as [|a vals]; [cbn in LV; lia|]. eexists. split; [reflexivity|]. cbn [fst snd]. unfold cut. rewrite map_app. clear - Hm. destruct m as [|m']; [lia|]. reflexivity.
Qed.

(** Limiting the number of states keeps the lowest ones and the ground energy. *)
Theorem cut_espace es egs : build None "sz" = Ok (es, egs) -> exists req, get_espace_dim n (Some (Z.of_nat m)) "sz" = Ok req /\ build (Some req) "sz" = Ok (cut m es, egs).
Proof.
  intros E. destruct (espace_dims n None "sz" SymSz eq_refl) as (r1 & E1 & _ & D1). destruct (espace_dims n (Some (Z.of_nat m)) "sz" SymSz eq_refl) as (r2 & E2 & _ & D2).
  exists r2. split; [exact E2|]. unfold build_espace in *. cbn [bind] in E. change (symmetry_of "sz") with (Ok SymSz) in *. cbn [bind] in *. rewrite E1 in E. cbn [bind] in E.
  assert (IQ : forall q, In q (iter_qns SymSz n) -> qvalid SymSz n q) by (intros q; apply in_iter).
  assert (G : forall qs (acc r : espace RRing * option R), foldM (espace_step RRing Rleb big half eigh eigsh n h fl V hf mu z SymSz r1) qs acc = Ok r -> (forall q, In q qs -> qvalid SymSz n q) ->
    foldM (espace_step RRing Rleb big half eigh eigsh n h fl V hf mu z SymSz r2) qs (cut2 acc) = Ok (cut2 r)); [clear E IQ|exact (G _ _ _ E IQ)].
  intros qs. induction qs as [|q qs IH]; intros acc r E IQ; [injection E as <-; reflexivity|].
  cbn [foldM] in *. destruct (step_cut r1 r2 acc q) as (acc' & A1 & A2); [apply IQ; now left|apply D1, IQ; now left| |].
  { rewrite D2 by (apply IQ; now left). rewrite (proj2 (Z.eqb_neq (Z.of_nat m) 0)) by lia. reflexivity. }
  rewrite A1 in E. cbn [bind] in E. match goal with |- bind ?x _ = _ => replace x with (Ok (cut2 acc')) by (symmetry; exact A2) end. cbn [bind]. apply IH; [exact E|intros; apply IQ; now right].
Qed.
Lemma gs_cut tol es egs : gs_sector tol (cut m es) egs = match gs_sector tol es egs with Ok (k, s) => Ok (k, cut_sct m s) | Err e => Err e end.
Proof.
  clear - Hm. induction es as [|[k s] es IH]; [reflexivity|]. cbn [cut map gs_sector fst snd cut_sct s_vals]. destruct m as [|m']; [lia|]. destruct (s_vals RRing s) as [|a l]; [reflexivity|]. cbn [firstn].
  destruct egs as [e|]; [|exact IH]. destruct (Rltb (Rabs (a - e)) tol); [reflexivity|exact IH].
Qed.
End Cut.
Lemma small_dims n : (n <= 6)%nat -> forall p q, (p <= n)%nat -> (q <= n)%nat -> (binom n p * binom n q <= 512)%nat.
Proof.
  intros Hn p q Hp Hq. assert (B : forall k, (k <= n)%nat -> (binom n k <= 20)%nat).
  { intros k Hk. do 7 (destruct n as [|n]; [do 7 (destruct k as [|k]; [cbn; lia|]); lia|]). lia. }
  specialize (B p Hp) as B1. specialize (B q Hq). nia.
Qed.

Section Trial.
Variables (big : R -> bool) (half : R).
Variable eigh : dense RRing -> res (list R * list (list R)).
Variable eigsh : nat -> Z -> (list R -> res (list R)) -> res (list R * list (list R)).
Variables (fsolve : (R -> R) -> R -> R) (kB : R) (wild : N -> nat -> N).
Variables (n : nat) (U sigma0 beta : R) (zs : list cx).
Hypothesis Hn : (1 < n)%nat. Hypothesis Hn' : (n <= 6)%nat. Hypothesis Hh : half + half = 1. Hypothesis HC : eigh_contract eigh.
(** With up to six sites every sample ends in a TypeError. *)
Theorem trial_raises body poles : length poles = n -> DedSpec.increasing n (fun i => nth i poles 0) -> finds_roots fsolve n (fun i => nth i poles 0) ->
  dev_trial big half eigh eigsh fsolve kB wild (dev_occupation body) n U sigma0 beta zs poles = Err TypeError.
Proof.
  intros L I FR. subst n. assert (H0 : (0 < length poles)%nat) by lia. assert (H32 : (length poles <= 32)%nat) by lia.
  destruct (siam_ok fsolve poles H0 I FR 0) as (H & V & ES & HH & HV).
  assert (SY : forall sp : nat, symm RRing (length poles) (hspin RRing (H2 RRing H) sp)).
  { intros sp i j Hi Hj. cbn [hspin]. rewrite !HH by auto. apply star_sym. }
  assert (MO : model_ok half (length poles) (H2 RRing H) (mkflags true true true) (VArray RRing V) V).
  { split; [auto|]. split; [reflexivity|]. split; [auto|]. split; [split; exact Logic.I|]. split; [exact SY|reflexivity]. }
  destruct (exact_runs big half (length poles) (H2 RRing H) (mkflags true true true) (VArray RRing V) false 0 None V eigh eigsh Hn H32 Hh eq_refl ltac:(auto) Logic.I Logic.I SY eq_refl HC) as (es & egs & E0).
  destruct (lookup big half (length poles) _ _ _ false 0 None V eigh eigsh MO HC es egs (/ 10000000) E0 ltac:(lra)) as (key & s & e & -> & G & IN & _).
  destruct (sectors big half (length poles) _ _ _ false 0 None V eigh eigsh MO HC es (Some e) E0) as (_ & KEY & SEC).
  destruct (cut_espace big half (length poles) _ _ _ false 0 None V eigh eigsh MO HC (small_dims _ Hn') 3 ltac:(lia) es (Some e) E0) as (req & ER & EC).
  assert (ED : dev_espace big half eigh eigsh (length poles) H V = Ok (cut 3 es, Some e)) by (unfold dev_espace; change (Some 3%Z) with (Some (Z.of_nat 3)); rewrite ER; exact EC).
  assert (GC : gs_sector (/ 10000000) (cut 3 es) (Some e) = Ok (key, cut_sct 3 s)) by (rewrite gs_cut by lia; now rewrite G).
  apply (trial_type big half eigh eigsh fsolve kB wild (length poles) U sigma0 beta zs (dev_occupation body) poles H V (cut 3 es) e _ ES ED GC).
  destruct es as [|[q0 s0] es]; [destruct IN|]. destruct (proj1 (KEY q0) (or_introl eq_refl)) as (a & b & _ & _ & ->). destruct (SEC a b s0 (or_introl eq_refl)) as (up & dw & cols & S1 & S2 & _).
  apply dev_occupation_type; cbn [snd cut_sct s_vecs s_states]; [rewrite S2; discriminate|now exists up, dw].
Qed.
Theorem solve_raises body dos nsamples sigma N d draws z0 rs poles : (0 < N)%nat -> hd_error zs = Some z0 -> sampler_init dos (re z0) (re (last zs z0)) n nsamples = Ok rs -> sampler_call rs d = Ok poles ->
  length poles = n -> DedSpec.increasing n (fun i => nth i poles 0) -> finds_roots fsolve n (fun i => nth i poles 0) ->
  dev_solve big half eigh eigsh fsolve kB wild (dev_occupation body) n U sigma0 beta zs dos nsamples sigma N (d :: draws) = Err TypeError.
Proof.
  intros HN HZ RS SC L I FR. unfold dev_solve. destruct zs as [|z1 l] eqn:EZ; [discriminate|]. injection HZ as ->. rewrite <- EZ in *. rewrite RS. cbn [bind].
  unfold dev_rounds. destruct N as [|N]; [lia|]. cbn [dev_loop]. rewrite SC. cbn [bind]. now rewrite trial_raises.
Qed.
End Trial.
