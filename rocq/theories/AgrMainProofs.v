(** The Lanczos Green's functions are the exact ones. *)
From Coq Require Import String Reals List Arith NArith ZArith Bool Lia Lra Psatz Ring.
From Verif Require Import Base RBase RLin CBase OperatorsModel OperatorsSpec SectorModel SectorProofs LookupModel LookupSpec SectorSpec FockSpec LocalModel HoppingModel
  NonLocalModel MatvecModel MbModel EspaceModel ProjModel ProjSpec LanczosModel LanczosSpec CfModel CfSpec GfModel GfSpec GmModel GmSpec GmProofs ExactSpec ExactProofs
  GflModel GflSpec GflProofs GflMainProofs GflPairProofs GflInstProofs AgrModel AgrSpec AgrProofs AgrInstProofs.
Import ListNotations.
Local Open Scope R_scope.

Lemma entry_map n (f : nat -> nat -> cx) x y : (x < n)%nat -> (y < n)%nat -> GmSpec.entry (map (fun x => map (fun y => f x y) (seq 0 n)) (seq 0 n)) x y = f x y.
Proof.
  intros Hx Hy. unfold GmSpec.entry. rewrite (nth_indep _ [] ((fun x => map (fun y => f x y) (seq 0 n)) 0%nat)) by (now rewrite map_length, seq_length).
  rewrite (map_nth (fun x => map (fun y => f x y) (seq 0 n))), seq_nth by auto. rewrite (nth_indep _ _ ((f (0 + x)%nat) 0%nat)) by (now rewrite map_length, seq_length).
  rewrite (map_nth (f (0 + x)%nat)), seq_nth by auto. reflexivity.
Qed.

Lemma div_add a b c : cxadd (cxdiv a c) (cxdiv b c) = cxdiv (cxadd a b) c.
Proof. unfold cxdiv. symmetry. apply (Rdistr_l cx_ring). Qed.
Section Main.
Variables (big : R -> bool) (half : R) (n : nat) (h : hmat RRing) (fl : hflags) (V : inter RRing) (hf : bool) (mu : R) (z : option (nat -> R)) (U : nat -> nat -> R).
Hypothesis MO : model_ok half n h fl V U.
Variable eigh : dense RRing -> res (list R * list (list R)).
Variable eigsh : nat -> Z -> (list R -> res (list R)) -> res (list R * list (list R)).
Hypothesis HC : eigh_contract eigh.
Variables (es : espace RRing) (egs : option R).
Hypothesis HB : build_espace RRing Rleb big half eigh eigsh n h fl V hf mu z None "sz" = Ok (es, egs).
Variable tridiag : (list R -> res (list R)) -> list R -> res (list R * list R).
Variable eight : list R -> list R -> res (list R * list (list R)).
Variables (beta e0 : R) (s : nat) (repr : string).
Hypothesis Hs : (s <= 1)%nat. Hypothesis HR : repr = "cf"%string \/ repr = "sp"%string /\ GflSpec.eigh_sound eight.
Notation prod := (product_of big half n h fl V hf mu z).
Notation pairs := (all_pairs big half eigh eigsh n h fl V hf mu z).
Notation ispin := (Z.of_nat s).
Lemma small_n : (n <= 32)%nat. Proof. destruct MO as ((_ & Hn & _) & _). exact Hn. Qed.
Lemma two_spins : (ispin = 0 \/ ispin = 1)%Z. Proof. clear - Hs. lia. Qed.

Theorem parts pos : (pos < n)%nat -> krylov n prod tridiag ispin es (fun op p' q' s i a => exc n op ispin pos p' q' s i a) 11 ->
  exists F, lists_family n es F /\ forall separate, exists ge gh, gf_lanczos_of big half eigh eigsh n h fl V hf mu z tridiag eight es beta e0 pos repr ispin separate = Ok (es, ge, gh) /\
  forall e eta, im (zpoint e eta) <> 0 ->
    gl_call ge e eta = Ok (cxdiv (if separate then lehmann_part n s pos pos beta e0 F OpCdg (zpoint e eta) else lehmann n s pos pos beta e0 F (zpoint e eta)) (rcx (Zsum n beta e0 F))) /\
    gl_call gh e eta = Ok (cxdiv (if separate then lehmann_part n s pos pos beta e0 F OpC (zpoint e eta) else lehmann n s pos pos beta e0 F (zpoint e eta)) (rcx (Zsum n beta e0 F))).
Proof.
  intros Hpos HK. destruct (inst_family big half n h fl V hf mu z U MO eigh eigsh HC es egs HB) as (F & LF & EB & EV). exists F. split; [exact LF|]. intros separate.
  pose proof (inst_operators big half n h fl V hf mu z U MO eigsh) as OP. pose proof (inst_sectors big half n h fl V hf mu z U MO eigh eigsh HC es egs HB) as SE.
  destruct (gf_lanczos_green pairs prod tridiag eight n (Msec big half n h V hf mu z U) es beta e0 ispin pos repr separate small_n Hpos two_spins HR SE OP
    (inst_solver big half n h fl V hf mu z U MO eigh eigsh HC) (inst_settled big half n h fl V hf mu z U MO eigh eigsh es egs HB) HK) as (ge & gh & E & H).
  exists ge, gh. split; [exact E|]. intros e eta Hz.
  destruct (resolved_exists n prod (Msec big half n h V hf mu z U) es ispin pos (zpoint e eta) small_n SE OP Hz) as (X & HX).
  destruct (H e eta X Hz HX) as [H1 H2]. rewrite H1, H2.
  assert (SY : forall p q, (p <= n)%nat -> (q <= n)%nat -> matrix_symmetric (dimn n p q) (Msec big half n h V hf mu z U p q)) by (intros p q Hp Hq; exact (proj1 (OP p q Hp Hq))).
  destruct separate; cbn [ops_e ops_h].
  - rewrite !(green_part n es F _ beta e0 s LF Hs EB SY EV _ pos pos (zpoint e eta) X Hz HX). auto.
  - rewrite !(green_whole n es F _ beta e0 s LF Hs EB SY EV pos pos (zpoint e eta) X Hz HX). auto.
Qed.
Theorem agree pos separate : (pos < n)%nat -> krylov n prod tridiag ispin es (fun op p' q' s i a => exc n op ispin pos p' q' s i a) 11 ->
  exists ge gh g, gf_lanczos_of big half eigh eigsh n h fl V hf mu z tridiag eight es beta e0 pos repr ispin separate = Ok (es, ge, gh) /\
    build_gf2_exact n es beta e0 ispin = Ok g /\
  forall e eta, im (zpoint e eta) <> 0 -> exists G u v, gm_call g e eta = Ok G /\ gl_call ge e eta = Ok u /\ gl_call gh e eta = Ok v /\
    if separate then cxadd u v = GmSpec.entry G pos pos else u = GmSpec.entry G pos pos /\ v = GmSpec.entry G pos pos.
Proof.
  intros Hpos HK. destruct (parts pos Hpos HK) as (F & LF & P). destruct (P separate) as (ge & gh & E & H). destruct (gm_lehmann n es F beta e0 s LF Hs) as (g & EG & _ & HG).
  exists ge, gh, g. split; [exact E|]. split; [exact EG|]. intros e eta Hz. destruct (H e eta Hz) as [H1 H2]. eexists. eexists. eexists. split; [apply HG|]. split; [exact H1|]. split; [exact H2|].
  rewrite (entry_map n (fun x y => cxdiv (lehmann n s x y beta e0 F (zpoint e eta)) (rcx (Zsum n beta e0 F)))) by auto. destruct separate; [|auto].
  rewrite <- (parts_add n F beta e0 s pos pos (zpoint e eta)). apply div_add.
Qed.
Theorem agree_matrix separate : 
  (forall i, (i < n)%nat -> krylov n prod tridiag ispin es (fun op p' q' s k a => exc n op ispin i p' q' s k a) 11) ->
  (forall i j, (i < j < n)%nat -> krylov n prod tridiag ispin es (pair_excited n ispin i j) 0 /\ never_zero n ispin es (pair_excited n ispin i j)) ->
  exists gl g, gf2_lanczos_of big half eigh eigsh n h fl V hf mu z tridiag eight es beta e0 ispin repr separate = Ok (es, gl) /\ build_gf2_exact n es beta e0 ispin = Ok g /\
  forall mem e eta, length mem = n -> (forall i, (i < n)%nat -> length (nth i mem []) = n) -> im (zpoint e eta) <> 0 ->
  exists Gs G, gf2_call gl mem e eta = Ok Gs /\ gm_call g e eta = Ok G /\ length Gs = (if separate then 2 else 1)%nat /\
    (forall i j, (i < n)%nat -> (j < n)%nat -> csum (length Gs) (fun l => GmSpec.entry (nth l Gs []) i j) = GmSpec.entry G i j) /\
    (forall i j, (i <= j < n)%nat -> gf2_get gl i j e eta = Ok (GmSpec.entry G i j)).
Proof.
  intros HK HP. destruct (inst_family big half n h fl V hf mu z U MO eigh eigsh HC es egs HB) as (F & LF & EB & EV).
  pose proof (inst_operators big half n h fl V hf mu z U MO eigsh) as OP. pose proof (inst_sectors big half n h fl V hf mu z U MO eigh eigsh HC es egs HB) as SE.
  destruct (gf2_matrix pairs prod tridiag eight n (Msec big half n h V hf mu z U) es beta e0 ispin repr separate small_n two_spins HR SE OP
    (inst_solver big half n h fl V hf mu z U MO eigh eigsh HC) (inst_settled big half n h fl V hf mu z U MO eigh eigsh es egs HB) HK HP) as (gl & E & H).
  destruct (gm_lehmann n es F beta e0 s LF Hs) as (g & EG & _ & HG). exists gl, g. split; [exact E|]. split; [exact EG|]. intros mem e eta Lm Lr Hz.
  assert (SY : forall p q, (p <= n)%nat -> (q <= n)%nat -> matrix_symmetric (dimn n p q) (Msec big half n h V hf mu z U p q)) by (intros p q Hp Hq; exact (proj1 (OP p q Hp Hq))).
  assert (XS : forall m, exists X, forall i, (i < m)%nat -> resolved n (Msec big half n h V hf mu z U) ispin es i (zpoint e eta) (X i)).
  { induction m as [|m (X & HX)]; [exists (fun _ _ _ _ _ => rcx 0); lia|]. destruct (resolved_exists n prod (Msec big half n h V hf mu z U) es ispin m (zpoint e eta) small_n SE OP Hz) as (Y & HY).
    exists (fun i => if (i =? m)%nat then Y else X i). intros i Hi. destruct (Nat.eqb_spec i m) as [->|]; [exact HY|]. apply HX. lia. }
  destruct (XS n) as (X & HX). destruct (H mem e eta X Lm Lr Hz HX) as (Gs & E1 & LG & VG & GG & _). eexists. eexists. split; [exact E1|]. split; [apply HG|].
  split; [destruct separate; exact LG|]. split.
  - intros i j Hi Hj. rewrite (entry_map n (fun x y => cxdiv (lehmann n s x y beta e0 F (zpoint e eta)) (rcx (Zsum n beta e0 F)))) by auto.
    rewrite (csum_ext _ _ (fun l => green n beta e0 ispin es j (X i) (nth l (if separate then [[OpCdg]; [OpC]] else [[OpCdg; OpC]]) []))) by (intros l Hl; exact (VG l i j Hl Hi Hj)).
    rewrite LG. destruct separate; cbn [length].
    + change (csum 2) with (@nsum CxRing 2). rewrite !nsum_S. cbn [nth]. rewrite !(green_part n es F _ beta e0 s LF Hs EB SY EV _ i j (zpoint e eta) (X i) Hz (HX i ltac:(lia))).
      rewrite <- (parts_add n F beta e0 s i j (zpoint e eta)). rewrite <- div_add. apply (f_equal2 cxadd); [apply (Radd_0_l cx_ring)|reflexivity].
    + change (csum 1) with (@nsum CxRing 1). rewrite !nsum_S. cbn [nth]. rewrite (green_whole n es F _ beta e0 s LF Hs EB SY EV i j (zpoint e eta) (X i) Hz (HX i ltac:(lia))).
      apply (Radd_0_l cx_ring).
  - intros i j Hij. rewrite (GG i j Hij), (entry_map n (fun x y => cxdiv (lehmann n s x y beta e0 F (zpoint e eta)) (rcx (Zsum n beta e0 F)))) by lia.
    now rewrite (green_whole n es F _ beta e0 s LF Hs EB SY EV i j (zpoint e eta) (X i) Hz (HX i ltac:(lia))).
Qed.
End Main.

(** Up to three sites every sector is diagonalised and nothing is asked of the Lanczos routine. *)
Theorem small_krylov n mvop tridiag ispin es f : (n <= 3)%nat -> krylov n mvop tridiag ispin es f 11.
Proof.
  intros Hn p' q' phi mv Hd _ _. exfalso. assert (D : (dimn n p' q' <= 9)%nat); [|lia].
  unfold dimn, bare, sdim. assert (L : forall k u, generate_states n k = Ok u -> (length u <= 3)%nat).
  { intros k u E. destruct (Nat.le_gt_cases k n) as [Hk|Hk].
    - rewrite (states_at n k) in E by lia. injection E as <-. rewrite cand_length. destruct n as [|[|[|[|]]]]; try lia; destruct k as [|[|[|[|]]]]; try lia; vm_compute; lia.
    - unfold generate_states in E. rewrite (binom_gt n k Hk) in E. discriminate E. }
  destruct (generate_states n p') as [u|] eqn:EU; [|cbn; lia]. destruct (generate_states n q') as [d|] eqn:ED; [|cbn; lia]. cbn [ups dws s_states].
  apply L in EU, ED. cbn. nia.
Qed.
