(** Property C126: the Lanczos and the exact Green's functions agree. *)
From Coq Require Import Reals String List Arith NArith ZArith Bool Lia Lra.
From Verif Require Import Base RBase RLin CBase OperatorsSpec FockSpec SectorModel LocalModel HoppingModel NonLocalModel MatvecModel MbModel MbSpec EspaceModel ProjModel ProjSpec LanczosModel LanczosSpec
  CfModel CfSpec NrModel GfModel GfSpec GmModel GmSpec ExactSpec EighProofs ExactProofs GflModel GflSpec GflInstProofs AgrModel AgrSpec AgrProofs AgrInstProofs AgrMainProofs AgrExProofs.
Import ListNotations.
Local Open Scope R_scope.

(** C126: from the parameters of the model to equal functions. *)
Theorem C126_green big half n h fl V hf mu z U eigh eigsh es egs tridiag eight beta e0 s repr pos separate :
  model_ok half n h fl V U -> eigh_contract eigh -> build_espace RRing Rleb big half eigh eigsh n h fl V hf mu z None "sz" = Ok (es, egs) ->
  (s <= 1)%nat -> repr = "cf"%string \/ repr = "sp"%string /\ GflSpec.eigh_sound eight -> (pos < n)%nat ->
  krylov n (product_of big half n h fl V hf mu z) tridiag (Z.of_nat s) es (fun op p' q' t i a => exc n op (Z.of_nat s) pos p' q' t i a) 11 ->
  exists ge gh g, gf_lanczos_of big half eigh eigsh n h fl V hf mu z tridiag eight es beta e0 pos repr (Z.of_nat s) separate = Ok (es, ge, gh) /\
    build_gf2_exact n es beta e0 (Z.of_nat s) = Ok g /\
  forall e eta, im (zpoint e eta) <> 0 -> exists G u v, gm_call g e eta = Ok G /\ gl_call ge e eta = Ok u /\ gl_call gh e eta = Ok v /\
    if separate then cxadd u v = GmSpec.entry G pos pos else u = GmSpec.entry G pos pos /\ v = GmSpec.entry G pos pos.
Proof. exact (fun MO HC HB Hs HR => agree big half n h fl V hf mu z U MO eigh eigsh HC es egs HB tridiag eight beta e0 s repr Hs HR pos separate). Qed.
Print Assumptions C126_green.

(** The two objects of a separate call are the two parts of the Lehmann sum. *)
Theorem C126_parts big half n h fl V hf mu z U eigh eigsh es egs tridiag eight beta e0 s repr pos :
  model_ok half n h fl V U -> eigh_contract eigh -> build_espace RRing Rleb big half eigh eigsh n h fl V hf mu z None "sz" = Ok (es, egs) ->
  (s <= 1)%nat -> repr = "cf"%string \/ repr = "sp"%string /\ GflSpec.eigh_sound eight -> (pos < n)%nat ->
  krylov n (product_of big half n h fl V hf mu z) tridiag (Z.of_nat s) es (fun op p' q' t i a => exc n op (Z.of_nat s) pos p' q' t i a) 11 ->
  exists F, lists_family n es F /\ forall separate, exists ge gh, gf_lanczos_of big half eigh eigsh n h fl V hf mu z tridiag eight es beta e0 pos repr (Z.of_nat s) separate = Ok (es, ge, gh) /\
  forall e eta, im (zpoint e eta) <> 0 ->
    gl_call ge e eta = Ok (cxdiv (if separate then lehmann_part n s pos pos beta e0 F OpCdg (zpoint e eta) else lehmann n s pos pos beta e0 F (zpoint e eta)) (rcx (Zsum n beta e0 F))) /\
    gl_call gh e eta = Ok (cxdiv (if separate then lehmann_part n s pos pos beta e0 F OpC (zpoint e eta) else lehmann n s pos pos beta e0 F (zpoint e eta)) (rcx (Zsum n beta e0 F))).
Proof. exact (fun MO HC HB Hs HR => parts big half n h fl V hf mu z U MO eigh eigsh HC es egs HB tridiag eight beta e0 s repr Hs HR pos). Qed.
Print Assumptions C126_parts.

(** The matrix: every entry agrees; the parts add up. *)
Theorem C126_matrix big half n h fl V hf mu z U eigh eigsh es egs tridiag eight beta e0 s repr separate :
  model_ok half n h fl V U -> eigh_contract eigh -> build_espace RRing Rleb big half eigh eigsh n h fl V hf mu z None "sz" = Ok (es, egs) ->
  (s <= 1)%nat -> repr = "cf"%string \/ repr = "sp"%string /\ GflSpec.eigh_sound eight ->
  (forall i, (i < n)%nat -> krylov n (product_of big half n h fl V hf mu z) tridiag (Z.of_nat s) es (fun op p' q' t k a => exc n op (Z.of_nat s) i p' q' t k a) 11) ->
  (forall i j, (i < j < n)%nat -> krylov n (product_of big half n h fl V hf mu z) tridiag (Z.of_nat s) es (pair_excited n (Z.of_nat s) i j) 0 /\
    never_zero n (Z.of_nat s) es (pair_excited n (Z.of_nat s) i j)) ->
  exists gl g, gf2_lanczos_of big half eigh eigsh n h fl V hf mu z tridiag eight es beta e0 (Z.of_nat s) repr separate = Ok (es, gl) /\ build_gf2_exact n es beta e0 (Z.of_nat s) = Ok g /\
  forall mem e eta, length mem = n -> (forall i, (i < n)%nat -> length (nth i mem []) = n) -> im (zpoint e eta) <> 0 ->
  exists Gs G, gf2_call gl mem e eta = Ok Gs /\ gm_call g e eta = Ok G /\ length Gs = (if separate then 2 else 1)%nat /\
    (forall i j, (i < n)%nat -> (j < n)%nat -> csum (length Gs) (fun l => GmSpec.entry (nth l Gs []) i j) = GmSpec.entry G i j) /\
    (forall i j, (i <= j < n)%nat -> gf2_get gl i j e eta = Ok (GmSpec.entry G i j)).
Proof. exact (fun MO HC HB Hs HR => agree_matrix big half n h fl V hf mu z U MO eigh eigsh HC es egs HB tridiag eight beta e0 s repr Hs HR separate). Qed.
Print Assumptions C126_matrix.

(** Up to three sites nothing is asked of the Lanczos routine; in general the
    library's, stopping only on a vanishing coefficient, will do. *)
Theorem C126_small n mvop tridiag ispin es f : (n <= 3)%nat -> krylov n mvop tridiag ispin es f 11.
Proof. exact (small_krylov n mvop tridiag ispin es f). Qed.
Print Assumptions C126_small.
Theorem C126_krylov (E : Type) maxn ND tiny (low : list R -> list R -> res E) close ga gb big half n h fl V hf mu z U eigh eigsh es egs ispin f least :
  model_ok half n h fl V U -> eigh_contract eigh -> build_espace RRing Rleb big half eigh eigsh n h fl V hf mu z None "sz" = Ok (es, egs) ->
  (forall x, tiny x = true <-> x = 0) -> (forall a b, exists e, low a b = Ok e) -> (forall p e, close p e = false) ->
  (2 <= ND)%nat -> (1 < maxn)%nat -> (forall p q, (p <= n)%nat -> (q <= n)%nat -> (dimn n p q < maxn)%nat) ->
  krylov n (product_of big half n h fl V hf mu z) (tridiag_with maxn ND tiny low close ga gb) ispin es f least.
Proof.
  exact (fun MO HC HB => ideal_krylov E maxn ND tiny low close ga gb n _ _ ispin es f least (small_n half n h fl V U MO)
    (inst_sectors big half n h fl V hf mu z U MO eigh eigsh HC es egs HB) (inst_operators big half n h fl V hf mu z U MO eigsh)).
Qed.
Print Assumptions C126_krylov.

(** A chain of four sites (sectors up to dimension 36), hopping -1, repulsion 3. *)
Definition ch_h : hmat RRing := H2 RRing (fun i j => if ((S i =? j) || (S j =? i))%nat then -1 else 0).
Definition ch_U (i j : nat) : R := if (i =? j)%nat then 3 else 0.
Definition ch_tri := tridiag_with (E := unit) 40 3 (fun x => Reqb x 0) (fun _ _ => Ok tt) (fun _ _ => false) (fun _ => 0) (fun _ => 0).
Lemma ch_ok : model_ok (/ 2) 4 ch_h lev_fl (VArray RRing ch_U) ch_U.
Proof.
  split; [split; [lia|split; [lia|lra]]|]. split; [reflexivity|]. split; [auto|]. split; [split; exact I|]. split; [|reflexivity].
  intros sp i j _ _. unfold ch_h. cbn [hspin]. now rewrite Bool.orb_comm.
Qed.
Lemma ch_dims p q : (p <= 4)%nat -> (q <= 4)%nat -> (dimn 4 p q < 40)%nat.
Proof. intros Hp Hq. destruct p as [|[|[|[|[|]]]]]; try lia; destruct q as [|[|[|[|[|]]]]]; try lia; vm_compute; lia. Qed.
Lemma exact_zero x : Reqb x 0 = true <-> x = 0.
Proof. unfold Reqb. destruct (Req_EM_T x 0); split; congruence. Qed.
Example C126_ex : dimn 4 2 2 = 36%nat /\ exists es e ge gh g,
  build_espace RRing Rleb (fun _ => true) (/ 2) real_eigh (fun _ _ _ => Err ValueError) 4 ch_h lev_fl (VArray RRing ch_U) false (-1) None None "sz" = Ok (es, e) /\
  gf_lanczos_of (fun _ => true) (/ 2) real_eigh (fun _ _ _ => Err ValueError) 4 ch_h lev_fl (VArray RRing ch_U) false (-1) None ch_tri (fun _ _ => Err ValueError) es 10 0 2 "cf" 1 false = Ok (es, ge, gh) /\
  build_gf2_exact 4 es 10 0 1 = Ok g /\ exists G, gm_call g (rcx 0) 1 = Ok G /\ gl_call ge (rcx 0) 1 = Ok (GmSpec.entry G 2 2).
Proof.
  split; [vm_compute; reflexivity|]. destruct ch_ok as ((Hn & Hn' & Hh2) & HU & HJ & (HSx & HSp) & HS & Hset).
  destruct (exact_runs (fun _ => true) (/ 2) 4 ch_h lev_fl (VArray RRing ch_U) false (-1) None ch_U real_eigh (fun _ _ _ => Err ValueError) Hn Hn' Hh2 HU HJ HSx HSp HS Hset real_eigh_contract) as (es & egs & E).
  destruct (C126_green (fun _ => true) (/ 2) 4 ch_h lev_fl (VArray RRing ch_U) false (-1) None ch_U real_eigh (fun _ _ _ => Err ValueError) es egs ch_tri (fun _ _ => Err ValueError) 10 0 1 "cf" 2 false
    ch_ok real_eigh_contract E ltac:(lia) (or_introl eq_refl) ltac:(lia)) as (ge & gh & g & E1 & E2 & H).
  { exact (C126_krylov unit 40 3 _ _ _ _ _ _ _ _ _ _ _ _ _ _ _ _ _ _ _ _ _ 11 ch_ok real_eigh_contract E exact_zero (fun _ _ => ex_intro _ tt eq_refl) (fun _ _ => eq_refl) ltac:(lia) ltac:(lia) ch_dims). }
  destruct (H (rcx 0) 1) as (G & u & v & EG & EU & _ & -> & _).
  { unfold zpoint. cbn. lra. }
  exists es, egs, ge, gh, g. split; [exact E|]. split; [exact E1|]. split; [exact E2|]. exists G. auto.
Qed.
(** Two sites with four different levels: the whole matrix. *)
Example C126_ex_matrix : exists es e gl g,
  build_espace RRing Rleb (fun _ => true) (/ 2) real_eigh (fun _ _ _ => Err ValueError) 2 lev_h lev_fl (VArray RRing lev_U) false 0 None None "sz" = Ok (es, e) /\
  gf2_lanczos_of (fun _ => true) (/ 2) real_eigh (fun _ _ _ => Err ValueError) 2 lev_h lev_fl (VArray RRing lev_U) false 0 None ch_tri (fun _ _ => Err ValueError) es 10 0 0 "cf" false = Ok (es, gl) /\
  build_gf2_exact 2 es 10 0 0 = Ok g /\ exists G, gm_call g (rcx 0) 1 = Ok G /\ gf2_get gl 0 1 (rcx 0) 1 = Ok (GmSpec.entry G 0 1).
Proof.
  destruct lev_ok as ((Hn & Hn' & Hh2) & HU & HJ & (HSx & HSp) & HS & Hset).
  destruct (exact_runs (fun _ => true) (/ 2) 2 lev_h lev_fl (VArray RRing lev_U) false 0 None lev_U real_eigh (fun _ _ _ => Err ValueError) Hn Hn' Hh2 HU HJ HSx HSp HS Hset real_eigh_contract) as (es & egs & E).
  assert (DM : forall p q, (p <= 2)%nat -> (q <= 2)%nat -> (dimn 2 p q < 40)%nat) by (intros p q Hp Hq; destruct p as [|[|[|]]], q as [|[|[|]]]; try lia; vm_compute; lia).
  destruct (C126_matrix (fun _ => true) (/ 2) 2 lev_h lev_fl (VArray RRing lev_U) false 0 None lev_U real_eigh (fun _ _ _ => Err ValueError) es egs ch_tri (fun _ _ => Err ValueError) 10 0 0 "cf" false
    lev_ok real_eigh_contract E ltac:(lia) (or_introl eq_refl)) as (gl & g & E1 & E2 & H).
  { intros i Hi. apply C126_small. lia. }
  { intros i j Hij. split; [|exact (lev_never_zero _ _ es egs 0 real_eigh_contract ltac:(lia) E i j Hij)].
    exact (C126_krylov unit 40 3 _ _ _ _ _ _ _ _ _ _ _ _ _ _ _ _ _ _ _ _ _ 0 lev_ok real_eigh_contract E exact_zero (fun _ _ => ex_intro _ tt eq_refl) (fun _ _ => eq_refl) ltac:(lia) ltac:(lia) DM). }
  destruct (H [[rcx 0; rcx 0]; [rcx 0; rcx 0]] (rcx 0) 1 eq_refl) as (Gs & G & _ & EG & _ & _ & HG).
  { intros i Hi. destruct i as [|[|]]; [reflexivity|reflexivity|lia]. } { unfold zpoint. cbn. lra. }
  exists es, egs, gl, g. split; [exact E|]. split; [exact E1|]. split; [exact E2|]. exists G. split; [exact EG|]. apply HG. lia.
Qed.
