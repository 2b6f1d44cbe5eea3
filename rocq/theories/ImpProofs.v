(** The content of one sample. *)
From Coq Require Import String Reals List Arith NArith ZArith Bool Lia Lra Psatz.
From Verif Require Import Base RBase RLin CBase OperatorsModel SectorModel LocalModel MatvecModel MbModel EspaceModel EspaceProofs ProjModel CfModel GfModel DedModel DedSpec DedProofs DevModel ImpSpec.
Import ListNotations.
Local Open Scope R_scope.

Lemma gs_spec es e q s : gs_sector (/ 10000000) es (Some e) = Ok (q, s) -> ground_sector es e q s.
Proof.
  induction es as [|[q0 s0] es IH]; cbn [gs_sector]; [discriminate|]. destruct (s_vals RRing s0) as [|v r] eqn:E; [discriminate|].
  destruct (Rltb (Rabs (v - e)) (/ 10000000)) eqn:B.
  - intros Q. injection Q as <- <-. exists [], es. split; [reflexivity|]. split; [|intros q' s' v' r' []]. exists v, r. split; [exact E|]. apply Rltb_spec in B. exact B.
  - intros Q. destruct (IH Q) as (l1 & l2 & -> & A & C). exists ((q0, s0) :: l1), l2. split; [reflexivity|]. split; [exact A|]. intros q' s' v' r' [I|I] E'; [|exact (C q' s' v' r' I E')].
    injection I as -> ->. rewrite E in E'. injection E' as <- <-. apply Rnot_lt_le. intros L. apply Rltb_spec in L. congruence.
Qed.
Lemma sigma_spec n poles gf zs ds : (0 < length poles)%nat -> length poles = n -> mapM (fun z => do G <- gf_call gf (rcx (re z)) (im z); Ok (cxsub (cxinv (gf0_call poles z)) (cxinv G))) zs = Ok ds ->
  length ds = length zs /\ forall j, (j < length zs)%nat -> self_energy_at n (fun i => nth i poles 0) gf (nth j zs (rcx 0)) (nth j ds (rcx 0)).
Proof.
  intros HP L. revert ds. induction zs as [|z l IH]; intros ds M; cbn [mapM] in M; [injection M as <-; split; [reflexivity|cbn; lia]|].
  destruct (gf_call gf (rcx (re z)) (im z)) as [G|] eqn:EG; [|discriminate]. cbn [bind] in M. destruct (mapM _ l) as [ds'|] eqn:E; [|discriminate]. cbn [bind] in M. injection M as <-. destruct (IH _ eq_refl) as [LD D].
  split; [cbn; now rewrite LD|]. intros [|j] Hj; cbn [nth]; [|apply D; cbn in Hj; lia]. exists G. split; [exact EG|]. rewrite gf0_call_mean, L by auto. reflexivity.
Qed.
Lemma siam_is n fsolve poles H V : length poles = n -> (0 < n)%nat -> build_siam n (fun _ _ => 0) (fun _ _ => 0) 0 (gfimp_fit fsolve poles) = Ok (H, V) ->
  is_siam n (rsum n (fun i => nth i poles 0) / INR n) (fun k => nth k (g_ek (gfimp_fit fsolve poles)) 0) (fun k => sqrt (nth k (g_vk2 (gfimp_fit fsolve poles)) 0)) 0 H V.
Proof.
  intros L Hn E. unfold build_siam in E. destruct (negb _); [discriminate|]. injection E as <- <-. intros a b Ha Hb.
  assert (SQ : forall k l, nth k (map sqrt l) 0 = sqrt (nth k l 0)) by (intros k l; rewrite <- sqrt_0 at 1; apply map_nth).
  destruct a as [|a], b as [|b]; cbn [star]; rewrite ?SQ; split; try reflexivity. unfold gfimp_fit. cbn [g_e0]. now rewrite L.
Qed.
Lemma siam_change n e0 e v U s0 (H V : nat -> nat -> R) : is_siam n e0 e v 0 H V -> (0 < n)%nat ->
  is_siam n (e0 - s0) e v U (fun i j => match i, j with O, O => H 0%nat 0%nat - s0 | _, _ => H i j end) (fun i j => match i, j with O, O => U | _, _ => V i j end).
Proof.
  intros HS Hn a b Ha Hb. destruct (HS a b Ha Hb) as [A B]. destruct (HS 0%nat 0%nat Hn Hn) as [A0 _].
  destruct a as [|a], b as [|b]; cbn [star Nat.eqb andb] in *; split; auto. now rewrite A0.
Qed.
Lemma min_spec es q m : sector_min es q = Ok m -> lowest es q m.
Proof.
  unfold sector_min. match goal with |- context [find ?f es] => destruct (find f es) as [[q' s]|] eqn:F end; [|discriminate]. destruct (list_min RRing Rleb (s_vals RRing (snd (q', s)))) as [m'|] eqn:M; [|discriminate]. intros Q. injection Q as ->. cbn [snd] in M.
  assert (exists l1 l2, es = l1 ++ (q, s) :: l2 /\ forall s', ~ In (q, s') l1) as (l1 & l2 & E & NI).
  { revert F. induction es as [|[q0 s0] es IH]; cbn [find]; [discriminate|]. cbn [fst]. destruct (list_eq_dec Nat.eq_dec q0 q) as [->|D].
    - intros F. injection F as <- <-. exists [], es. split; [reflexivity|]. intros s' [].
    - intros F. destruct (IH F) as (l1 & l2 & -> & NI). exists ((q0, s0) :: l1), l2. split; [reflexivity|]. intros s' [I|I]; [injection I as I _; congruence|exact (NI s' I)]. }
  exists l1, s, l2. split; [exact E|]. split; [exact NI|]. destruct (list_min_spec RRing Rleb Rleb_total Rleb_trans _ _ M) as [I L]. split; [exact I|]. intros v Hv. now apply Rleb_spec, L.
Qed.

Section Trial.
Variables (big : R -> bool) (half : R).
Variable eigh : dense RRing -> res (list R * list (list R)).
Variable eigsh : nat -> Z -> (list R -> res (list R)) -> res (list R * list (list R)).
Variables (fsolve : (R -> R) -> R -> R) (kB : R) (wild : N -> nat -> N).
Variables (n : nat) (U sigma0 beta : R) (zs : list cx) (poles : list R).
Hypothesis L : length poles = n. Hypothesis Hn : (0 < n)%nat.
Notation p := (fun i => nth i poles 0).
Notation g := (gfimp_fit fsolve poles).
Notation levels := (fun k => nth k (g_ek g) 0). Notation couplings := (fun k => sqrt (nth k (g_vk2 g) 0)). Notation mean := (rsum n p / INR n).
Notation build := (build_espace RRing Rleb).

Theorem siam_content r : siam_trial big half eigh eigsh fsolve kB wild n U sigma0 beta zs poles = Ok r ->
  exists H0 V0 H1 V1 es0 e0 es1 e1 q0 s0 q1 s1 occ0,
  is_siam n mean levels couplings 0 H0 V0 /\ is_siam n (mean - sigma0) levels couplings U H1 V1 /\
  build big half eigh eigsh n (H2 RRing H0) (mkflags true true true) (VArray RRing V0) false 0 None None "sz" = Ok (es0, Some e0) /\
  build big half eigh eigsh n (H2 RRing H1) (mkflags true true true) (VArray RRing V1) false 0 None None "sz" = Ok (es1, Some e1) /\
  ground_sector es0 e0 q0 s0 /\ ground_sector es1 e1 q1 s1 /\ gs_occupation s0 0 = Ok occ0 /\
  (q1 <> q0 -> r = None) /\
  (q1 = q0 -> exists i gf b eb, r = Some i /\ build_gf_exact n es1 beta e1 0 0%Z = Ok gf /\ length (i_sigma i) = length zs /\
     (forall j, (j < length zs)%nat -> self_energy_at n p gf (nth j zs (rcx 0)) (nth j (i_sigma i) (rcx 0))) /\
     i_occ0 i = occ0 /\ gs_occupation s1 0 = Ok (i_occ1 i) /\ build_non_interacting_espace RRing Rleb wild (g_ek g) = Ok (b, Some eb) /\
     i_entropy i = ded_entropy kB (map (fun e => s_vals RRing (snd e)) es1) (map (fun e => s_vals RRing (snd e)) b) e1 eb beta).
Proof.
  unfold siam_trial. cbv zeta. destruct (build_siam _ _ _ _ _) as [[H V]|] eqn:EH; [|discriminate]. cbn [bind fst snd].
  destruct (ded_espace _ _ _ _ _ H V) as [[es0 [e0|]]|] eqn:E0; [| |discriminate]; cbn [bind fst snd].
  2:{ assert (NG : forall es, exists x, gs_sector (/ 10000000) es None = Err x) by (induction es as [|[q s] es IH]; cbn [gs_sector]; [eexists; reflexivity|destruct (s_vals RRing s); [eexists; reflexivity|exact IH]]).
      destruct (NG es0) as (x & ->). discriminate. }
  destruct (gs_sector _ es0 _) as [[q0 s0]|] eqn:G0; [|discriminate]. cbn [bind fst snd]. destruct (gs_occupation s0 0) as [occ0|] eqn:O0; [|discriminate]. cbn [bind].
  match goal with |- context [ded_espace ?a ?b ?c ?d ?e ?H1 ?V1] => set (HH := H1); set (VV := V1) end.
  destruct (ded_espace _ _ _ _ _ HH VV) as [[es1 [e1|]]|] eqn:E1; [| |discriminate]; cbn [bind fst snd].
  2:{ assert (NG : forall es, exists x, gs_sector (/ 10000000) es None = Err x) by (induction es as [|[q s] es IH]; cbn [gs_sector]; [eexists; reflexivity|destruct (s_vals RRing s); [eexists; reflexivity|exact IH]]).
      destruct (NG es1) as (x & ->). discriminate. }
  destruct (gs_sector _ es1 _) as [[q1 s1]|] eqn:G1; [|discriminate]. cbn [bind fst snd].
  intros Q. exists H, V, HH, VV, es0, e0, es1, e1, q0, s0, q1, s1, occ0. pose proof (siam_is n fsolve poles H V L Hn EH) as HS.
  split; [exact HS|]. split; [exact (siam_change n _ _ _ U sigma0 H V HS Hn)|]. split; [exact E0|]. split; [exact E1|]. split; [exact (gs_spec _ _ _ _ G0)|]. split; [exact (gs_spec _ _ _ _ G1)|]. split; [exact O0|].
  destruct (list_eq_dec Nat.eq_dec q1 q0) as [Eq|Nq]; [|split; [intros _; now injection Q as <-|contradiction]]. split; [contradiction|intros _]. revert Q.
  destruct (build_gf_exact _ _ _ _ _ _) as [gf|] eqn:EG; [|discriminate]. cbn [bind].
  destruct (mapM _ zs) as [ds|] eqn:M; [|discriminate]. cbn [bind]. destruct (gs_occupation s1 0) as [occ1|] eqn:O1; [|discriminate]. cbn [bind].
  destruct (build_non_interacting_espace _ _ _ _) as [[b [eb|]]|] eqn:EB; [| |discriminate]; cbn [bind snd]; [|discriminate]. intros Q. injection Q as <-.
  destruct (sigma_spec n poles gf zs ds ltac:(lia) L M) as [LD D].
  eexists _, gf, b, eb. split; [reflexivity|]. cbn [i_sigma i_occ0 i_occ1 i_entropy]. auto 10.
Qed.
Theorem dev_content occupation t : dev_trial big half eigh eigsh fsolve kB wild occupation n U sigma0 beta zs poles = Ok t ->
  exists H0 V0 H1 V1 dims es0 e0 es1 e1 q0 s0 q1 s1 m0 m1 gf b eb,
  is_siam n mean levels couplings 0 H0 V0 /\ is_siam n (mean - sigma0) levels couplings U H1 V1 /\ get_espace_dim n (Some 3%Z) "sz" = Ok dims /\
  build big half eigh eigsh n (H2 RRing H0) (mkflags true true true) (VArray RRing V0) false 0 None (Some dims) "sz" = Ok (es0, Some e0) /\
  build big half eigh eigsh n (H2 RRing H1) (mkflags true true true) (VArray RRing V1) false 0 None (Some dims) "sz" = Ok (es1, Some e1) /\
  ground_sector es0 e0 q0 s0 /\ ground_sector es1 e1 q1 s1 /\ (t_found t = true <-> q1 = q0) /\
  lowest es1 q1 m1 /\ lowest es1 q0 m0 /\ t_weight t = exp (- beta * Rabs (m1 - m0)) /\
  build_gf_exact n es1 beta e1 0 0%Z = Ok gf /\ length (i_sigma (t_inc t)) = length zs /\
  (forall j, (j < length zs)%nat -> self_energy_at n p gf (nth j zs (rcx 0)) (nth j (i_sigma (t_inc t)) (rcx 0))) /\
  occupation es0 e0 beta = Ok (i_occ0 (t_inc t)) /\ occupation es1 e1 beta = Ok (i_occ1 (t_inc t)) /\ build_non_interacting_espace RRing Rleb wild (g_ek g) = Ok (b, Some eb) /\
  i_entropy (t_inc t) = ded_entropy kB (map (fun e => s_vals RRing (snd e)) es1) (map (fun e => s_vals RRing (snd e)) b) e1 eb beta.
Proof.
  unfold dev_trial. cbv zeta. destruct (build_siam _ _ _ _ _) as [[H V]|] eqn:EH; [|discriminate]. cbn [bind fst snd]. unfold dev_espace.
  destruct (get_espace_dim n (Some 3%Z) "sz") as [dims|] eqn:ED; [|discriminate]. cbn [bind].
  destruct (build_espace _ _ _ _ _ _ _ (H2 RRing H) _ _ _ _ _ _ _) as [[es0 [e0|]]|] eqn:E0; [| |discriminate]; cbn [bind fst snd]; [|destruct (gs_sector _ es0 _); discriminate].
  destruct (gs_sector _ es0 _) as [[q0 s0]|] eqn:G0; [|discriminate]. cbn [bind fst snd]. destruct (occupation es0 e0 beta) as [occ0|] eqn:O0; [|discriminate]. cbn [bind].
  match goal with |- context [H2 RRing ?H1] => set (HH := H1) end. match goal with |- context [VArray RRing ?V1] => set (VV := V1) end.
  destruct (build_espace _ _ _ _ _ _ _ (H2 RRing HH) _ _ _ _ _ _ _) as [[es1 [e1|]]|] eqn:E1; [| |discriminate]; cbn [bind fst snd]; [|destruct (gs_sector _ es1 _); discriminate].
  destruct (gs_sector _ es1 _) as [[q1 s1]|] eqn:G1; [|discriminate]. cbn [bind fst snd]. destruct (occupation es1 e1 beta) as [occ1|] eqn:O1; [|discriminate]. cbn [bind].
  destruct (sector_min es1 q1) as [m1|] eqn:M1; [|discriminate]. cbn [bind]. destruct (sector_min es1 q0) as [m0|] eqn:M0; [|discriminate]. cbn [bind].
  destruct (build_gf_exact _ _ _ _ _ _) as [gf|] eqn:EG; [|discriminate]. cbn [bind]. destruct (mapM _ zs) as [ds|] eqn:M; [|discriminate]. cbn [bind].
  destruct (build_non_interacting_espace _ _ _ _) as [[b [eb|]]|] eqn:EB; [| |discriminate]; cbn [bind snd]; [|discriminate]. intros Q. injection Q as <-. cbn [t_inc t_weight t_found i_sigma i_occ0 i_occ1 i_entropy].
  pose proof (siam_is n fsolve poles H V L Hn EH) as HS. destruct (sigma_spec n poles gf zs ds ltac:(lia) L M) as [LD D].
  exists H, V, HH, VV, dims, es0, e0, es1, e1, q0, s0, q1, s1, m0, m1, gf, b, eb.
  split; [exact HS|]. split; [exact (siam_change n _ _ _ U sigma0 H V HS Hn)|]. split; [reflexivity|]. split; [exact E0|]. split; [exact E1|]. split; [exact (gs_spec _ _ _ _ G0)|]. split; [exact (gs_spec _ _ _ _ G1)|].
  split; [destruct (list_eq_dec Nat.eq_dec q1 q0); split; congruence|]. split; [exact (min_spec _ _ _ M1)|]. split; [exact (min_spec _ _ _ M0)|]. auto 10.
Qed.
End Trial.
