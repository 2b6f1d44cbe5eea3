(** The occupation from the poles of the Green's function and from the vectors. *)
From Coq Require Import String Reals List Arith NArith ZArith Bool Lia Lra Psatz Ring Permutation.
From Verif Require Import Base RBase RLin CBase OperatorsModel OperatorsSpec OperatorsProofs LookupModel LookupSpec LookupProofs SectorModel SectorSpec SectorProofs
  FockSpec FockProofs LocalModel MatvecModel MbModel MbSpec EspaceModel ProjModel ProjSpec ProjProofs ProjMoreProofs ProjFinalProofs CfModel CfMoreProofs GfModel GfSpec GfProofs GfSumProofs GfMoreProofs
  ObsModel ObsSpec ObsProofs ObsMoreProofs FermiModel FermiSpec FermiFinalProofs HoppingModel CsrSpec NonLocalSpec GmSpec DedModel ExactSpec ExactMoreProofs OccSpec.
Import ListNotations.
Local Open Scope R_scope.

Lemma fermi_weight beta egs E E' : (weight beta egs E + weight beta egs E') * fermi (beta * (E - E')) = weight beta egs E.
Proof.
  unfold weight, fermi. replace (exp (- beta * (E' - egs))) with (exp (- beta * (E - egs)) * exp (beta * (E - E'))) by (rewrite <- exp_plus; f_equal; ring).
  pose proof (exp_pos (beta * (E - E'))). field. lra.
Qed.

Section Family.
Variables (n : nat) (es : espace RRing) (F : family) (beta egs : R) (pos : nat).
Hypothesis HF : lists_family n es F. Hypothesis Hpos : (pos < n)%nat.
Hypothesis HB : forall p q, (p <= n)%nat -> (q <= n)%nat -> eigenbasis (F p q).

Definition occ_sum : R := rsum (S n) (fun p => rsum (S n) (fun q => rsum (nvals (F p q)) (fun j => weight beta egs (energy (F p q) j) * part OpC pos (F p q) j))).

Lemma gf_occ_sum g : build_gf_exact n es beta egs pos 0 = Ok g ->
  rsum (length (gf_q g)) (fun k => nth k (gf_q g) 0 * fermi (beta * nth k (gf_l g) 0)) = occ_sum.
Proof.
  intros E. destruct (build_exact n es F beta egs pos HF Hpos) as (g' & E' & L & _ & H). rewrite E in E'. injection E' as <-.
  pose proof (bsum_combine RRing (fun x l => x * fermi (beta * l)) (gf_q g) (gf_l g) L) as C. rewrite L. etransitivity; [symmetry; exact C|].
  etransitivity; [exact (H RRing (fun x l => x * fermi (beta * l)))|]. unfold occ_sum. rewrite rsum_S_l. rewrite (rsum_0 (S n)).
  2:{ intros q Hq. apply rsum_0. intros j Hj. rewrite (part_edge n 0 q pos OpC); auto; [ring|]. apply HF; lia. }
  match goal with |- ?x = ?y => change (@eq R x y) end. rewrite Rplus_0_l.
  apply rsum_ext. intros p Hp. apply rsum_ext. intros q Hq. apply rsum_ext. intros j Hj.
  etransitivity.
  { apply (rsum_ext (nvals (F p q)) _ (fun i => weight beta egs (energy (F (S p) q) j) * bra2 n (lad OpC pos) (F p q) (F (S p) q) i j)).
    intros i Hi. cbv beta. unfold pair_weight. rewrite Rmult_assoc, fermi_weight. change (Cr pos) with (lad OpCdg pos). rewrite (bra2_adj n OpCdg). simpl. ring. }
  rewrite rsum_scal_l. f_equal. apply (bra2_sum n (S p) p q pos OpC); simpl; auto; try (apply HF; lia). apply HB; lia.
Qed.

Lemma is_sector_bound p q s : is_sector RRing n p q s -> forall x, In x (ups RRing s) -> (x < 2 ^ N.of_nat n)%N.
Proof. intros (P1 & P2 & P3 & _ & EU & _) x Hx. apply (In_nth _ _ 0%N) in Hx. destruct Hx as (k & Hk & <-). exact (proj1 (in_states n p _ _ P1 P3 EU Hk)). Qed.

Lemma stored_ok p q s o : is_sector RRing n p q s -> eigenbasis s -> stored s o -> sector_ok n o.
Proof.
  intros IS [NV ON] (SS & SV & MA & EN). pose proof IS as (P1 & P2 & P3 & P4 & EU & ED & _).
  exists p, q, (ups RRing s), (dws RRing s). split; [exact P1|]. split; [exact P2|]. split; [exact P3|]. split; [now rewrite SS|]. split; [exact EU|]. split; [exact ED|].
  rewrite SV. change (length (s_vals RRing s)) with (nvals s). rewrite (Nat.mul_comm (length (ups RRing s))). split; [exact MA|].
  intros j Hj. fold (sdim RRing s). rewrite (rsum_ext _ _ (fun i => nth i (vec RRing s j) 0 * nth i (vec RRing s j) 0)) by (intros i Hi; now rewrite EN).
  rewrite NV in Hj. specialize (ON j j Hj Hj). rewrite Nat.eqb_refl in ON. exact ON.
Qed.
Lemma stored_expect p q s o j : is_sector RRing n p q s -> stored s o -> (j < nvals s)%nat -> sector_expect n o pos j = part OpC pos s j.
Proof.
  intros IS (SS & SV & MA & EN) Hj. pose proof IS as (P1 & P2 & P3 & P4 & EU & ED & _). unfold sector_expect. rewrite SS, P4, SV.
  change (length (s_vals RRing s)) with (nvals s). rewrite (Nat.mul_comm (length (ups RRing s))). fold (sdim RRing s). unfold expect, part. fold (sdim RRing s).
  apply rsum_ext. intros a Ha. rewrite (occ_fock_up n) by (auto; exact (is_sector_bound p q s IS)). rewrite EN by auto.
  unfold okop, check_occupation. rewrite check_full_spec. destruct (occ _ pos); simpl; ring.
Qed.

Variable scts : list osct.
Hypothesis HS : Forall2 (fun e o => stored (snd e) o) es scts.

Lemma scts_ok o : In o scts -> sector_ok n o.
Proof.
  intros I. assert (G : exists e, In e es /\ stored (snd e) o).
  { clear - HS I. induction HS as [|e o' l l' H F2 IH]; [destruct I|]. destruct I as [->|I]; [exists e; auto using in_eq|]. destruct (IH F2 I) as (e' & I' & S'). exists e'. auto using in_cons. }
  destruct G as ([key s] & I' & ST). apply (proj1 (proj2 HF)) in I'. destruct I' as (p & q & Hp & Hq & -> & ->). cbn [snd] in ST.
  apply (stored_ok p q (F p q)); auto. apply HF; auto.
Qed.
Lemma scts_bsum (f : osct -> R) (f' : nat -> nat -> R) : (forall p q o, (p <= n)%nat -> (q <= n)%nat -> stored (F p q) o -> f o = f' p q) ->
  bsum (K := RRing) f scts = rsum (S n) (fun p => rsum (S n) (fun q => f' p q)).
Proof.
  intros H. transitivity (@bsum RRing _ (fun key => match key with [p; q] => f' p q | _ => 0 end) (map fst es)).
  - assert (HI : forall e, In e es -> exists p q, (p <= n)%nat /\ (q <= n)%nat /\ e = ([p; q], F p q)).
    { intros [key s] I. apply (proj1 (proj2 HF)) in I. destruct I as (p & q & Hp & Hq & -> & ->). eauto. }
    clear - HS H HI. induction HS as [|e o l l' S F2 IH]; [reflexivity|]. cbn [map bsum].
    destruct (HI e (in_eq _ _)) as (p & q & Hp & Hq & ->). cbn [fst snd] in *. rewrite (H p q o) by auto. rewrite (IH F2); [reflexivity|]. intros e' I. apply HI. now right.
  - rewrite (bsum_perm RRing _ _ _ (keys_perm n es F HF)). exact (grid_sum RRing n _).
Qed.
Lemma scts_Z : thermal_Z scts egs beta = Zsum n beta egs F.
Proof.
  unfold thermal_Z, Zsum. apply (scts_bsum _ (fun p q => rsum (nvals (F p q)) (fun i => weight beta egs (energy (F p q) i)))).
  intros p q o Hp Hq (_ & SV & _). unfold boltzmann. rewrite SV. reflexivity.
Qed.
Lemma scts_thermal : thermal scts egs beta n pos = occ_sum / Zsum n beta egs F.
Proof.
  unfold thermal. rewrite scts_Z. f_equal. unfold occ_sum.
  apply (scts_bsum _ (fun p q => rsum (nvals (F p q)) (fun j => weight beta egs (energy (F p q) j) * part OpC pos (F p q) j))).
  intros p q o Hp Hq ST. pose proof ST as (_ & SV & _). unfold boltzmann. rewrite SV. apply rsum_ext. intros j Hj. rewrite (stored_expect p q (F p q) o j); auto. apply HF; auto.
Qed.
Lemma scts_nonempty : existsb (fun s => negb (length (o_vals s) =? 0)%nat) scts = true.
Proof.
  pose proof (Zsum_pos n es F beta egs pos HF Hpos HB) as P. rewrite <- scts_Z in P. destruct (existsb _ scts) eqn:E; [reflexivity|exfalso].
  apply (Rlt_irrefl 0). eapply Rlt_le_trans; [exact P|]. apply Req_le. unfold thermal_Z. clear - E. induction scts as [|o l IH]; [reflexivity|]. cbn [existsb] in E. apply orb_false_iff in E.
  destruct E as [E1 E2]. cbn [bsum]. etransitivity; [apply (f_equal2 Rplus); [|exact (IH E2)]|apply Rplus_0_l].
  apply negb_false_iff, Nat.eqb_eq in E1. apply rsum_0. intros k Hk. exfalso. rewrite E1 in Hk. inversion Hk.
Qed.

Theorem occupation_family : exists g u d, build_gf_exact n es beta egs pos 0 = Ok g /\ fst (get_occupation scts egs beta n) = Ok (u, d) /\
  rsum (length (gf_q g)) (fun k => nth k (gf_q g) 0 / gf_Z g * fermi (beta * nth k (gf_l g) 0)) = nth pos u 0.
Proof.
  destruct (gf_exact_weight n es F beta egs pos HF Hpos HB) as (g & E & _ & ZP & ZE & _).
  destruct (thermal_ok scts egs beta n scts_ok scts_nonempty) as (u & d & EO & _ & _ & HK).
  exists g, u, d. split; [exact E|]. split; [exact EO|]. destruct (HK pos Hpos) as (-> & _). rewrite scts_thermal, <- ZE.
  rewrite (rsum_ext _ _ (fun k => nth k (gf_q g) 0 * fermi (beta * nth k (gf_l g) 0) * / gf_Z g)) by (intros; unfold Rdiv; ring).
  rewrite rsum_scal_r, (gf_occ_sum g E). reflexivity.
Qed.

Lemma gf_pole_function g : length (gf_q g) = length (gf_l g) -> gf_Z g <> 0 ->
  pole_function (length (gf_q g)) (fun k => nth k (gf_q g) 0 / gf_Z g) (fun k => nth k (gf_l g) 0) (gf_fun g).
Proof.
  intros L Z z Hz. unfold gf_fun. rewrite gf_call_poles by exact L.
  assert (ZE : zpoint z 0 = z) by (rewrite zpoint_value; destruct z; cbn; f_equal; ring). rewrite ZE. unfold poles. rewrite L.
  assert (D : forall c, cxdiv c (rcx (gf_Z g)) = cxmul (rcx (/ gf_Z g)) c).
  { intros [c1 c2]. apply cx_eq; cbv [cxdiv cxmul cxinv cxn2 rcx re im fst snd]; field; auto; nra. }
  rewrite D, <- csum_scal_l. apply csum_ext. intros i _. cbv beta.
  assert (P : 0 < (re z - nth i (gf_l g) 0) * (re z - nth i (gf_l g) 0) + im z * im z) by now apply den_pos.
  apply cx_eq; cbv [cxdiv cxmul cxinv cxn2 cxsub cxadd cxopp rcx re im fst snd] in *; field; split; auto; lra.
Qed.

Theorem occupation_integral geigh kB T : geigh_contract geigh -> kB * T <> 0 -> beta = / (kB * T) -> exists g u d,
  build_gf_exact n es beta egs pos 0 = Ok g /\ fst (get_occupation scts egs beta n) = Ok (u, d) /\
  forall L eps, (forall x, In x (gf_l g) -> Rabs x <= L) -> 0 < eps -> exists n0, forall nzp Rarg, (n0 <= nzp)%nat ->
    exists x, integrate_gf geigh kB (gf_fun g) 0 T nzp Rarg = Ok x /\ Rabs (x - nth pos u 0) <= (L / radius) ^ 2 / 2 + eps.
Proof.
  intros G HT HBeta. destruct occupation_family as (g & u & d & E & EO & S). exists g, u, d. split; [exact E|]. split; [exact EO|].
  intros L eps HL He. destruct (build_values n es F beta egs pos HF Hpos) as (g' & E' & LE & _). rewrite E in E'. injection E' as <-.
  destruct (gf_exact_weight n es F beta egs pos HF Hpos HB) as (g' & E' & NN & ZP & _ & SUM). rewrite E in E'. injection E' as <-.
  destruct (integrate_limit geigh kB (gf_fun g) 0 T _ _ _ G HT (gf_pole_function g LE (Rgt_not_eq _ _ ZP)) eps He) as (n0 & H). exists n0. intros nzp Rarg Hn.
  destruct (H nzp Rarg Hn) as (x & EX & B). exists x. split; [exact EX|].
  rewrite (rsum_ext _ _ (fun k => nth k (gf_q g) 0 / gf_Z g * fermi (beta * nth k (gf_l g) 0))) in B.
  2:{ intros i _. cbv beta. f_equal. f_equal. rewrite HBeta. unfold Rdiv. ring. }
  rewrite S in B. eapply Rle_trans; [exact B|]. apply Rplus_le_compat_r.
  assert (RP : 0 < radius) by (unfold radius; lra).
  eapply Rle_trans; [apply (rsum_le _ _ (fun k => nth k (gf_q g) 0 * (/ gf_Z g * ((L / radius) ^ 2 / 2))))|].
  - intros k Hk. cbv beta. assert (Q0 : 0 <= nth k (gf_q g) 0) by (apply NN, nth_In; exact Hk).
    rewrite Rabs_pos_eq by (apply Rmult_le_pos; [exact Q0|left; now apply Rinv_0_lt_compat]). unfold Rdiv at 1. rewrite Rmult_assoc.
    apply Rmult_le_compat_l; [exact Q0|]. apply Rmult_le_compat_l; [left; now apply Rinv_0_lt_compat|]. unfold Rdiv at 1 3. apply Rmult_le_compat_r; [lra|].
    set (e := nth k (gf_l g) 0). assert (AL : Rabs e <= L) by (apply HL, nth_In; congruence).
    assert (E2 : e * e <= L * L) by (rewrite <- (Rabs_pos_eq (e * e)) by apply Rle_0_sqr; rewrite Rabs_mult; apply Rmult_le_compat; auto using Rabs_pos).
    assert (D1 : 0 < radius * radius) by now apply Rmult_lt_0_compat. pose proof (Rle_0_sqr e) as SQ. unfold Rsqr in SQ.
    apply (Rmult_le_reg_r (radius * radius + e * e)); [lra|]. unfold Rdiv. rewrite Rmult_assoc, Rinv_l by lra.
    replace ((L * / radius) ^ 2) with (L * L * / (radius * radius)) by (cbn [pow]; field; lra).
    replace (L * L * / (radius * radius) * (radius * radius + e * e)) with (L * L + L * L * (e * e) * / (radius * radius)) by (field; lra).
    assert (0 <= L * L * (e * e) * / (radius * radius)) by (apply Rmult_le_pos; [apply Rmult_le_pos; [lra|exact SQ]|left; now apply Rinv_0_lt_compat]). lra.
  - rewrite rsum_scal_r, SUM. right. field. lra.
Qed.
End Family.

Section Exact.
Variables (big : R -> bool) (half : R) (n : nat) (h : hmat RRing) (fl : hflags) (V : inter RRing) (hf : bool) (mu : R) (z : option (nat -> R)).
Variable U : nat -> nat -> R.
Variable eigh : dense RRing -> res (list R * list (list R)).
Variable eigsh : nat -> Z -> (list R -> res (list R)) -> res (list R * list (list R)).
Hypothesis MO : model_ok half n h fl V U. Hypothesis HC : eigh_contract eigh.
Variables (es : espace RRing) (e : R) (scts : list osct).
Hypothesis HB : build_espace RRing Rleb big half eigh eigsh n h fl V hf mu z None "sz" = Ok (es, Some e).
Hypothesis HS : Forall2 (fun e o => stored (snd e) o) es scts.

Theorem occupation_exact beta pos : (pos < n)%nat -> exists g u d, build_gf_exact n es beta e pos 0 = Ok g /\ fst (get_occupation scts e beta n) = Ok (u, d) /\
  rsum (length (gf_q g)) (fun k => nth k (gf_q g) 0 / gf_Z g * fermi (beta * nth k (gf_l g) 0)) = nth pos u 0.
Proof.
  intros Hpos. destruct MO as ((Hn & Hn' & Hh) & HU & HJ & (HSx & HSp) & HSy & Hset).
  destruct (exact_family big half n h fl V hf mu z U Hn Hn' Hh HU HJ HSx HSp HSy Hset eigh eigsh HC es (Some e) HB) as (F & LF & EB & _).
  exact (occupation_family n es F beta e pos LF Hpos EB scts HS).
Qed.
Theorem occupation_exact_integral geigh kB T pos : (pos < n)%nat -> geigh_contract geigh -> kB * T <> 0 -> exists g u d,
  build_gf_exact n es (/ (kB * T)) e pos 0 = Ok g /\ fst (get_occupation scts e (/ (kB * T)) n) = Ok (u, d) /\
  forall L eps, (forall x, In x (gf_l g) -> Rabs x <= L) -> 0 < eps -> exists n0, forall nzp Rarg, (n0 <= nzp)%nat ->
    exists x, integrate_gf geigh kB (gf_fun g) 0 T nzp Rarg = Ok x /\ Rabs (x - nth pos u 0) <= (L / radius) ^ 2 / 2 + eps.
Proof.
  intros Hpos G HT. destruct MO as ((Hn & Hn' & Hh) & HU & HJ & (HSx & HSp) & HSy & Hset).
  destruct (exact_family big half n h fl V hf mu z U Hn Hn' Hh HU HJ HSx HSp HSy Hset eigh eigsh HC es (Some e) HB) as (F & LF & EB & _).
  exact (occupation_integral n es F (/ (kB * T)) e pos LF Hpos EB scts HS geigh kB T G HT eq_refl).
Qed.

(** The columns of a sector as a Fortran-ordered array. *)
Definition as_array (s : sct RRing) : osct :=
  mkosct (s_states RRing s) (s_vals RRing s) (mkarr RRing true [sdim RRing s; nvals s] (match s_vecs RRing s with Cols _ cs => concat cs | _ => [] end)).
End Exact.

Lemma nth_concat_cols (d : nat) (cs : list (list R)) i j : (forall x, In x cs -> length x = d) -> (i < d)%nat -> (j < length cs)%nat -> nth (i + j * d) (concat cs) 0 = nth i (nth j cs []) 0.
Proof.
  revert j. induction cs as [|c cs IH]; intros j H Hi Hj; [cbn in Hj; lia|]. cbn [concat]. destruct j as [|j].
  - rewrite Nat.mul_0_l, Nat.add_0_r. rewrite app_nth1; [reflexivity|]. pose proof (H c (in_eq _ _)). lia.
  - pose proof (H c (in_eq _ _)) as LC. rewrite app_nth2 by nia. rewrite LC. replace (i + S j * d - d)%nat with (i + j * d)%nat by nia. cbn [nth]. apply IH; auto using in_cons. cbn [length] in Hj. lia.
Qed.
Lemma concat_length (d : nat) (cs : list (list R)) : (forall x, In x cs -> length x = d) -> length (concat cs) = (length cs * d)%nat.
Proof. induction cs as [|c cs IH]; intros H; [reflexivity|]. cbn [concat]. rewrite app_length, IH, (H c (in_eq _ _)) by auto using in_cons. cbn [length]. lia. Qed.
Lemma as_array_stored n p q s : is_sector RRing n p q s -> stored s (as_array s).
Proof.
  intros (_ & _ & _ & _ & _ & _ & cs & SV & LC & LX). unfold as_array. rewrite SV. split; [reflexivity|]. split; [reflexivity|].
  assert (LX' : forall x, In x cs -> length x = sdim RRing s) by (intros x Hx; rewrite (LX x Hx); apply Nat.mul_comm). split.
  - split; [reflexivity|]. cbn. etransitivity; [exact (concat_length (sdim RRing s) cs LX')|]. etransitivity; [exact (f_equal (fun m => (m * sdim RRing s)%nat) LC)|]. apply Nat.mul_comm.
  - intros i j Hi Hj. unfold entry, vec. rewrite SV. cbn. apply (nth_concat_cols (sdim RRing s)); auto. exact (eq_ind_r (fun m => (j < m)%nat) Hj LC).
Qed.
Lemma as_array_family n es F : lists_family n es F -> Forall2 (fun e o => stored (snd e) o) es (map (fun e => as_array (snd e)) es).
Proof.
  intros (_ & HF & HI).
  assert (H : forall e, In e es -> stored (snd e) (as_array (snd e))).
  { intros [key s] I. apply HF in I. destruct I as (p & q & Hp & Hq & -> & ->). cbn [snd]. apply (as_array_stored n p q). auto. }
  clear - H. induction es as [|e l IH]; constructor; [apply H, in_eq|]. apply IH. auto using in_cons.
Qed.
