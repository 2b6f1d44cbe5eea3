(** C93: the occupation from the Green's function and from the eigenvectors agree. *)
From Coq Require Import String Reals List Arith NArith ZArith Bool Lia Lra.
From Verif Require Import Base RBase RLin CBase LocalModel MatvecModel MbModel MbSpec EspaceModel ProjSpec CfModel GfModel GfSpec GfMoreProofs GmSpec ObsModel ObsSpec FermiModel FermiSpec FermiFinalProofs
  DedModel ExactSpec EighProofs ExactProps ExactMoreProofs OccSpec OccProofs.
Import ListNotations.
Local Open Scope R_scope.

(** The poles of the Green's function of gf_exact.py, filled with the Fermi function,
    give the thermal occupation that observs.py computes from the vectors, for every
    model, temperature and site. *)
Theorem C93_occupation big half n h fl V hf mu z U eigh eigsh es e scts beta pos : model_ok half n h fl V U -> eigh_contract eigh ->
  build_espace RRing Rleb big half eigh eigsh n h fl V hf mu z None "sz" = Ok (es, Some e) -> Forall2 (fun e o => stored (snd e) o) es scts -> (pos < n)%nat ->
  exists g u d, build_gf_exact n es beta e pos 0%Z = Ok g /\ fst (get_occupation scts e beta n) = Ok (u, d) /\
    rsum (length (gf_q g)) (fun k => nth k (gf_q g) 0 / gf_Z g * fermi (beta * nth k (gf_l g) 0)) = nth pos u 0.
Proof. exact (fun MO HC HB HS Hpos => occupation_exact big half n h fl V hf mu z U eigh eigsh MO HC es e scts HB HS beta pos Hpos). Qed.
Print Assumptions C93_occupation.

(** Hence integrate_gf of that Green's function, at the same temperature and the
    chemical potential 0, tends to this occupation up to the error of the finite radius. *)
Theorem C93_integral big half n h fl V hf mu z U eigh eigsh geigh kB T es e scts pos : model_ok half n h fl V U -> eigh_contract eigh -> geigh_contract geigh ->
  build_espace RRing Rleb big half eigh eigsh n h fl V hf mu z None "sz" = Ok (es, Some e) -> Forall2 (fun e o => stored (snd e) o) es scts -> (pos < n)%nat -> kB * T <> 0 ->
  exists g u d, build_gf_exact n es (/ (kB * T)) e pos 0%Z = Ok g /\ fst (get_occupation scts e (/ (kB * T)) n) = Ok (u, d) /\
    forall L eps, (forall x, In x (gf_l g) -> Rabs x <= L) -> 0 < eps -> exists n0, forall nzp Rarg, (n0 <= nzp)%nat ->
      exists x, integrate_gf geigh kB (gf_fun g) 0 T nzp Rarg = Ok x /\ Rabs (x - nth pos u 0) <= (L / radius) ^ 2 / 2 + eps.
Proof. exact (fun MO HC G HB HS Hpos HT => occupation_exact_integral big half n h fl V hf mu z U eigh eigsh MO HC es e scts HB HS geigh kB T pos Hpos G HT). Qed.
Print Assumptions C93_integral.

(** The dimer of C85 at infinite temperature: half an electron of each spin per site. *)
Example C93_ex : exists es e scts u d, build_espace RRing Rleb (fun _ => true) (/ 2) real_eigh (fun _ _ _ => Err ValueError) 2 dim_h dim_fl (VArray RRing dim_U) false (-1) None None "sz" = Ok (es, Some e) /\
  Forall2 (fun e o => stored (snd e) o) es scts /\ fst (get_occupation scts e 0 2) = Ok (u, d) /\ nth 0 u 0 = / 2 /\ nth 1 u 0 = / 2.
Proof.
  destruct (C85_ground (fun _ => true) (/ 2) 2 dim_h dim_fl (VArray RRing dim_U) false (-1) None dim_U real_eigh (fun _ _ _ => Err ValueError) dim_ok C85_contract) as (es & e & E & _).
  pose proof dim_ok as ((Hn & Hn' & Hh) & HU & HJ & (HSx & HSp) & HSy & Hset).
  destruct (exact_family (fun _ => true) (/ 2) 2 dim_h dim_fl (VArray RRing dim_U) false (-1) None dim_U Hn Hn' Hh HU HJ HSx HSp HSy Hset real_eigh (fun _ _ _ => Err ValueError) C85_contract es (Some e) E) as (F & LF & _).
  pose proof (as_array_family 2 es F LF) as ST. exists es, e, (map (fun e => as_array (snd e)) es).
  assert (H : forall pos, (pos < 2)%nat -> exists u d, fst (get_occupation (map (fun e => as_array (snd e)) es) e 0 2) = Ok (u, d) /\ nth pos u 0 = / 2).
  { intros pos Hpos. destruct (C93_occupation (fun _ => true) (/ 2) 2 dim_h dim_fl (VArray RRing dim_U) false (-1) None dim_U real_eigh (fun _ _ _ => Err ValueError) es e _ 0 pos dim_ok C85_contract E ST Hpos) as (g & u & d & G & O & S).
    exists u, d. split; [exact O|]. rewrite <- S.
    destruct (C86_thermal (fun _ => true) (/ 2) 2 dim_h dim_fl (VArray RRing dim_U) false (-1) None dim_U real_eigh (fun _ _ _ => Err ValueError) es e 0 dim_ok C85_contract E (Rle_refl 0) pos Hpos) as (g' & G' & ZB & _ & SUM & _).
    rewrite G in G'. injection G' as <-.
    rewrite (rsum_ext _ _ (fun k => nth k (gf_q g) 0 * (/ gf_Z g * / 2))).
    - rewrite rsum_scal_r, SUM. field. lra.
    - intros k _. unfold fermi, Rdiv. rewrite Rmult_0_l, exp_0. field. lra. }
  destruct (H 0%nat ltac:(lia)) as (u & d & O & H0). destruct (H 1%nat ltac:(lia)) as (u' & d' & O' & H1). rewrite O in O'. injection O' as <- <-.
  exists u, d. auto.
Qed.
(** The hypotheses of C93_integral hold for the dimer. *)
Example C93_ex_hyp : exists es e scts g u d, build_espace RRing Rleb (fun _ => true) (/ 2) real_eigh (fun _ _ _ => Err ValueError) 2 dim_h dim_fl (VArray RRing dim_U) false (-1) None None "sz" = Ok (es, Some e) /\
  build_gf_exact 2 es (/ (1 * 3)) e 0 0%Z = Ok g /\ fst (get_occupation scts e (/ (1 * 3)) 2) = Ok (u, d) /\
  forall L, (forall x, In x (gf_l g) -> Rabs x <= L) -> exists n0 x, integrate_gf real_geigh 1 (gf_fun g) 0 3 n0 0 = Ok x /\ Rabs (x - nth 0 u 0) <= (L / radius) ^ 2 / 2 + 1 / 1000.
Proof.
  destruct (C85_ground (fun _ => true) (/ 2) 2 dim_h dim_fl (VArray RRing dim_U) false (-1) None dim_U real_eigh (fun _ _ _ => Err ValueError) dim_ok C85_contract) as (es & e & E & _).
  pose proof dim_ok as ((Hn & Hn' & Hh) & HU & HJ & (HSx & HSp) & HSy & Hset).
  destruct (exact_family (fun _ => true) (/ 2) 2 dim_h dim_fl (VArray RRing dim_U) false (-1) None dim_U Hn Hn' Hh HU HJ HSx HSp HSy Hset real_eigh (fun _ _ _ => Err ValueError) C85_contract es (Some e) E) as (F & LF & _).
  pose proof (as_array_family 2 es F LF) as ST.
  destruct (C93_integral (fun _ => true) (/ 2) 2 dim_h dim_fl (VArray RRing dim_U) false (-1) None dim_U real_eigh (fun _ _ _ => Err ValueError) real_geigh 1 3 es e _ 0%nat dim_ok C85_contract
    (real_geigh_contract) E ST ltac:(lia) ltac:(lra)) as (g & u & d & G & O & H).
  exists es, e, (map (fun e => as_array (snd e)) es), g, u, d. split; [exact E|]. split; [exact G|]. split; [exact O|]. intros L HL.
  destruct (H L (1 / 1000) HL ltac:(lra)) as (n0 & K). destruct (K n0 0 (le_n _)) as (x & X & B). exists n0, x. auto.
Qed.
