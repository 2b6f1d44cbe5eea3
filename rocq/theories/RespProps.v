(** C136: occupations as response of the free energy to the levels. *)
From Coq Require Import String Reals List Arith NArith ZArith Bool Lia Lra.
From Verif Require Import Base RBase RLin LocalModel MatvecModel EspaceModel MbModel MbSpec GfSpec ObsModel DedModel ExactSpec EighProofs ExactProps ExactMoreProofs OccSpec OccProofs RespSpec RespMainProofs.
Import ListNotations.
Local Open Scope R_scope.

(** The -ln Z / beta of the Z in dedlib.py is mean energy minus temperature times the
    entropy that dedlib.py computes. *)
Theorem C136_free kB beta es e : 0 < kB -> 0 < beta ->
  let '(E, Z) := entropy_params (map (fun x => s_vals RRing (snd x)) es) e beta in free_energy beta es e = e + E - 1 / (kB * beta) * calc_entropy kB Z E (1 / (kB * beta)).
Proof. exact (free_entropy kB beta es e). Qed.
Print Assumptions C136_free.

(** Two models with the same hopping and interaction: the change of the free energy
    lies between the changes of the levels times the occupations of either. *)
Theorem C136_response big half n V U hf z beta h mu es e scts h' mu' es' e' scts' : 0 < beta ->
  solved big half n V U hf z h mu es e scts -> solved big half n V U hf z h' mu' es' e' scts' -> same_hopping n h h' ->
  exists u d u' d', fst (get_occupation scts e beta n) = Ok (u, d) /\ fst (get_occupation scts' e' beta n) = Ok (u', d') /\
    work n (fun i => level h' mu' 0 i - level h mu 0 i) (fun i => level h' mu' 1 i - level h mu 1 i) u' d' <= free_energy beta es' e' - free_energy beta es e /\
    free_energy beta es' e' - free_energy beta es e <= work n (fun i => level h' mu' 0 i - level h mu 0 i) (fun i => level h' mu' 1 i - level h mu 1 i) u d.
Proof. exact (solved_response big half n V U hf z beta h mu es e scts h' mu' es' e' scts'). Qed.
Print Assumptions C136_response.

(** Raising one level of one spin never raises its occupation; the difference quotient
    of the free energy lies between the two occupations. *)
Theorem C136_site big half n V U hf z beta h mu es e scts h' mu' es' e' scts' s0 i0 : 0 < beta ->
  solved big half n V U hf z h mu es e scts -> solved big half n V U hf z h' mu' es' e' scts' -> same_hopping n h h' -> (s0 < 2)%nat -> (i0 < n)%nat ->
  (forall s i, (s < 2)%nat -> (i < n)%nat -> (s, i) <> (s0, i0) -> level h' mu' s i = level h mu s i) -> level h mu s0 i0 < level h' mu' s0 i0 ->
  exists u d u' d', fst (get_occupation scts e beta n) = Ok (u, d) /\ fst (get_occupation scts' e' beta n) = Ok (u', d') /\
    nth i0 (if (s0 =? 0)%nat then u' else d') 0 <= (free_energy beta es' e' - free_energy beta es e) / (level h' mu' s0 i0 - level h mu s0 i0) <= nth i0 (if (s0 =? 0)%nat then u else d) 0.
Proof. exact (solved_site big half n V U hf z beta h mu es e scts h' mu' es' e' scts' s0 i0). Qed.
Print Assumptions C136_site.

(** [mu] is added to the levels, so a larger [mu] never gives more electrons. *)
Theorem C136_mu big half n V U hf z beta h mu es e scts mu' es' e' scts' : 0 < beta ->
  solved big half n V U hf z h mu es e scts -> solved big half n V U hf z h mu' es' e' scts' -> mu < mu' ->
  exists u d u' d', fst (get_occupation scts e beta n) = Ok (u, d) /\ fst (get_occupation scts' e' beta n) = Ok (u', d') /\
    rsum n (fun i => nth i u' 0 + nth i d' 0) <= (free_energy beta es' e' - free_energy beta es e) / (mu' - mu) <= rsum n (fun i => nth i u 0 + nth i d 0).
Proof. exact (solved_mu big half n V U hf z beta h mu es e scts mu' es' e' scts'). Qed.
Print Assumptions C136_mu.

(** Raising levels raises the free energy, by at most the sum of the changes. *)
Theorem C136_bounds big half n V U hf z beta h mu es e scts h' mu' es' e' scts' : 0 < beta ->
  solved big half n V U hf z h mu es e scts -> solved big half n V U hf z h' mu' es' e' scts' -> same_hopping n h h' ->
  (forall s i, (s < 2)%nat -> (i < n)%nat -> level h mu s i <= level h' mu' s i) ->
  0 <= free_energy beta es' e' - free_energy beta es e <= rsum n (fun i => (level h' mu' 0 i - level h mu 0 i) + (level h' mu' 1 i - level h mu 1 i)).
Proof. exact (solved_bounds big half n V U hf z beta h mu es e scts h' mu' es' e' scts'). Qed.
Print Assumptions C136_bounds.

(** The Hubbard dimer of C85 can be solved for every [mu] ... *)
Lemma dimer_solved mu : exists es e scts, solved (fun _ => true) (/ 2) 2 (VArray RRing dim_U) dim_U false None dim_h mu es e scts.
Proof.
  destruct (C85_ground (fun _ => true) (/ 2) 2 dim_h dim_fl (VArray RRing dim_U) false mu None dim_U real_eigh (fun _ _ _ => Err ValueError) dim_ok C85_contract) as (es & e & E & _).
  pose proof dim_ok as ((Hn & Hn' & Hh) & HU & HJ & (HSx & HSp) & HSy & Hset).
  destruct (exact_family (fun _ => true) (/ 2) 2 dim_h dim_fl (VArray RRing dim_U) false mu None dim_U Hn Hn' Hh HU HJ HSx HSp HSy Hset real_eigh (fun _ _ _ => Err ValueError) C85_contract es (Some e) E) as (F & LF & _).
  exists es, e, (map (fun e => as_array (snd e)) es). exists dim_fl, real_eigh, (fun _ _ _ => Err ValueError). split; [exact dim_ok|]. split; [exact C85_contract|]. split; [exact E|]. exact (as_array_family 2 es F LF).
Qed.
(** ... so its filling does not grow when [mu] goes from -1 to 3, and its free energy
    grows by at most 16. *)
Example C136_ex : exists es e scts es' e' scts' u d u' d', solved (fun _ => true) (/ 2) 2 (VArray RRing dim_U) dim_U false None dim_h (-1) es e scts /\
  solved (fun _ => true) (/ 2) 2 (VArray RRing dim_U) dim_U false None dim_h 3 es' e' scts' /\
  fst (get_occupation scts e 5 2) = Ok (u, d) /\ fst (get_occupation scts' e' 5 2) = Ok (u', d') /\
  nth 0 u' 0 + nth 0 d' 0 + (nth 1 u' 0 + nth 1 d' 0) <= nth 0 u 0 + nth 0 d 0 + (nth 1 u 0 + nth 1 d 0) /\
  0 <= free_energy 5 es' e' - free_energy 5 es e <= 16.
Proof.
  destruct (dimer_solved (-1)) as (es & e & scts & S). destruct (dimer_solved 3) as (es' & e' & scts' & S').
  destruct (C136_mu _ _ _ _ _ _ _ 5 _ _ _ _ _ _ _ _ _ ltac:(lra) S S' ltac:(lra)) as (u & d & u' & d' & O & O' & A & B).
  exists es, e, scts, es', e', scts', u, d, u', d'. split; [exact S|]. split; [exact S'|]. split; [exact O|]. split; [exact O'|]. split.
  - pose proof (Rle_trans _ _ _ A B) as C. rewrite !rsum_S, !(rsum_0 0) in C by (intros; lia). lra.
  - pose proof (C136_bounds _ _ _ _ _ _ _ 5 _ _ _ _ _ _ _ _ _ _ ltac:(lra) S S' ltac:(intros s i j _ _ _; reflexivity) ltac:(intros s i _ _; unfold level; lra)) as C.
    rewrite !rsum_S, !(rsum_0 0) in C by (intros; lia). unfold level in C. lra.
Qed.
