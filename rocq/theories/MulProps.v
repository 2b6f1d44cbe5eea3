(** C134: spin multiplets in the stored spectra. *)
From Coq Require Import String Reals List Arith NArith ZArith Bool Lia Lra.
From Verif Require Import Base RBase RLin CBase LocalModel CsrSpec MbModel MbSpec MatvecModel EspaceModel ProjSpec GfSpec ExactSpec EighProofs ExactProps RelSpec MulMainProofs.
Import ListNotations.
Local Open Scope R_scope.
Local Notation build := (build_espace RRing Rleb).
Local Notation mult s E := (count_occ Req_EM_T (s_vals RRing s) E).

(** Turning an up into a down electron keeps every energy, with its multiplicity, as long as there are more up electrons. *)
Theorem C134_lower big half n h fl V hf mu z U eigh eigsh es e p q s s' E : model_ok half n h fl V U -> inter_Jx RRing V = None -> spin_free n h -> eigh_contract eigh ->
  build big half eigh eigsh n h fl V hf mu z None "sz" = Ok (es, Some e) -> (q <= p)%nat -> In ([S p; q], s) es -> In ([p; S q], s') es -> (mult s E <= mult s' E)%nat.
Proof. exact (fun MO HJ HS HC HB => multiplets big half n h fl V hf mu z U MO HJ HS eigh eigsh HC es e HB p q s s' E). Qed.
(** The spectra of opposite spin projections agree. *)
Theorem C134_flip big half n h fl V hf mu z U eigh eigsh es e p q s s' : model_ok half n h fl V U -> spin_free n h -> eigh_contract eigh ->
  build big half eigh eigsh n h fl V hf mu z None "sz" = Ok (es, Some e) -> In ([p; q], s) es -> In ([q; p], s') es -> s_vals RRing s' = s_vals RRing s.
Proof. exact (fun MO HS HC HB => spin_spectrum big half n h fl V hf mu z U MO HS eigh eigsh HC es e HB p q s s'). Qed.
(** An energy with p up and q < p down electrons occurs at each of the p - q + 1 spin projections between p - q and q - p. *)
Theorem C134_members big half n h fl V hf mu z U eigh eigsh es e p q k s s' E : model_ok half n h fl V U -> inter_Jx RRing V = None -> spin_free n h -> eigh_contract eigh ->
  build big half eigh eigsh n h fl V hf mu z None "sz" = Ok (es, Some e) -> (q + k <= p)%nat -> In ([p; q], s) es -> In ([(p - k)%nat; (q + k)%nat], s') es -> (mult s E <= mult s' E)%nat.
Proof. exact (fun MO HJ HS HC HB => members big half n h fl V hf mu z U MO HJ HS eigh eigsh HC es e HB p q k s s' E). Qed.
(** The sectors with equal or nearly equal spins hold every energy, and the ground state energy among them. *)
Theorem C134_lowest big half n h fl V hf mu z U eigh eigsh es e p q s s' E : model_ok half n h fl V U -> inter_Jx RRing V = None -> spin_free n h -> eigh_contract eigh ->
  build big half eigh eigsh n h fl V hf mu z None "sz" = Ok (es, Some e) -> In ([p; q], s) es -> In ([(p + q - (p + q) / 2)%nat; ((p + q) / 2)%nat], s') es -> (mult s E <= mult s' E)%nat.
Proof. exact (fun MO HJ HS HC HB => lowest_spin big half n h fl V hf mu z U MO HJ HS eigh eigsh HC es e HB p q s s' E). Qed.
Theorem C134_ground big half n h fl V hf mu z U eigh eigsh es e : model_ok half n h fl V U -> inter_Jx RRing V = None -> spin_free n h -> eigh_contract eigh ->
  build big half eigh eigsh n h fl V hf mu z None "sz" = Ok (es, Some e) -> exists m s, In ([(m - m / 2)%nat; (m / 2)%nat], s) es /\ In e (s_vals RRing s).
Proof. exact (fun MO HJ HS HC HB => ground_sector big half n h fl V hf mu z U MO HJ HS eigh eigsh HC es e HB). Qed.
(** With exchange the multiplets are broken: two sites, hopping -1, Jx = 1, no other interaction.  The
    parallel pair has the energy -1, which no state with opposite spins has. *)
Theorem C134_exchange_refuted eigh eigsh es e : eigh_contract eigh -> build (fun _ => true) (/ 2) eigh eigsh 2 xch_h xch_fl xch_V false 0 None None "sz" = Ok (es, Some e) ->
  model_ok (/ 2) 2 xch_h xch_fl xch_V xch_U /\ spin_free 2 xch_h /\
  exists s s', In ([2%nat; 0%nat], s) es /\ In ([1%nat; 1%nat], s') es /\ In (-1) (s_vals RRing s) /\ ~ In (-1) (s_vals RRing s').
Proof. exact (fun HC HB => conj xch_ok (conj (fun x y _ _ => eq_refl) (exchange_breaks eigh eigsh HC es e HB))). Qed.
Print Assumptions C134_lower.
Print Assumptions C134_flip.
Print Assumptions C134_members.
Print Assumptions C134_lowest.
Print Assumptions C134_ground.
Print Assumptions C134_exchange_refuted.

(** The dimer of C85, with its two electrons parallel: the energy 2 mu is met again with opposite spins. *)
Lemma dim_free : spin_free 2 dim_h.
Proof. intros x y _ _. reflexivity. Qed.
Example C134_ex : exists es e s s' v, build (fun _ => true) (/ 2) real_eigh (fun _ _ _ => Err ValueError) 2 dim_h dim_fl (VArray RRing dim_U) false (-1) None None "sz" = Ok (es, Some e) /\
  In ([2%nat; 0%nat], s) es /\ In ([1%nat; 1%nat], s') es /\ s_vals RRing s = [v] /\ v = -2 /\ In (-2) (s_vals RRing s').
Proof.
  destruct C85_ex as (es & e & E & _). 
  assert (H : exists s s' v, In ([2%nat; 0%nat], s) es /\ In ([1%nat; 1%nat], s') es /\ s_vals RRing s = [v] /\ v = -2) by exact (dimer_triplet _ _ es e C85_contract E).
  destruct H as (s & s' & v & I & I' & EV & EE). exists es, e, s, s', v. do 5 (split; [assumption|]).
  pose proof (C134_lower _ _ _ _ _ _ _ _ _ _ _ _ es e 1 0 s s' (-2) dim_ok eq_refl dim_free C85_contract E ltac:(lia) I I') as L.
  apply (count_occ_In Req_EM_T). rewrite EV, EE in L. rewrite count_occ_cons_eq in L by reflexivity. lia.
Qed.
(** The hypotheses of the exchange case are met as well. *)
Example C134_ex_exchange : exists es e, build (fun _ => true) (/ 2) real_eigh (fun _ _ _ => Err ValueError) 2 xch_h xch_fl xch_V false 0 None None "sz" = Ok (es, Some e).
Proof.
  destruct (C85_ground (fun _ => true) (/ 2) 2 xch_h xch_fl xch_V false 0 None xch_U real_eigh (fun _ _ _ => Err ValueError) xch_ok C85_contract) as (es & e & E & _). exists es, e. exact E.
Qed.
