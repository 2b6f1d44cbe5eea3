(** Property C127: the Lanczos Green's function of a partially filled dictionary. *)
From Coq Require Import Reals String List Arith NArith ZArith Bool Lia Lra Permutation.
From Verif Require Import Base RBase RLin CBase OperatorsSpec FockSpec SectorModel LocalModel MatvecModel EspaceModel ProjModel ProjSpec LanczosModel LanczosSpec
  CfModel CfSpec GfModel GfSpec GflModel GflSpec GflInstProofs GflExProofs VisSpec VisProofs VisMainProofs VisExProofs.
Import ListNotations.
Local Open Scope R_scope.

(** C127: for any dictionary the function is a sum over the states [visits]
    divided by the partition function of the states [finally]; the latter is the
    dictionary left behind. *)
Theorem C127_green solve mvop tridiag eigh n M es beta egs ispin pos repr separate :
  (n <= 32)%nat -> (pos < n)%nat -> (ispin = 0 \/ ispin = 1)%Z -> repr = "cf"%string \/ repr = "sp"%string /\ eigh_sound eigh ->
  sectors n es -> operators n mvop M -> solver n solve M ->
  krylov n mvop tridiag ispin (visits solve n ispin [] es) (fun op p' q' s i a => exc n op ispin pos p' q' s i a) 11 ->
  exists ge gh, build_gf_lanczos solve mvop tridiag eigh n es beta egs pos repr ispin separate = Ok (finally solve n ispin es, ge, gh) /\
  forall e eta X, im (zpoint e eta) <> 0 -> resolved n M ispin (visits solve n ispin [] es) pos (zpoint e eta) X ->
    gl_call ge e eta = Ok (green_over n beta egs ispin (visits solve n ispin [] es) (finally solve n ispin es) pos X (ops_e separate)) /\
    gl_call gh e eta = Ok (green_over n beta egs ispin (visits solve n ispin [] es) (finally solve n ispin es) pos X (ops_h separate)).
Proof. exact (gf_lanczos_visits solve mvop tridiag eigh n M es beta egs ispin pos repr separate). Qed.
Print Assumptions C127_green.

(** The systems it refers to can be solved, and the visited sectors are sectors with eigenstates. *)
Theorem C127_solvable solve n mvop M es ispin pos z : (n <= 32)%nat -> sectors n es -> operators n mvop M -> solver n solve M -> im z <> 0 ->
  exists X, resolved n M ispin (visits solve n ispin [] es) pos z X.
Proof. exact (visits_resolved solve n mvop M es ispin pos z). Qed.
Print Assumptions C127_solvable.
Theorem C127_visited solve n M ispin hits es : (n <= 32)%nat -> solver n solve M -> sectors n es ->
  sectors n (visits solve n ispin hits es) /\ map fst (visits solve n ispin hits es) = map fst es /\
  (eigenstates n M es -> eigenstates n M (visits solve n ispin hits es)).
Proof.
  exact (fun Hn Hs HES => conj (visits_sectors solve n M ispin Hn Hs hits es HES) (conj (visits_keys solve n ispin es hits) (visits_eigen solve n M Hn Hs ispin hits es HES))).
Qed.
Print Assumptions C127_visited.

(** The divisor is never less than the weight of the states summed over. *)
Theorem C127_weight solve mvop n M ispin beta egs es : (n <= 32)%nat -> operators n mvop M -> solver n solve M -> sectors n es -> eigenstates n M es ->
  Zof beta egs es <= Zof beta egs (visits solve n ispin [] es) <= Zof beta egs (finally solve n ispin es).
Proof. exact (fun Hn Hop Hs => visits_le solve mvop n M Hn Hop Hs ispin beta egs es). Qed.
Print Assumptions C127_weight.

(** When the small sectors are complete nothing changes. *)
Theorem C127_settled solve n ispin es : sectors n es -> settled n solve es -> visits solve n ispin [] es = es /\ finally solve n ispin es = es.
Proof. exact (visits_settled solve n ispin es). Qed.
Print Assumptions C127_settled.

(** Refuted: that the function depends only on the content of the dictionary, or
    that the divisor is the weight of the states summed over. *)
Theorem C127_order_refuted : exists es es', Permutation es es' /\ sectors 2 es /\ eigenstates 2 ex_M es /\ called es <> called es'.
Proof. exact order_matters. Qed.
Print Assumptions C127_order_refuted.
Theorem C127_weight_refuted : sectors 2 cut_es /\ eigenstates 2 ex_M cut_es /\ Zof 0 0 (visits ex_solve 2 0 [] cut_es) = 2 /\ Zof 0 0 (finally ex_solve 2 0 cut_es) = 3.
Proof. exact (conj cut_sectors (conj cut_eigen (conj (proj1 cut_Z) (proj1 (proj2 cut_Z))))). Qed.
Print Assumptions C127_weight_refuted.

(** One electron in the lower of two states, and the vacuum: removing the electron
    reaches the vacuum first, adding one to the vacuum completes the sector after
    it has been summed over. *)
Example C127_ex : visits ex_solve 2 0 [] cut_es = cut_es /\ finally ex_solve 2 0 cut_es = [([1; 0]%nat, cut_full); ([0; 0]%nat, ex_vac)] /\
  visits ex_solve 2 0 [] swapped_es = [([0; 0]%nat, ex_vac); ([1; 0]%nat, cut_full)] /\
  called cut_es = Ok (0, - (2 / 3)) /\ called swapped_es = Ok (1 / 6, - (5 / 6)).
Proof. exact (conj (proj1 cut_visits) (conj (proj1 (proj2 cut_visits)) (conj (proj2 (proj2 cut_visits)) (conj cut_called swapped_called)))). Qed.
Example C127_ex_targets : targets 2 0 [1; 0]%nat = [[2; 0]; [0; 0]]%nat /\ targets 2 1 [1; 0]%nat = [[1; 1]]%nat /\ targets 2 0 [0; 1]%nat = [[1; 1]]%nat.
Proof. repeat split. Qed.
