(** Property theorems C15-C16: diagonal (local) Hamiltonian. *)
From Coq Require Import List Arith NArith ZArith Bool Permutation.
From Verif Require Import Base OperatorsModel OperatorsSpec FockSpec LocalModel LocalSpec LocalProofs.
Import ListNotations.
Local Open Scope cr_scope.

(** C15: entry iup+idw*dup of the local Hamiltonian is the documented energy. *)
Theorem C15_local_energy : forall (K : CRing) (half : K) n H V up dw hf mu z,
  exists a, build_ham_local K half n H V (StSz up dw) hf mu z = Ok a /\
    length a = (length up * length dw)%nat /\
    forall iup idw sup sdw, nth_error up iup = Some sup -> nth_error dw idw = Some sdw ->
      nth_error a (iup + idw * length up) =
      Some (fock_energy K half n (fun i => H 0%nat i i + mu) (fun i => H 1%nat i i + mu) V
              (match z with Some z => z | None => fun _ => if hf then 1 else 0 end) hf sup sdw).
Proof. exact build_ham_local_sz. Qed.
Print Assumptions C15_local_energy.

(** C15: the same for every order in which the writes of the parallel loop
    are executed. *)
Theorem C15_any_schedule : forall (K : CRing) (half : K) n H V z hf mu up dw ws,
  Permutation ws (flat_map (sz_writes K half n H V z hf mu up dw) (seq 0 (length dw))) ->
  exists a, run_writes K ws (repeat 0 (length up * length dw)) = Ok a /\
    length a = (length up * length dw)%nat /\
    forall iup idw sup sdw, nth_error up iup = Some sup -> nth_error dw idw = Some sdw ->
      nth_error a (iup + idw * length up) =
      Some (fock_energy K half n (fun i => H 0%nat i i + mu) (fun i => H 1%nat i i + mu)
              V z hf sup sdw).
Proof. exact sz_all_schedules. Qed.
Print Assumptions C15_any_schedule.

(** C15: N symmetry.  Both spins are charged the down-spin on-site energy. *)
Theorem C15_local_energy_N : forall (K : CRing) (half : K) n H V states hf mu z, (n <= 16)%nat ->
  (forall s, In s states -> (s < 2 ^ N.of_nat (2 * n))%N) ->
  exists a, build_ham_local K half n H V (StN states) hf mu z = Ok a /\
    length a = length states /\
    forall idu sup sdw, (sup < 2 ^ N.of_nat n)%N -> (sdw < 2 ^ N.of_nat n)%N ->
      nth_error states idu = Some (combine n sup sdw) ->
      nth_error a idu =
      Some (fock_energy K half n (fun i => H 1%nat i i + mu) (fun i => H 1%nat i i + mu) V
              (match z with Some z => z | None => fun _ => if hf then 1 else 0 end) hf sup sdw).
Proof. exact build_ham_local_n. Qed.
Print Assumptions C15_local_energy_N.

(** C16: the two symmetries agree when the spin blocks have the same diagonal. *)
Theorem C16_symmetries_agree : forall (K : CRing) (half : K) n H V states hf mu z up dw
    idu iup idw sup sdw,
  (n <= 16)%nat -> (forall s, In s states -> (s < 2 ^ N.of_nat (2 * n))%N) ->
  (sup < 2 ^ N.of_nat n)%N -> (sdw < 2 ^ N.of_nat n)%N ->
  (forall i, (i < n)%nat -> H 0%nat i i = H 1%nat i i) ->
  nth_error states idu = Some (combine n sup sdw) ->
  nth_error up iup = Some sup -> nth_error dw idw = Some sdw ->
  exists an asz v, build_ham_local K half n H V (StN states) hf mu z = Ok an /\
    build_ham_local K half n H V (StSz up dw) hf mu z = Ok asz /\
    nth_error an idu = Some v /\ nth_error asz (iup + idw * length up) = Some v.
Proof. exact n_sz_agree. Qed.
Print Assumptions C16_symmetries_agree.

(** C16: without that hypothesis they do not agree. *)
Theorem C16_spin_dependent_refuted :
  exists an asz vn vz,
    build_ham_local QcRing qhalf 1 wH (fun _ _ => qz 0) (StN [1; 2]%N) false (qz 0) None = Ok an /\
    build_ham_local QcRing qhalf 1 wH (fun _ _ => qz 0) (StSz [1]%N [0]%N) false (qz 0) None = Ok asz /\
    nth_error an 0 = Some vn /\ nth_error asz 0 = Some vz /\ vn <> vz.
Proof. exact n_sz_disagree. Qed.
Print Assumptions C16_spin_dependent_refuted.

(** A concrete two-site case: e = (1,2), U = 4 on site 0, V01 = V10 = 3, one up
    electron and one down electron; both builders, same numbers. *)
Definition exH (s i j : nat) : QcRing := if (i =? j)%nat then qz (1 + Z.of_nat i) else qz 7.
Definition exV (i j : nat) : QcRing := if (i =? j)%nat then (if (i =? 0)%nat then qz 4 else qz 0) else qz 3.
Example C15_ex :
  rmap (map Qcanon.this)
    (build_ham_local QcRing qhalf 2 exH exV (StSz [1; 2]%N [1; 2]%N) false (qz 0) None)
  = rmap (map Qcanon.this) (Ok [qz 6; qz 6; qz 6; qz 4]).
Proof. vm_compute. reflexivity. Qed.
Example C16_ex :
  rmap (map Qcanon.this)
    (build_ham_local QcRing qhalf 2 exH exV (StN [3; 5; 6; 9; 10; 12]%N) false (qz 0) None)
  = rmap (map Qcanon.this) (Ok [qz 6; qz 6; qz 6; qz 6; qz 4; qz 6]) /\
  combine 2 1 2 = 9%N /\ (forall i, (i < 2)%nat -> exH 0 i i = exH 1 i i).
Proof. split; [vm_compute; reflexivity|]. split; [reflexivity|]. intros; reflexivity. Qed.
