(** Property theorems C07-C11: state lookup. *)
From Coq Require Import List Arith NArith ZArith Bool Sorted.
From Verif Require Import Base OperatorsModel OperatorsSpec LookupModel LookupSpec LookupProofs.
Import ListNotations.

(** C07: a member of an increasing array is found at its position. *)
Theorem C07_binsearch_found : forall a s k, increasing a -> nth_error a k = Some s ->
  binsearch a s = Ok (Z.of_nat k).
Proof. exact binsearch_found. Qed.
Print Assumptions C07_binsearch_found.

(** C07: a non-member is answered by -1 (on any array). *)
Theorem C07_binsearch_absent : forall a s, ~ In s a -> binsearch a s = Ok (-1)%Z.
Proof. exact binsearch_absent. Qed.
Print Assumptions C07_binsearch_absent.

(** C07: on any array whatsoever (sorted or not, empty included) the search
    terminates, never reads outside the array, and a non-negative answer
    points at the key. *)
Theorem C07_binsearch_safe : forall a s, exists r, binsearch a s = Ok r /\
  (r = -1 \/ (0 <= r)%Z /\ nth_error a (Z.to_nat r) = Some s)%Z.
Proof. exact binsearch_total. Qed.
Print Assumptions C07_binsearch_safe.

Example C07_ex : increasing [3; 5; 6; 9; 10; 12]%N /\
  binsearch [3; 5; 6; 9; 10; 12]%N 9 = Ok 3%Z /\ binsearch [3; 5; 6; 9; 10; 12]%N 7 = Ok (-1)%Z /\
  binsearch [] 7 = Ok (-1)%Z.
Proof. split; [repeat constructor|repeat split]. Qed.

(** C08 *)
Theorem C08_spin_indices_inverse : forall dup dwn i, (0 < dup)%Z -> (0 <= i < dup * dwn)%Z ->
  exists iup idw, get_spin_indices i dup dwn = Ok (iup, idw) /\
    (0 <= iup < dup)%Z /\ (0 <= idw < dwn)%Z /\ get_state_index iup idw dup = i.
Proof. exact spin_index_inverse. Qed.
Print Assumptions C08_spin_indices_inverse.

Theorem C08_state_index_inverse : forall dup dwn iup idw,
  (0 <= iup < dup)%Z -> (0 <= idw < dwn)%Z ->
  (0 <= get_state_index iup idw dup < dup * dwn)%Z /\
  get_spin_indices (get_state_index iup idw dup) dup dwn = Ok (iup, idw).
Proof. exact state_index_inverse. Qed.
Print Assumptions C08_state_index_inverse.

Example C08_ex : get_spin_indices 17 6 4 = Ok (5, 2)%Z /\ get_state_index 5 2 6 = 17%Z.
Proof. split; reflexivity. Qed.

(** C09 *)
Theorem C09_sector_index_inverse : forall n nup ndw, (0 <= nup <= n)%Z -> (0 <= ndw <= n)%Z ->
  exists i, get_sector_index n nup ndw = Ok i /\ (0 <= i < (n+1)*(n+1))%Z /\
            get_num_spins i n = Ok (nup, ndw).
Proof. exact sector_index_inverse. Qed.
Print Assumptions C09_sector_index_inverse.

Theorem C09_num_spins_inverse : forall n i, (0 <= i < (n+1)*(n+1))%Z -> (0 <= n)%Z ->
  exists nup ndw, get_num_spins i n = Ok (nup, ndw) /\ (0 <= nup <= n)%Z /\ (0 <= ndw <= n)%Z /\
    get_sector_index n nup ndw = Ok i.
Proof. exact num_spins_inverse. Qed.
Print Assumptions C09_num_spins_inverse.

Theorem C09_sector_index_rejects : forall n nup ndw,
  ~ ((0 <= nup <= n)%Z /\ (0 <= ndw <= n)%Z) -> get_sector_index n nup ndw = Err ValueError.
Proof. exact sector_index_rejects. Qed.
Print Assumptions C09_sector_index_rejects.

Theorem C09_num_spins_rejects : forall n i,
  ~ (0 <= i < (n+1)*(n+1))%Z -> get_num_spins i n = Err ValueError.
Proof. exact num_spins_rejects. Qed.
Print Assumptions C09_num_spins_rejects.

Example C09_ex : get_sector_index 4 2 3 = Ok 13%Z /\ get_num_spins 13 4 = Ok (2, 3)%Z /\
  get_sector_index 4 2 5 = Err ValueError /\ get_num_spins (-1) 4 = Err ValueError.
Proof. repeat split. Qed.

(** C10: the docstring claim "intrep is the inverse of binrep" is false. *)
Theorem C10_intrep_binrep_refuted :
  exists i n, (i < 2 ^ N.of_nat n)%N /\ intrep (binrep i n) <> i /\ intrep_str (binrep i n) <> i.
Proof. exact intrep_binrep_wrong. Qed.
Print Assumptions C10_intrep_binrep_refuted.

(** C10: what the composition really is: bit reversal. *)
Theorem C10_intrep_binrep_reversal : forall i n, (i < 2 ^ N.of_nat n)%N -> 1 <= n ->
  bit_reversal n i (intrep (binrep i n)).
Proof. exact intrep_binrep. Qed.
Print Assumptions C10_intrep_binrep_reversal.

(** C10: reversing the digits first does give the inverse, as does applying
    the composition twice; the string variant agrees with the array variant. *)
Theorem C10_intrep_rev_binrep : forall i n, (i < 2 ^ N.of_nat n)%N -> 1 <= n ->
  intrep (rev (binrep i n)) = i.
Proof. exact intrep_rev_binrep. Qed.
Print Assumptions C10_intrep_rev_binrep.

Theorem C10_intrep_binrep_twice : forall i n, (i < 2 ^ N.of_nat n)%N -> 1 <= n ->
  intrep (binrep (intrep (binrep i n)) n) = i.
Proof. exact intrep_binrep_twice. Qed.
Print Assumptions C10_intrep_binrep_twice.

Theorem C10_string_format : forall l, length l <= 32 -> intrep_str l = intrep l.
Proof. exact intrep_str_eq. Qed.
Print Assumptions C10_string_format.

Example C10_ex : binrep 6 4 = [false; true; true; false] /\ intrep (binrep 6 4) = 6%N /\
  intrep (binrep 3 4) = 12%N.
Proof. repeat split. Qed.

(** C11 *)
Theorem C11_count_bits : forall s n, count_bits s n = N.of_nat (nocc s 0 n).
Proof. exact count_bits_nocc. Qed.
Print Assumptions C11_count_bits.

Theorem C11_count_bits_popcount : forall s n, (s < 2 ^ N.of_nat n)%N ->
  count_bits s n = N.of_nat (popcount s).
Proof. exact count_bits_popcount. Qed.
Print Assumptions C11_count_bits_popcount.

Theorem C11_binrep_ones : forall i n, (i < 2 ^ N.of_nat n)%N -> 1 <= n ->
  N.of_nat (length (filter (fun b : bool => b) (binrep i n))) = count_bits i n.
Proof. exact binrep_ones. Qed.
Print Assumptions C11_binrep_ones.

Example C11_ex : count_bits 22 5 = 3%N /\ popcount 22 = 3 /\ count_bits 22 4 = 2%N.
Proof. repeat split. Qed.
