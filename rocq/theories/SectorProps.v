(** Property theorems C12-C14: sectors. *)
From Coq Require Import List Arith NArith ZArith Bool.
From Verif Require Import Base OperatorsModel OperatorsSpec LookupModel LookupSpec SectorModel
  SectorSpec SectorProofs.
Import ListNotations.

(** C12: the generated list is exactly the sector, increasing, of binomial
    length. *)
Theorem C12_generate_states : forall n p, p <= n -> n <= 32 -> exists l,
  generate_states n p = Ok l /\ increasing l /\ length l = binom n p /\
  forall s, In s l <-> in_sector n p s.
Proof. exact generate_states_spec. Qed.
Print Assumptions C12_generate_states.

(** C12: the length really is the binomial coefficient. *)
Theorem C12_binomial : forall n k, is_binomial (binom n k) n k.
Proof. exact binom_is_binomial. Qed.
Print Assumptions C12_binomial.

(** C12: more particles than orbitals is rejected. *)
Theorem C12_generate_states_rejects : forall n p, n < p -> generate_states n p = Err IndexError.
Proof. exact generate_states_empty. Qed.
Print Assumptions C12_generate_states_rejects.

Example C12_ex : generate_states 5 2 = Ok [3; 5; 6; 9; 10; 12; 17; 18; 20; 24]%N /\
  generate_states 4 4 = Ok [15]%N /\ generate_states 4 0 = Ok [0]%N.
Proof. repeat split. Qed.

(** C13: dimensions add up to the Fock-space dimension, for both symmetries. *)
Theorem C13_sz_dims_sum : forall n,
  list_sum (flat_map (fun nup => map (fun ndw => get_sector_dim n nup ndw) (seq 0 (n + 1)))
                     (seq 0 (n + 1))) = 4 ^ n.
Proof. exact sector_dims_sum. Qed.
Print Assumptions C13_sz_dims_sum.

Theorem C13_n_dims_sum : forall n,
  list_sum (map (fun p => binom (2 * n) p) (seq 0 (2 * n + 1))) = 4 ^ n.
Proof. exact sector_dims_sum_N. Qed.
Print Assumptions C13_n_dims_sum.

(** C13: every pair of spin states lies in exactly one sector. *)
Theorem C13_sector_unique : forall n sup sdw,
  (sup < 2 ^ N.of_nat n)%N -> (sdw < 2 ^ N.of_nat n)%N -> n <= 32 ->
  exists nup ndw, nup <= n /\ ndw <= n /\
    (exists lu ld, generate_states n nup = Ok lu /\ generate_states n ndw = Ok ld /\
       In sup lu /\ In sdw ld) /\
    forall nup' ndw' lu ld, nup' <= n -> ndw' <= n ->
      generate_states n nup' = Ok lu -> generate_states n ndw' = Ok ld ->
      In sup lu -> In sdw ld -> nup' = nup /\ ndw' = ndw.
Proof. exact sector_unique. Qed.
Print Assumptions C13_sector_unique.

Theorem C13_dim_is_product : forall n nup ndw, nup <= n -> ndw <= n -> n <= 32 ->
  exists lu ld, generate_states n nup = Ok lu /\ generate_states n ndw = Ok ld /\
    get_sector_dim n nup ndw = length lu * length ld.
Proof. exact sector_dim_lists. Qed.
Print Assumptions C13_dim_is_product.

Example C13_ex : get_sector_dim 4 2 1 = 24 /\
  list_sum (flat_map (fun nup => map (fun ndw => get_sector_dim 3 nup ndw) (seq 0 4)) (seq 0 4)) = 64.
Proof. split; reflexivity. Qed.

(** C14: ladder moves. *)
Theorem C14_cdg_sector : forall n nup ndw ispin, (0 <= nup <= n)%Z -> (0 <= ndw <= n)%Z ->
  (ispin = 0%Z -> nup = n -> get_cdg_sector n nup ndw ispin = Err OutOfHilbertError) /\
  (ispin = 0%Z -> (nup < n)%Z -> get_cdg_sector n nup ndw ispin = Ok (nup + 1, ndw)%Z /\
      get_c_sector (nup + 1) ndw ispin = Ok (nup, ndw)) /\
  (ispin = 1%Z -> ndw = n -> get_cdg_sector n nup ndw ispin = Err OutOfHilbertError) /\
  (ispin = 1%Z -> (ndw < n)%Z -> get_cdg_sector n nup ndw ispin = Ok (nup, ndw + 1)%Z /\
      get_c_sector nup (ndw + 1) ispin = Ok (nup, ndw)) /\
  (ispin <> 0%Z -> ispin <> 1%Z -> get_cdg_sector n nup ndw ispin = Err RuntimeError).
Proof. exact cdg_sector_spec. Qed.
Print Assumptions C14_cdg_sector.

Theorem C14_c_sector : forall n nup ndw ispin, (0 <= nup <= n)%Z -> (0 <= ndw <= n)%Z ->
  (ispin = 0%Z -> nup = 0%Z -> get_c_sector nup ndw ispin = Err OutOfHilbertError) /\
  (ispin = 0%Z -> (0 < nup)%Z -> get_c_sector nup ndw ispin = Ok (nup - 1, ndw)%Z /\
      get_cdg_sector n (nup - 1) ndw ispin = Ok (nup, ndw)) /\
  (ispin = 1%Z -> ndw = 0%Z -> get_c_sector nup ndw ispin = Err OutOfHilbertError) /\
  (ispin = 1%Z -> (0 < ndw)%Z -> get_c_sector nup ndw ispin = Ok (nup, ndw - 1)%Z /\
      get_cdg_sector n nup (ndw - 1) ispin = Ok (nup, ndw)) /\
  (ispin <> 0%Z -> ispin <> 1%Z -> get_c_sector nup ndw ispin = Err RuntimeError).
Proof. exact c_sector_spec. Qed.
Print Assumptions C14_c_sector.

Example C14_ex : get_cdg_sector 3 1 3 0 = Ok (2, 3)%Z /\
  get_cdg_sector 3 1 3 1 = Err OutOfHilbertError /\ get_c_sector 0 2 1 = Ok (0, 1)%Z.
Proof. repeat split. Qed.
