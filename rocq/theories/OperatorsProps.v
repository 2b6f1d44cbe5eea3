(** Property theorems C01-C06: Fock-state operators. *)
From Coq Require Import List Arith NArith ZArith Bool.
From Verif Require Import Base OperatorsModel OperatorsSpec OperatorsProofs.

(** C01: creation succeeds exactly on an empty orbital that fits in the word,
    and fills exactly that orbital. *)
Theorem C01_cdg_domain : forall s pos n, (s < 2^32)%N ->
  (forall sg t, cdg s pos n = Ok (sg, t) ->
     occ s pos = false /\ pos < 32 /\ (t < 2^32)%N /\ sets_orbital s t pos true) /\
  (pos < 32 -> occ s pos = false -> exists sg t, cdg s pos n = Ok (sg, t)) /\
  (pos >= 32 \/ occ s pos = true -> cdg s pos n = Err AssertionError).
Proof. exact cdg_success. Qed.
Print Assumptions C01_cdg_domain.

Example C01_cdg_domain_ex :
  cdg 22 3 5 = Ok ((-1)%Z, 30%N) /\ cdg 22 2 5 = Err AssertionError /\
  cdg 22 40 50 = Err AssertionError.
Proof. repeat split. Qed.

(** C01: annihilation succeeds exactly on an occupied orbital, and empties
    exactly that orbital. *)
Theorem C01_c_domain : forall s pos n, (s < 2^32)%N ->
  (forall sg t, c s pos n = Ok (sg, t) ->
     occ s pos = true /\ (t < 2^32)%N /\ sets_orbital s t pos false) /\
  (occ s pos = true -> exists sg t, c s pos n = Ok (sg, t)) /\
  (occ s pos = false -> c s pos n = Err AssertionError).
Proof. exact c_success. Qed.
Print Assumptions C01_c_domain.

Example C01_c_domain_ex :
  c 22 1 5 = Ok (1%Z, 20%N) /\ c 22 3 5 = Err AssertionError.
Proof. repeat split. Qed.

(** C02: the sign is (-1)^(number of occupied orbitals strictly above pos). *)
Theorem C02_cdg_sign : forall s pos n sg t, cdg s pos n = Ok (sg, t) ->
  sg = parity_sign (nocc s (S pos) n).
Proof. exact cdg_sign. Qed.
Print Assumptions C02_cdg_sign.

Theorem C02_c_sign : forall s pos n sg t, c s pos n = Ok (sg, t) ->
  sg = parity_sign (nocc s (S pos) n).
Proof. exact c_sign. Qed.
Print Assumptions C02_c_sign.

Example C02_ex : nocc 22 3 5 = 1 /\ c 22 2 5 = Ok ((-1)%Z, 18%N).
Proof. repeat split. Qed.

(** C03: canonical anticommutation relations, as matrix elements between
    arbitrary basis states. *)
Theorem C03_car_mixed : forall s t i j n, (s < 2^32)%N -> i < n -> j < n -> n <= 32 ->
  anticomm (fun u => c u i n) (fun u => cdg u j n) s t
  = if (i =? j) && N.eqb s t then 1%Z else 0%Z.
Proof. exact anticomm_c_cdg. Qed.
Print Assumptions C03_car_mixed.

Theorem C03_car_annihilators : forall s t i j n, (s < 2^32)%N -> i < n -> j < n -> n <= 32 ->
  anticomm (fun u => c u i n) (fun u => c u j n) s t = 0%Z.
Proof. exact (fun s t i j n h1 h2 h3 h4 => anticomm_cc s t i j n h1 h2 h3 h4 false). Qed.
Print Assumptions C03_car_annihilators.

Theorem C03_car_creators : forall s t i j n, (s < 2^32)%N -> i < n -> j < n -> n <= 32 ->
  anticomm (fun u => cdg u i n) (fun u => cdg u j n) s t = 0%Z.
Proof. exact (fun s t i j n h1 h2 h3 h4 => anticomm_cc s t i j n h1 h2 h3 h4 true). Qed.
Print Assumptions C03_car_creators.

Example C03_ex :
  amp (after (fun u => c u 1 4) (fun u => cdg u 3 4) 6) 12 = 1%Z /\
  amp (after (fun u => cdg u 3 4) (fun u => c u 1 4) 6) 12 = (-1)%Z.
Proof. repeat split. Qed.

(** C04: the one-step hop is annihilation followed by creation. *)
Theorem C04_cdgc : forall s i j n, (s < 2^32)%N -> i < n -> j < n -> n <= 32 ->
  occ s j = true -> occ s i = false ->
  after (fun u => cdg u i n) (fun u => c u j n) s = Ok (cdgc s i j).
Proof. exact cdgc_compose. Qed.
Print Assumptions C04_cdgc.

Example C04_ex :
  occ 14 1 = true /\ occ 14 4 = false /\ cdgc 14 4 1 = (1%Z, 28%N) /\
  cdgc 6 4 1 = ((-1)%Z, 20%N).
Proof. repeat split. Qed.

(** C05: creation is the adjoint of annihilation. *)
Theorem C05_adjoint : forall s t i n sg, (s < 2^32)%N -> (t < 2^32)%N -> i < n -> n <= 32 ->
  cdg s i n = Ok (sg, t) <-> c t i n = Ok (sg, s).
Proof. exact adjoint_lemma. Qed.
Print Assumptions C05_adjoint.

Example C05_ex : cdg 10 2 4 = Ok ((-1)%Z, 14%N) /\ c 14 2 4 = Ok ((-1)%Z, 10%N).
Proof. repeat split. Qed.

(** C06: number operator and its complement. *)
Theorem C06_number_operator : forall s i n, (s < 2^32)%N ->
  (check_full s i = 1%N -> after (fun u => cdg u i n) (fun u => c u i n) s = Ok (1%Z, s)) /\
  (check_full s i <> 1%N ->
     after (fun u => cdg u i n) (fun u => c u i n) s = Err AssertionError) /\
  (check_full s i <= 1)%N /\
  check_empty s i = (1 - check_full s i)%N.
Proof. exact number_op. Qed.
Print Assumptions C06_number_operator.

Theorem C06_check_full_occ : forall s i, check_full s i = if occ s i then 1%N else 0%N.
Proof. exact check_full_spec. Qed.
Print Assumptions C06_check_full_occ.

Example C06_ex : check_full 10 3 = 1%N /\ check_empty 10 3 = 0%N /\
  check_full 10 2 = 0%N /\ check_empty 10 2 = 1%N.
Proof. repeat split. Qed.
