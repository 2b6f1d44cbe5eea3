(** Theorems about the sparse eigensolver (C111, C112). *)
From Coq Require Import Reals List Arith NArith ZArith Bool.
From Verif Require Import Base RBase RLin SectorModel LocalModel MatvecModel MbModel MbSpec EspaceModel EspaceSpec ExactSpec SpectralProofs EighProofs
  TriSpec ArpModel ArpSpec ArpProofs ArpRealProofs.
Import ListNotations.
Local Open Scope R_scope.

(** C111: every pair returned is an eigenpair, orthonormal to the others.  With
    ARPACK's status 0 they are the wanted number of lowest ones. *)
Theorem C111_pairs : forall St fresh saupd seupd known_aupd known_eupd, arpack_contract St fresh saupd seupd -> forall n nev matvec (A : nat -> nat -> R) v0,
  (forall i j, (i < n)%nat -> (j < n)%nat -> A i j = A j i) -> match v0 with Some v => (length v <= n)%nat | None => True end ->
  (forall x, length x = n -> matvec x = Ok (product n A x)) -> (0 < nev < Z.of_nat n)%Z ->
  exists f0 r, (forall f, (f0 <= f)%nat -> eigsh St fresh saupd seupd known_aupd known_eupd f n nev matvec v0 None = r) /\
  match r with
  | Ok (d, z) => length d = length z /\ (0 < Z.of_nat (length d) <= nev)%Z /\ eigenpairs n A (length d) d z /\ (Z.of_nat (length d) = nev \/
      exists o, dialogue St saupd n nev (ncv_of n nev) (n * 10) A 0 (match v0 with None => 0 | Some _ => 1 end) (fresh n (ncv_of n nev) v0) (repeat 0 (3 * n)) o /\ (0 < r_info o)%Z)
  | Err e => e = RuntimeError \/ e = KeyError
  end.
Proof. exact eigsh_pairs. Qed.
Print Assumptions C111_pairs.
Theorem C111_lowest : forall St fresh saupd seupd known_aupd known_eupd, arpack_contract St fresh saupd seupd -> forall n nev matvec (A : nat -> nat -> R) v0 o,
  (forall i j, (i < n)%nat -> (j < n)%nat -> A i j = A j i) -> match v0 with Some v => (length v <= n)%nat | None => True end ->
  (forall x, length x = n -> matvec x = Ok (product n A x)) -> (0 < nev < Z.of_nat n)%Z ->
  dialogue St saupd n nev (ncv_of n nev) (n * 10) A 0 (match v0 with None => 0 | Some _ => 1 end) (fresh n (ncv_of n nev) v0) (repeat 0 (3 * n)) o -> r_info o = 0%Z ->
  exists f0, (exists d z, (forall f, (f0 <= f)%nat -> eigsh St fresh saupd seupd known_aupd known_eupd f n nev matvec v0 None = Ok (d, z)) /\
      Z.of_nat (length d) = nev /\ length z = length d /\ lowest_pairs n A (length d) d z) \/
    (forall f, (f0 <= f)%nat -> eigsh St fresh saupd seupd known_aupd known_eupd f n nev matvec v0 None = Err (if known_eupd 0%Z then RuntimeError else KeyError)).
Proof. exact eigsh_lowest. Qed.
Print Assumptions C111_lowest.
(** The number of basis vectors always suits ARPACK if fewer pairs than rows are wanted. *)
Theorem C111_basis : forall n nev, (0 < nev < Z.of_nat n)%Z -> (nev < Z.of_nat (ncv_of n nev) <= Z.of_nat n)%Z.
Proof. exact ncv_ok. Qed.
Print Assumptions C111_basis.
Theorem C111_illegal : forall St fresh saupd seupd known_aupd known_eupd, arpack_contract St fresh saupd seupd -> forall n nev matvec (A : nat -> nat -> R) v0,
  (forall i j, (i < n)%nat -> (j < n)%nat -> A i j = A j i) -> match v0 with Some v => (length v <= n)%nat | None => True end ->
  (forall x, length x = n -> matvec x = Ok (product n A x)) -> (nev <= 0 \/ Z.of_nat n <= nev)%Z ->
  exists f0 e, (forall f, (f0 <= f)%nat -> eigsh St fresh saupd seupd known_aupd known_eupd f n nev matvec v0 None = Err e) /\ (e = RuntimeError \/ e = KeyError).
Proof. exact eigsh_illegal. Qed.
Print Assumptions C111_illegal.
Theorem C111_small : forall St fresh saupd seupd known_aupd known_eupd f n nev matvec v0 p, (p_maxn p < n)%nat \/ (p_maxncv p < ncv_of n nev)%nat ->
  eigsh St fresh saupd seupd known_aupd known_eupd f n nev matvec v0 (Some p) = Err AssertionError.
Proof. exact eigsh_small. Qed.
Print Assumptions C111_small.
(** The loop computes the products asked for, puts them where they are expected and
    returns ARPACK's last reply. *)
Theorem C111_products : forall St saupd n nev matvec (A : nat -> nat -> R) p, p_maxn p = n -> (forall x, length x = n -> matvec x = Ok (product n A x)) ->
  forall ido info st w o, dialogue St saupd n nev (p_maxncv p) (n * 10) A ido info st w o ->
  exists f0, forall f, (f0 <= f)%nat -> rc_loop St saupd n nev matvec p f ido info st w = Ok o.
Proof. exact follow. Qed.
Print Assumptions C111_products.
(** Refuted: that as many pairs as wanted are returned or an error is raised. *)
Theorem C111_shortfall_refuted : arpack_contract (list (list R)) real_fresh (real_saupd 1) (real_seupd 1) /\
  forall known_aupd known_eupd n nev (A : nat -> nat -> R) matvec, (forall i j, (i < n)%nat -> (j < n)%nat -> A i j = A j i) ->
  (forall x, length x = n -> matvec x = Ok (product n A x)) -> (1 < nev < Z.of_nat n)%Z ->
  exists f0 d z, (forall f, (f0 <= f)%nat -> eigsh (list (list R)) real_fresh (real_saupd 1) (real_seupd 1) known_aupd known_eupd f n nev matvec None None = Ok (d, z)) /\
    Z.of_nat (length d) = (nev - 1)%Z /\ Z.of_nat (length z) = (nev - 1)%Z.
Proof. exact (conj (real_arpack 1) shortfall). Qed.
Print Assumptions C111_shortfall_refuted.
(** Refuted: that a failed extraction is reported as such. *)
Theorem C111_message_refuted : arpack_contract (list (list R)) real_fresh (real_saupd 1) (real_seupd 1) /\
  forall known_aupd known_eupd n (A : nat -> nat -> R) matvec, (forall i j, (i < n)%nat -> (j < n)%nat -> A i j = A j i) ->
  (forall x, length x = n -> matvec x = Ok (product n A x)) -> (1 < n)%nat -> known_eupd 1%Z = false ->
  exists f0, forall f, (f0 <= f)%nat -> eigsh (list (list R)) real_fresh (real_saupd 1) (real_seupd 1) known_aupd known_eupd f n 1 matvec None None = Err KeyError.
Proof. exact (conj (real_arpack 1) wrong_key). Qed.
Print Assumptions C111_message_refuted.
Example C111_ex : arpack_contract (list (list R)) real_fresh (real_saupd 0) (real_seupd 0) /\ forall known_aupd known_eupd, exists f0 z, forall f, (f0 <= f)%nat ->
  eigsh (list (list R)) real_fresh (real_saupd 0) (real_seupd 0) known_aupd known_eupd f 2 1 (fun x => Ok (product 2 diag2 x)) None None = Ok ([1], z).
Proof. exact (conj (real_arpack 0) diag2_found). Qed.
Example C111_ex_ncv : ncv_of 1000 6 = 20%nat /\ ncv_of 1000 15 = 31%nat /\ ncv_of 18 6 = 18%nat /\ ncv_of 6 6 = 6%nat.
Proof. vm_compute. auto. Qed.

(** C112: with this solver the sparse path of [solve_sector] returns eigenpairs
    only, and with status 0 the same lowest eigenvalues as the dense path. *)
Theorem C112_sound : forall St fresh saupd seupd known_aupd known_eupd, arpack_contract St fresh saupd seupd -> forall fuel,
  eigsh_sound RRing (fun d k mv => eigsh St fresh saupd seupd known_aupd known_eupd fuel d k mv None None).
Proof. exact arpack_sound. Qed.
Print Assumptions C112_sound.
Theorem C112_unique : forall n (A : nat -> nat -> R) e e', (forall i j, (i < n)%nat -> (j < n)%nat -> A i j = A j i) -> spectrum n A e -> spectrum n A e' -> forall k, (k < n)%nat -> e k = e' k.
Proof. exact spectrum_unique. Qed.
Print Assumptions C112_unique.
Theorem C112_paths : forall St fresh saupd seupd known_aupd known_eupd, arpack_contract St fresh saupd seupd -> forall eigh (big : R -> bool) half n h fl V U hf mu z nup ndw up dw k,
  eigh_contract eigh -> model_ok half n h fl V U -> (nup <= n)%nat -> (ndw <= n)%nat -> generate_states n nup = Ok up -> generate_states n ndw = Ok dw ->
  let d := (length up * length dw)%nat in let sparse := fun f d k mv => eigsh St fresh saupd seupd known_aupd known_eupd f d k mv None None in
  (512 < d)%nat -> (0 < k < Z.of_nat d)%Z ->
  exists A vals cols f0, (forall i j, (i < d)%nat -> (j < d)%nat -> A i j = A j i) /\
    (forall f, solve_sector RRing big half eigh (sparse f) n h fl V hf mu z (StSz up dw) None = Ok (vals, cols)) /\ length vals = d /\
    forall o, dialogue St saupd d k (ncv_of d k) (d * 10) A 0 0 (fresh d (ncv_of d k) None) (repeat 0 (3 * d)) o -> r_info o = 0%Z ->
    (exists vs cs, (forall f, (f0 <= f)%nat -> solve_sector RRing big half eigh (sparse f) n h fl V hf mu z (StSz up dw) (Some k) = Ok (vs, cs)) /\ vs = firstn (Z.to_nat k) vals /\ length cs = length vs) \/
    (forall f, (f0 <= f)%nat -> solve_sector RRing big half eigh (sparse f) n h fl V hf mu z (StSz up dw) (Some k) = Err (if known_eupd 0%Z then RuntimeError else KeyError)).
Proof. exact paths_agree. Qed.
Print Assumptions C112_paths.
Example C112_ex : eigh_contract real_eigh /\ arpack_contract (list (list R)) real_fresh (real_saupd 0) (real_seupd 0) /\
  model_ok (/ 2) 7 (H2 RRing (fun i j => if (i =? j)%nat then 1 else 2)) (mkflags true true true) (VArray RRing (fun _ _ => 3)) (fun _ _ => 3) /\
  match generate_states 7 3 with Ok l => length l = 35%nat /\ (512 <? length l * length l)%nat = true | Err _ => False end.
Proof.
  split; [exact real_eigh_contract|]. split; [exact (real_arpack 0)|]. split; [|vm_compute; auto].
  split; [repeat split; try (repeat constructor; fail); field|]. split; [reflexivity|]. split; [reflexivity|]. split; [split; exact I|]. split; [|reflexivity].
  intros sp i j _ _. cbn [hspin]. now rewrite Nat.eqb_sym.
Qed.
