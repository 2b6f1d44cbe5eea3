(** Property theorems C17-C18: the hopping operators. *)
From Coq Require Import List Arith NArith ZArith Bool QArith Qcanon.
From Verif Require Import Base OperatorsModel OperatorsSpec LookupModel LookupSpec SectorModel
  SectorSpec FockSpec LocalModel HoppingModel CsrSpec HoppingProofs.
Import ListNotations.
Local Open Scope nat_scope.

(** C17: the buffers are exactly filled (freezing fails if a cell was left
    unwritten, writing beyond the end raises), the result is a well-formed
    matrix with valid column indices and the counted number of entries. *)
Theorem C17_hopping_allocation : forall (K : CRing) (big : K -> bool) n p A states,
  p <= n -> n <= 32 -> generate_states n p = Ok states ->
  exists m sp, build_hop K big n A states = Ok m /\ freeze K m = Ok sp /\
    sp_wf K sp /\ m_rows K sp = length states /\ m_cols K sp = length states /\
    length (m_data K sp) =
      length (filter (fun ij => negb (fst ij =? snd ij) && big (A (fst ij) (snd ij)))
                 (list_prod (seq 0 n) (seq 0 n))) * binomZ (Z.of_nat n - 2) (Z.of_nat p - 1) /\
    forall a b sa sb, nth_error states a = Some sa -> nth_error states b = Some sb ->
      sp_get K sp a b =
      nsum n (fun i => nsum n (fun j => cmul K (offdiag K big A i j) (z2k (elem n [Cr i; An j] sb sa)))).
Proof. exact build_hop_ok. Qed.
Print Assumptions C17_hopping_allocation.

Example C17_ex : exists m sp,
  build_hop QcRing wbig 3 (fun i j => qz (Z.of_nat (i * j))) [3; 5; 6]%N = Ok m /\
  freeze QcRing m = Ok sp /\ m_indptr QcRing sp = [0; 1; 2; 2] /\ m_indices QcRing sp = [1; 0]%Z /\
  map this (m_data QcRing sp) = [2 # 1; 2 # 1]%Q.
Proof. eexists. eexists. split; [vm_compute; reflexivity|]. split; [vm_compute; reflexivity|]. vm_compute. auto. Qed.

(** C18: both spin species; the entries are matrix elements of the one-body
    operator in second quantisation, stored transposed. *)
Theorem C18_hopping_elements : forall (K : CRing) (big : K -> bool) n nup ndw H up dw,
  nup <= n -> ndw <= n -> n <= 32 ->
  generate_states n nup = Ok up -> generate_states n ndw = Ok dw ->
  exists mu md, build_ham_hopping K big n H (StSz up dw) = Ok (mu, md) /\
    sp_wf K mu /\ sp_wf K md /\ m_rows K mu = length up /\ m_rows K md = length dw /\
    m_cols K mu = length up /\ m_cols K md = length dw /\
    (forall a b sa sb, nth_error up a = Some sa -> nth_error up b = Some sb ->
      sp_get K mu a b = nsum n (fun i => nsum n (fun j =>
        cmul K (offdiag K big (H 0) i j) (z2k (elem n [Cr i; An j] sb sa))))) /\
    (forall a b sa sb, nth_error dw a = Some sa -> nth_error dw b = Some sb ->
      sp_get K md a b = nsum n (fun i => nsum n (fun j =>
        cmul K (offdiag K big (H 1) i j) (z2k (elem n [Cr i; An j] sb sa))))).
Proof. exact build_ham_hopping_ok. Qed.
Print Assumptions C18_hopping_elements.

(** C18: for symmetric H it is the operator itself, and symmetric. *)
Theorem C18_hopping_symmetric : forall (K : CRing) (big : K -> bool) n nup ndw H up dw,
  nup <= n -> ndw <= n -> n <= 32 ->
  generate_states n nup = Ok up -> generate_states n ndw = Ok dw ->
  (forall s i j, i < n -> j < n -> H s i j = H s j i) ->
  exists mu md, build_ham_hopping K big n H (StSz up dw) = Ok (mu, md) /\
    (forall a b sa sb, nth_error up a = Some sa -> nth_error up b = Some sb ->
      sp_get K mu a b = nsum n (fun i => nsum n (fun j =>
        cmul K (offdiag K big (H 0) i j) (z2k (elem n [Cr i; An j] sa sb)))) /\
      sp_get K mu a b = sp_get K mu b a) /\
    (forall a b sa sb, nth_error dw a = Some sa -> nth_error dw b = Some sb ->
      sp_get K md a b = nsum n (fun i => nsum n (fun j =>
        cmul K (offdiag K big (H 1) i j) (z2k (elem n [Cr i; An j] sa sb)))) /\
      sp_get K md a b = sp_get K md b a).
Proof. exact build_ham_hopping_sym. Qed.
Print Assumptions C18_hopping_symmetric.

(** C18: for a non-symmetric H the stored matrix is not the operator: with
    only H_01 = 2 the stored entry (1,0) is 2 although <state 1| c+_0 c_1 |state 0> = 0. *)
Theorem C18_nonsymmetric_transposed_refuted :
  exists mu md, build_ham_hopping QcRing wbig 2 wT (StSz [1; 2]%N [1; 2]%N) = Ok (mu, md) /\
    sp_get QcRing mu 1 0 = qz 2 /\ sp_get QcRing mu 0 1 = qz 0 /\
    elem 2 [Cr 0; An 1] 1 2 = 1%Z /\ elem 2 [Cr 0; An 1] 2 1 = 0%Z.
Proof. exact hopping_transposed. Qed.
Print Assumptions C18_nonsymmetric_transposed_refuted.

Example C18_ex : exists mu md,
  build_ham_hopping QcRing wbig 3 (fun s i j => qz (Z.of_nat (1 + s + i * i + j * j))) (StSz [3; 5; 6]%N [1; 2; 4]%N) = Ok (mu, md) /\
  map this (m_data QcRing mu) = [-5#1; 6#1; 2#1; 6#1; 2#1; -5#1]%Q /\ m_indices QcRing mu = [2; 1; 2; 0; 1; 0]%Z /\
  map this (m_data QcRing md) = [3#1; 6#1; 3#1; 7#1; 6#1; 7#1]%Q.
Proof. eexists. eexists. split; [vm_compute; reflexivity|]. vm_compute. auto. Qed.
