(** Property theorems C19-C20: spin exchange and pair hopping. *)
From Coq Require Import List Arith NArith ZArith Bool QArith Qcanon.
From Verif Require Import Base OperatorsModel OperatorsSpec LookupModel LookupSpec SectorModel
  SectorSpec FockSpec LocalModel HoppingModel CsrSpec HoppingProofs NonLocalModel NonLocalSpec
  NonLocalProofs NonLocalSzProofs.
Import ListNotations.
Local Open Scope nat_scope.

(** C19: allocation, warning, well-formedness, and every entry, for arbitrary
    (also non-symmetric) couplings.  The third component [false] says that the
    warning of line 158 is not issued. *)
Theorem C19_sz_entries : forall (K : CRing) (big : K -> bool) (half : K) n nup ndw Jx Jp up dw vec,
  n <= 32 -> nup <= n -> ndw <= n ->
  generate_states n nup = Ok up -> generate_states n ndw = Ok dw ->
  length vec = length dw * length up ->
  exists sp vec', build_ham_non_local K big half n (Some Jx) Jp (StSz up dw) vec = Ok (sp, vec', false) /\
    sp_wf K sp /\ m_rows K sp = length vec /\ m_cols K sp = length vec /\ length vec' = length vec /\
    length (m_data K sp) =
      (count_nnz_offdiag K big n Jx + match Jp with Some J => count_nnz_offdiag K big n J | None => 0 end)
       * binomZ (Z.of_nat n - 2) (Z.of_nat nup - 1) * binomZ (Z.of_nat n - 2) (Z.of_nat ndw - 1) /\
    (forall ja ka ua da, nth_error up ja = Some ua -> nth_error dw ka = Some da ->
      nth (ja + ka * length up) vec' (c0 K) = cadd K (nth (ja + ka * length up) vec (c0 K))
        (exch_same K half n (offdiag K big Jx) (combine n ua da) (combine n ua da))) /\
    (forall ja ka jb kb ua da ub db,
      nth_error up ja = Some ua -> nth_error dw ka = Some da ->
      nth_error up jb = Some ub -> nth_error dw kb = Some db ->
      sp_get K sp (ja + ka * length up) (jb + kb * length up) =
      csub K
       (coupling K n (opt_offdiag K big Jp) (fun i j => pair_word n i j 0) (combine n ub db) (combine n ua da))
       (coupling K n (offdiag K big Jx) (fun i j => exch_word n i j 0 1) (combine n ub db) (combine n ua da))).
Proof. exact sz_builder. Qed.
Print Assumptions C19_sz_entries.

(** C19: for symmetric Jx, matrix plus change of the diagonal = equal-spin
    exchange MINUS opposite-spin exchange plus pair hopping. *)
Theorem C19_sz_operator : forall (K : CRing) (big : K -> bool) (half : K) n nup ndw Jx Jp up dw vec,
  n <= 32 -> nup <= n -> ndw <= n ->
  cadd K half half = c1 K -> (forall i j, i < n -> j < n -> Jx i j = Jx j i) ->
  generate_states n nup = Ok up -> generate_states n ndw = Ok dw ->
  length vec = length dw * length up ->
  exists sp vec', build_ham_non_local K big half n (Some Jx) Jp (StSz up dw) vec = Ok (sp, vec', false) /\
    forall ja ka jb kb ua da ub db,
      nth_error up ja = Some ua -> nth_error dw ka = Some da ->
      nth_error up jb = Some ub -> nth_error dw kb = Some db ->
      let a := ja + ka * length up in let b := jb + kb * length up in
      let s := combine n ua da in let t := combine n ub db in
      cadd K (sp_get K sp a b) (if a =? b then csub K (nth a vec' (c0 K)) (nth a vec (c0 K)) else c0 K) =
      cadd K (csub K (exch_same K half n (offdiag K big Jx) t s) (exch_opp K half n (offdiag K big Jx) t s))
             (pair_hop K half n (opt_offdiag K big Jp) t s).
Proof. exact sz_documented. Qed.
Print Assumptions C19_sz_operator.

(** C19: the documented operator has the other sign: entry <up 1, down 0| . |up 0, down 1>
    of two sites coupled by Jx = 1 is -1 in the Sz builder, +1 in second
    quantisation and +1 in the N builder. *)
Theorem C19_exchange_sign_refuted :
  exists sp vec' spn,
    build_ham_non_local QcRing wbig qhalf 2 (Some wJ) None (StSz [1; 2]%N [1; 2]%N) (map qz [0; 0; 0; 0]%Z)
      = Ok (sp, vec', false) /\
    build_ham_non_local QcRing wbig qhalf 2 (Some wJ) None (StN [3; 5; 6; 9; 10; 12]%N) [] = Ok (spn, [], false) /\
    sp_get QcRing sp 2 1 = qz (-1) /\ sp_get QcRing spn 3 2 = qz 1 /\
    documented QcRing qhalf 2 wJ (fun _ _ => qz 0) (combine 2 2 1) (combine 2 1 2) = qz 1 /\
    combine 2 1 2 = 9%N /\ combine 2 2 1 = 6%N.
Proof. exact exchange_sign. Qed.
Print Assumptions C19_exchange_sign_refuted.

(** C19: with only Jp given the Sz builder raises for every input. *)
Theorem C19_jp_only_raises_refuted : forall (K : CRing) (big : K -> bool) (half : K) n Jp up dw vec,
  build_ham_non_local K big half n None Jp (StSz up dw) vec = Err AttributeError.
Proof. exact jp_only_raises. Qed.
Print Assumptions C19_jp_only_raises_refuted.

Example C19_ex : exists sp vec',
  build_ham_non_local QcRing wbig qhalf 3 (Some wJ) (Some wJ) (StSz [3; 5; 6]%N [1; 2; 4]%N)
    (map qz [0; 0; 0; 0; 0; 0; 0; 0; 0]%Z) = Ok (sp, vec', false) /\
  m_indptr QcRing sp = [0; 1; 2; 4; 5; 7; 8; 10; 11; 12] /\
  length (m_data QcRing sp) = 12 /\
  map this vec' = [-1#1; -1#1; -1#1; -1#1; -1#1; -1#1; -1#1; -1#1; -1#1]%Q.
Proof. eexists. eexists. split; [vm_compute; reflexivity|]. vm_compute. auto. Qed.

(** C20: the N builder is the documented operator. *)
Theorem C20_n_operator : forall (K : CRing) (big : K -> bool) (half : K) n p Jx Jp states vec,
  2 * n <= 32 -> p <= 2 * n -> (Jx <> None \/ Jp <> None) -> generate_states (2 * n) p = Ok states ->
  exists sp, build_ham_non_local K big half n Jx Jp (StN states) vec = Ok (sp, vec, false) /\
    sp_wf K sp /\ m_rows K sp = length states /\ m_cols K sp = length states /\
    forall a b sa sb, nth_error states a = Some sa -> nth_error states b = Some sb ->
      sp_get K sp a b = documented K half n (opt_offdiag K big Jx) (opt_offdiag K big Jp) sb sa.
Proof. exact n_builder. Qed.
Print Assumptions C20_n_operator.

(** C20: the two builders differ by exactly twice the opposite-spin exchange. *)
Theorem C20_n_versus_sz : forall (K : CRing) (big : K -> bool) (half : K) n nup ndw Jx Jp up dw states vec vecn,
  2 * n <= 32 -> nup <= n -> ndw <= n ->
  cadd K half half = c1 K -> (forall i j, i < n -> j < n -> Jx i j = Jx j i) ->
  generate_states n nup = Ok up -> generate_states n ndw = Ok dw ->
  generate_states (2 * n) (nup + ndw) = Ok states ->
  length vec = length dw * length up ->
  exists sp vec' spn,
    build_ham_non_local K big half n (Some Jx) Jp (StSz up dw) vec = Ok (sp, vec', false) /\
    build_ham_non_local K big half n (Some Jx) Jp (StN states) vecn = Ok (spn, vecn, false) /\
    forall ja ka jb kb ua da ub db,
      nth_error up ja = Some ua -> nth_error dw ka = Some da ->
      nth_error up jb = Some ub -> nth_error dw kb = Some db ->
      exists A B, nth_error states A = Some (combine n ua da) /\ nth_error states B = Some (combine n ub db) /\
      let a := ja + ka * length up in let b := jb + kb * length up in
      sp_get K spn A B =
      cadd K (cadd K (sp_get K sp a b)
                (if a =? b then csub K (nth a vec' (c0 K)) (nth a vec (c0 K)) else c0 K))
       (cmul K (cadd K (c1 K) (c1 K))
          (exch_opp K half n (offdiag K big Jx) (combine n ub db) (combine n ua da))).
Proof. exact sz_vs_n. Qed.
Print Assumptions C20_n_versus_sz.

Example C20_ex : exists spn,
  build_ham_non_local QcRing wbig qhalf 2 (Some wJ) (Some wJ) (StN [3; 5; 6; 9; 10; 12]%N) [] = Ok (spn, [], false) /\
  map (fun a => map (fun b => this (sp_get QcRing spn a b)) (seq 0 6)) (seq 0 6) =
  [[-1#1; 0#1; 0#1; 0#1; 0#1; 0#1]; [0#1; 0#1; 0#1; 0#1; 1#1; 0#1]; [0#1; 0#1; 0#1; 1#1; 0#1; 0#1];
   [0#1; 0#1; 1#1; 0#1; 0#1; 0#1]; [0#1; 1#1; 0#1; 0#1; 0#1; 0#1]; [0#1; 0#1; 0#1; 0#1; 0#1; -1#1]]%Q.
Proof. eexists. split; [vm_compute; reflexivity|]. vm_compute. reflexivity. Qed.
