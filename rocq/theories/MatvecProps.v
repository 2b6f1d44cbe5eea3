(** Property theorems C21-C27 and C56: operator lists, products, dense
    assembly, parallel and distributed execution. *)
From Coq Require Import List Arith NArith ZArith Bool QArith Qcanon Permutation.
From Verif Require Import Base OperatorsModel OperatorsSpec LookupModel LookupSpec SectorModel
  SectorSpec FockSpec LocalModel LocalSpec HoppingModel CsrSpec HoppingProofs NonLocalModel NonLocalSpec
  NonLocalSzProofs MatvecModel MatvecSpec MatvecProofs MatvecParProofs MpiModel MpiProofs MbModel MbSpec MbProofs.
Import ListNotations.
Local Open Scope nat_scope.

(** C21: the dense matrix of every sector is symmetric. *)
Theorem C21_symmetric : forall (K : CRing) (big : K -> bool) (half : K) n h fl V st hf mu z ops w f D,
  1 <= n -> sector_of n st -> cadd K half half = c1 K ->
  (forall s, symm K n (hspin K h s)) -> osymm K n (inter_Jx K V) -> osymm K n (inter_Jp K V) ->
  build_mb_ham K big half n h fl V st hf mu z = (Ok (ops, w), f) -> todense K ops = Ok D ->
  d_rows K D = states_dim st /\ d_cols K D = states_dim st /\
  forall a b, a < states_dim st -> b < states_dim st -> d_at K D a b = d_at K D b a.
Proof. exact mb_symmetric. Qed.
Print Assumptions C21_symmetric.

Definition show (D : dense QcRing) : list (list Q) :=
  map (fun a => map (fun b => this (d_at QcRing D a b)) (seq 0 (d_cols QcRing D))) (seq 0 (d_rows QcRing D)).
Definition built (r : res (list (op QcRing) * bool) * bool) : list (op QcRing) :=
  match fst r with Ok (ops, _) => ops | Err _ => [] end.
Definition shown (ops : list (op QcRing)) : list (list Q) :=
  match todense QcRing ops with Ok D => show D | Err _ => [] end.
Example C21_ex :
  shown (built (build_mb_ham QcRing wbig qhalf 2 (H3 QcRing wHop) (mkflags true true true)
    (VDict QcRing (Some wU) (Some wJ) (Some wJ)) (StSz [1; 2]%N [1; 2]%N) false (qz 0) None)) =
  [[5#1; 2#1; 2#1; 1#1]; [2#1; 3#1; -1#1; 2#1]; [2#1; -1#1; 3#1; 2#1]; [1#1; 2#1; 2#1; 7#1]]%Q.
Proof. vm_compute. reflexivity. Qed.

(** C22: Sz sectors. *)
Theorem C22_operators_sz : forall (K : CRing) (big : K -> bool) (half : K) n nup ndw h fl V U hf mu z up dw,
  1 <= n -> n <= 32 -> nup <= n -> ndw <= n ->
  inter_U K V = Some U -> (inter_Jx K V = None -> inter_Jp K V = None) -> settable K h fl = true ->
  generate_states n nup = Ok up -> generate_states n ndw = Ok dw ->
  exists ops f, build_mb_ham K big half n h fl V (StSz up dw) hf mu z = (Ok (ops, false), f) /\
    map (kind_of K) ops = [KLocal] ++ (if 1 <? n then [KUp; KDw] else []) ++
                      (match inter_Jx K V with Some _ => [KNonLocal] | None => [] end) /\
    f = match h with H2 _ _ => f_writeable fl | H3 _ _ => true end.
Proof. exact assembles_sz. Qed.
Print Assumptions C22_operators_sz.

(** C22: N sectors; [true] is the warning that hopping is discarded. *)
Theorem C22_operators_n : forall (K : CRing) (big : K -> bool) (half : K) n p h fl V U hf mu z l,
  2 * n <= 32 -> p <= 2 * n ->
  inter_U K V = Some U -> settable K h fl = true -> generate_states (2 * n) p = Ok l ->
  exists ops f, build_mb_ham K big half n h fl V (StN l) hf mu z = (Ok (ops, true), f) /\
    map (kind_of K) ops = [KLocal] ++ (match inter_Jx K V, inter_Jp K V with None, None => [] | _, _ => [KNonLocal] end) /\
    f = match h with H2 _ _ => f_writeable fl | H3 _ _ => true end.
Proof. exact assembles_n. Qed.
Print Assumptions C22_operators_n.

(** C22: the flag of the caller's array after the call, for every input and
    however the call ends. *)
Theorem C22_flag_after : forall (K : CRing) (big : K -> bool) (half : K) n h fl V st hf mu z,
  let r := build_mb_ham K big half n h fl V st hf mu z in
  snd r = match h with
          | H2 _ _ => f_writeable fl
          | H3 _ _ => match fst r with Ok _ => true | Err _ => false end
          end.
Proof. intros K big half n [h|h] fl V st hf mu z; [exact (flag_two K big half n h fl V st hf mu z)|exact (flag_three K big half n h fl V st hf mu z)]. Qed.
Print Assumptions C22_flag_after.

(** C22: no usable interaction. *)
Theorem C22_no_interaction : forall (K : CRing) (big : K -> bool) (half : K) n h fl V st hf mu z,
  inter_U K V = None ->
  build_mb_ham K big half n h fl V st hf mu z =
  (Err (match V with VOther _ => UnboundLocalError | _ => TypeError end),
   match h with H2 _ _ => f_writeable fl | H3 _ _ => false end).
Proof. exact raises_no_U. Qed.
Print Assumptions C22_no_interaction.

(** C22: only Jp given, Sz symmetry: always raises. *)
Theorem C22_jp_only_refuted : forall (K : CRing) (big : K -> bool) (half : K) n nup ndw h fl U Jp up dw hf mu z,
  n <= 32 -> nup <= n -> ndw <= n -> generate_states n nup = Ok up -> generate_states n ndw = Ok dw ->
  build_mb_ham K big half n h fl (VDict K (Some U) None (Some Jp)) (StSz up dw) hf mu z =
  (Err AttributeError, match h with H2 _ _ => f_writeable fl | H3 _ _ => false end).
Proof. exact raises_jp_only. Qed.
Print Assumptions C22_jp_only_refuted.

(** C22: "H is unchanged for the caller" is false in three ways. *)
Theorem C22_readonly_refuted :
  build_mb_ham QcRing wbig qhalf 2 (H3 QcRing wHop) (mkflags true true true)
    (VDict QcRing (Some wU) None (Some wJ)) (StSz [1; 2]%N [1; 2]%N) false (qz 0) None = (Err AttributeError, false) /\
  snd (build_mb_ham QcRing wbig qhalf 2 (H3 QcRing wHop) (mkflags false true false)
    (VArray QcRing wU) (StSz [1; 2]%N [1; 2]%N) false (qz 0) None) = true /\
  fst (build_mb_ham QcRing wbig qhalf 2 (H2 QcRing (wHop 0)) (mkflags false true false)
    (VArray QcRing wU) (StSz [1; 2]%N [1; 2]%N) false (qz 0) None) = Err ValueError.
Proof. split; [exact left_readonly|exact readonly_inputs]. Qed.
Print Assumptions C22_readonly_refuted.

Example C22_ex :
  let r := build_mb_ham QcRing wbig qhalf 2 (H2 QcRing (wHop 0)) (mkflags true true true)
    (VDict QcRing (Some wU) (Some wJ) None) (StSz [1; 2]%N [1; 2]%N) false (qz 0) None in
  map (kind_of QcRing) (built r) = [KLocal; KUp; KDw; KNonLocal] /\ snd r = true.
Proof. vm_compute. auto. Qed.

(** C23: matrix-free product = dense matrix times vector, for every content of
    the uninitialised output. *)
Theorem C23_matvec_is_dense : forall (K : CRing) truthy d v rest empty w,
  length v = d -> rest <> [] -> Forall (op_fits K d) rest -> length w = d -> length empty = d ->
  exists D y, todense K (OpLocal K v :: rest) = Ok D /\ d_rows K D = d /\ d_cols K D = d /\
    (forall a b, d_at K D a b = cadd K (bsum (fun o => odense K o a b) rest)
       (if a =? b then nth a v (c0 K) else c0 K)) /\
    matvec K truthy (OpLocal K v :: rest) empty w None = Ok y /\ length y = d /\
    forall a, a < d -> nth a y (c0 K) = nsum d (fun b => cmul K (d_at K D a b) (nth b w (c0 K))).
Proof. exact matvec_is_todense. Qed.
Print Assumptions C23_matvec_is_dense.

Theorem C23_output_contents_irrelevant : forall (K : CRing) truthy v rest e1 e2 w, length e1 = length e2 ->
  matvec K truthy (OpLocal K v :: rest) e1 w None = matvec K truthy (OpLocal K v :: rest) e2 w None.
Proof. exact matvec_empty. Qed.
Print Assumptions C23_output_contents_irrelevant.

Example C23_ex :
  let m := mksp QcRing [qz 2; qz 3; qz 5] [0; 1; 3] [1; 0; 1]%Z 2 2 in
  let ops := [OpLocal QcRing (map qz [1; 1; 1; 10]%Z); OpUp QcRing m 2; OpDw QcRing m 2] in
  shown ops = [[1#1; 2#1; 2#1; 0#1]; [3#1; 6#1; 0#1; 2#1]; [3#1; 0#1; 6#1; 2#1]; [0#1; 3#1; 3#1; 20#1]]%Q /\
  match matvec QcRing (fun _ => true) ops (map qz [7; 7; 7; 7]%Z) (map qz [1; 2; 3; 4]%Z) None with
  | Ok y => map this y = [11#1; 23#1; 29#1; 95#1]%Q | Err _ => False end.
Proof. vm_compute. auto. Qed.

(** C24: every complete execution of the parallel loop ends in the sequential
    result, takes exactly two steps per statement, never gets stuck, and cannot
    run longer; for every assignment of iterations to threads, and with no law
    of arithmetic assumed. *)
Theorem C24_up_schedules : forall F (fadd fmul : F -> F -> F) A W y z its groups,
  up_threads F fmul A W = Ok its -> UPmultiply F fadd fmul A W y = Ok z -> dispatch its groups ->
  forall n c, psteps F fadd n (y, map (start F) (map (@concat _) groups)) c ->
    n <= 2 * length (concat its) /\
    (finished F (snd c) -> fst c = z /\ n = 2 * length (concat its)) /\
    (~ finished F (snd c) -> exists c', pstep F fadd c c').
Proof. exact up_parallel. Qed.
Print Assumptions C24_up_schedules.
Theorem C24_dw_schedules : forall F (fadd fmul : F -> F -> F) A W y z its groups,
  dw_threads F fmul A W = Ok its -> DWmultiply F fadd fmul A W y = Ok z -> dispatch its groups ->
  forall n c, psteps F fadd n (y, map (start F) (map (@concat _) groups)) c ->
    n <= 2 * length (concat its) /\
    (finished F (snd c) -> fst c = z /\ n = 2 * length (concat its)) /\
    (~ finished F (snd c) -> exists c', pstep F fadd c c').
Proof. exact dw_parallel. Qed.
Print Assumptions C24_dw_schedules.
Theorem C24_multiply_schedules : forall F (fadd fmul : F -> F -> F) A W y z its groups,
  nl_threads F fmul A W = Ok its -> Multiply F fadd fmul A W y = Ok z -> dispatch its groups ->
  forall n c, psteps F fadd n (y, map (start F) (map (@concat _) groups)) c ->
    n <= 2 * length (concat its) /\
    (finished F (snd c) -> fst c = z /\ n = 2 * length (concat its)) /\
    (~ finished F (snd c) -> exists c', pstep F fadd c c').
Proof. exact nl_parallel. Qed.
Print Assumptions C24_multiply_schedules.

(** The semantics does lose updates when two threads share a cell: 0+1+2 can end as 1. *)
Example C24_ex_race : psteps Z Z.add 4 ([0]%Z, map (start Z) [[(0, 1%Z)]; [(0, 2%Z)]]) ([1]%Z, [mkt Z None []; mkt Z None []]).
Proof.
  eapply ps_cons; [eapply (ps Z Z.add 0); [reflexivity|apply ts_load; reflexivity]|].
  eapply ps_cons; [eapply (ps Z Z.add 1); [reflexivity|apply ts_load; reflexivity]|].
  eapply ps_cons; [eapply (ps Z Z.add 1); [reflexivity|apply ts_store; repeat constructor]|].
  eapply ps_cons; [eapply (ps Z Z.add 0); [reflexivity|apply ts_store; repeat constructor]|].
  apply ps_nil.
Qed.
Definition exA : raw Z := mkraw Z [2; 3; 5]%Z [0; 1; 3] [1; 0; 1]%Z 2 2.
Example C24_ex :
  up_threads Z Z.mul exA [1; 2; 3; 4]%Z = Ok [[(0, 4%Z); (1, 3%Z); (1, 10%Z)]; [(2, 8%Z); (3, 9%Z); (3, 20%Z)]] /\
  UPmultiply Z Z.add Z.mul exA [1; 2; 3; 4]%Z [0; 0; 0; 100]%Z = Ok [4; 13; 8; 129]%Z /\
  DWmultiply Z Z.add Z.mul exA [1; 2; 3; 4]%Z [0; 0; 0; 100]%Z = Ok [6; 8; 18; 126]%Z.
Proof. vm_compute. auto. Qed.

(** C25: collect_dw gives rank r the columns r*m..r*m+m-1 of all rows,
    collect_up undoes it; for every number of ranks and block size. *)
Theorem C25_transposes : forall F (dflt : F) (a : list (list F)) m n,
  0 < m -> 0 < length a -> n = m * length a -> (forall l, In l a -> length l = m * n) ->
  exists b, collect_dw F dflt m n a = Ok b /\ length b = length a /\ (forall l, In l b -> length l = n * m) /\
    collect_up F dflt n m b = Ok a /\
    forall r q i j, r < length a -> q < length a -> i < m -> j < m ->
      nth ((q * m + i) * m + j) (nth r b []) dflt = nth (i * n + (r * m + j)) (nth q a []) dflt.
Proof. exact transposes_inverse. Qed.
Print Assumptions C25_transposes.

Theorem C25_shape_checks : forall F (dflt : F) m n (a : list (list F)),
  (m * length a <> n -> collect_dw F dflt m n a = Err AssertionError) /\
  (m <> n * length a -> collect_up F dflt m n a = Err AssertionError).
Proof. exact transpose_checks. Qed.
Print Assumptions C25_shape_checks.

(** The docstring example of vector_transpose.py, two ranks. *)
Example C25_ex :
  collect_dw nat 99 3 6 [seq 0 18; seq 18 18] =
  Ok [[0; 1; 2; 6; 7; 8; 12; 13; 14; 18; 19; 20; 24; 25; 26; 30; 31; 32];
      [3; 4; 5; 9; 10; 11; 15; 16; 17; 21; 22; 23; 27; 28; 29; 33; 34; 35]].
Proof. vm_compute. reflexivity. Qed.

(** C26: concatenating the ranks' results gives the serial product, bit for
    bit (no law of arithmetic), and every rank's input slice is unchanged. *)
Theorem C26_distributed_is_serial : forall F (dflt : F) fadd fmul (diag vec : list (list F)) up dw m,
  0 < m -> 0 < length vec -> length diag = length vec -> raw_wf F up -> raw_wf F dw ->
  r_rows F up = m * length vec -> r_rows F dw = m * length vec ->
  (forall l, In l diag -> length l = m * (m * length vec)) -> (forall l, In l vec -> length l = m * (m * length vec)) ->
  exists out, mpi_matvec F dflt fadd fmul diag up dw vec = Ok (out, vec) /\ length out = length vec /\
    serial_matvec F fadd fmul (concat diag) up dw (concat vec) = Ok (concat out).
Proof. exact mpi_is_serial. Qed.
Print Assumptions C26_distributed_is_serial.

Theorem C26_checks : forall F (dflt : F) fadd fmul diag up dw vec,
  (r_rows F up <> r_rows F dw -> mpi_matvec F dflt fadd fmul diag up dw vec = Err NotImplementedError) /\
  (r_rows F up = r_rows F dw -> 0 < length vec -> r_rows F dw mod length vec <> 0 ->
     mpi_matvec F dflt fadd fmul diag up dw vec = Err ValueError).
Proof. exact mpi_checks. Qed.
Print Assumptions C26_checks.

Example C26_ex : mpi_matvec Z 0%Z Z.add Z.mul [[1; 1]; [1; 10]]%Z exA exA [[1; 2]; [3; 4]]%Z =
  Ok ([[11; 23]; [29; 95]], [[1; 2]; [3; 4]])%Z.
Proof. vm_compute. reflexivity. Qed.

(** C27: exactly when the dense assembly works. *)
Theorem C27_dense_iff : forall (K : CRing) (big : K -> bool) (half : K) n h fl V st hf mu z ops w f,
  1 <= n -> sector_of n st -> build_mb_ham K big half n h fl V st hf mu z = (Ok (ops, w), f) ->
  let nonlocal := match inter_Jx K V, inter_Jp K V with None, None => false | _, _ => true end in
  let hopping := match st with StSz _ _ => 1 <? n | StN _ => false end in
  if nonlocal || hopping then exists D, todense K ops = Ok D else todense K ops = Err IndexError.
Proof. exact dense_iff. Qed.
Print Assumptions C27_dense_iff.

Theorem C27_todense_refuted :
  (exists ops w f, build_mb_ham QcRing wbig qhalf 1 (H3 QcRing wHop) (mkflags true true true)
    (VArray QcRing wU) (StSz [1]%N [0]%N) false (qz 0) None = (Ok (ops, w), f) /\ todense QcRing ops = Err IndexError) /\
  (exists ops w f, build_mb_ham QcRing wbig qhalf 2 (H3 QcRing wHop) (mkflags true true true)
    (VArray QcRing wU) (StN [3; 5; 6; 9; 10; 12]%N) false (qz 0) None = (Ok (ops, w), f) /\ todense QcRing ops = Err IndexError).
Proof. exact todense_fails. Qed.
Print Assumptions C27_todense_refuted.

(** C27: the optional output argument cannot be used. *)
Theorem C27_out_argument_refuted : forall (K : CRing) truthy ops empty w x1 x2 r,
  matvec K truthy ops empty w (Some (x1 :: x2 :: r)) = Err ValueError.
Proof. exact matvec_res_raises. Qed.
Print Assumptions C27_out_argument_refuted.

(** C56: the assembled Sz matrix and its matrix-free product are the
    second-quantised Hamiltonian, with the opposite-spin exchange negated. *)
Theorem C56_hamiltonian_sz : forall (K : CRing) (big : K -> bool) (half : K) n nup ndw h fl V U hf mu z up dw truthy empty w,
  1 < n -> n <= 32 -> nup <= n -> ndw <= n ->
  cadd K half half = c1 K -> inter_U K V = Some U -> (inter_Jx K V = None -> inter_Jp K V = None) -> osymm K n (inter_Jx K V) ->
  settable K h fl = true -> generate_states n nup = Ok up -> generate_states n ndw = Ok dw ->
  length w = length up * length dw -> length empty = length up * length dw ->
  exists ops f y D, build_mb_ham K big half n h fl V (StSz up dw) hf mu z = (Ok (ops, false), f) /\
    todense K ops = Ok D /\
    matvec K truthy ops empty w None = Ok y /\ length y = length up * length dw /\
    forall ja ka ua da, nth_error up ja = Some ua -> nth_error dw ka = Some da ->
      (forall jb kb ub db, nth_error up jb = Some ub -> nth_error dw kb = Some db ->
        d_at K D (ja + ka * length up) (jb + kb * length up) =
        hamiltonian K half (copp K (c1 K)) n (fun s i => cadd K (hspin K h s i i) mu) U (zfun K hf z) hf
          (fun s => offdiag K big (hspin K h s)) (opt_offdiag K big (inter_Jx K V)) (opt_offdiag K big (inter_Jp K V))
          ub db ua da) /\
      nth (ja + ka * length up) y (c0 K) =
      nsum (length dw) (fun kb => nsum (length up) (fun jb =>
        cmul K (hamiltonian K half (copp K (c1 K)) n (fun s i => cadd K (hspin K h s i i) mu) U (zfun K hf z) hf
          (fun s => offdiag K big (hspin K h s)) (opt_offdiag K big (inter_Jx K V)) (opt_offdiag K big (inter_Jp K V))
          (nth jb up 0%N) (nth kb dw 0%N) ua da) (nth (jb + kb * length up) w (c0 K)))).
Proof. exact mb_matvec. Qed.
Print Assumptions C56_hamiltonian_sz.

(** C56: N symmetry: no hopping, down-spin energies for both spins, documented
    exchange sign. *)
Theorem C56_hamiltonian_n : forall (K : CRing) (big : K -> bool) (half : K) n p H V U hf mu z states,
  2 * n <= 32 -> p <= 2 * n -> inter_U K V = Some U -> generate_states (2 * n) p = Ok states ->
  exists vec rest, mb_operators K big half n H V (StN states) hf mu z = Ok (OpLocal K vec :: rest, true) /\
    map (fun o => match o with OpLocal _ _ => 0 | OpUp _ _ _ => 1 | OpDw _ _ _ => 2 | OpNL _ _ => 3 end) rest =
      (match inter_Jx K V, inter_Jp K V with None, None => [] | _, _ => [3] end) /\
    length vec = length states /\
    Forall (op_fits K (length states)) rest /\
    forall a b ua da ub db, (ua < 2 ^ N.of_nat n)%N -> (da < 2 ^ N.of_nat n)%N ->
      (ub < 2 ^ N.of_nat n)%N -> (db < 2 ^ N.of_nat n)%N ->
      nth_error states a = Some (combine n ua da) -> nth_error states b = Some (combine n ub db) ->
      cadd K (bsum (fun o => odense K o a b) rest) (if a =? b then nth a vec (c0 K) else c0 K) =
      hamiltonian K half (c1 K) n (fun _ i => cadd K (H 1 i i) mu) U (zfun K hf z) hf
        (fun _ _ _ => c0 K) (opt_offdiag K big (inter_Jx K V)) (opt_offdiag K big (inter_Jp K V)) ub db ua da.
Proof. exact mb_n. Qed.
Print Assumptions C56_hamiltonian_n.

Example C56_ex : map this (map (fun x => hamiltonian QcRing qhalf (qz (-1)) 2 (fun s i => wHop s i i) wU (fun _ => qz 0) false
   (fun s => offdiag QcRing wbig (wHop s)) (offdiag QcRing wbig wJ) (offdiag QcRing wbig wJ) (fst x) (snd x) 1 2)
   [(1, 1); (2, 1); (1, 2); (2, 2)]%N) = [2#1; -1#1; 3#1; 2#1]%Q.
Proof. vm_compute. reflexivity. Qed.
