(** Property theorems C28-C33 and C57: eigenvalue spaces. *)
From Coq Require Import QArith Qcanon String List Arith NArith ZArith Bool Sorted Permutation Reals Lia Lra.
From Verif Require Import Base RBase OperatorsSpec LookupModel SectorModel SectorSpec LocalModel MatvecModel MbModel MbSpec
  EspaceModel EspaceSpec EspaceProofs EspaceMoreProofs EspaceEigProofs EspaceRealModel EspaceRealProofs.
Import ListNotations.
Local Open Scope nat_scope.

(** C28: keys in lexicographic order; exactly the sectors whose request is not
    zero and whose solver answer is not empty; each holds its answer; [egs] is
    the least stored eigenvalue. *)
Theorem C28_build_espace : forall (K : CRing) (leb : K -> K -> bool),
  (forall a b, leb a b = true \/ leb b a = true) ->
  (forall a b c, leb a b = true -> leb b c = true -> leb a c = true) ->
  forall (big : K -> bool) half eigh eigsh n h fl V hf mu z neig s esp egs,
  build_espace K leb big half eigh eigsh n h fl V hf mu z neig s = Ok (esp, egs) ->
  exists sym req, symmetry_of s = Ok sym /\ match neig with Some l => Ok l | None => get_espace_dim n None s end = Ok req /\
    StronglySorted qless (map fst esp) /\
    (forall q, In q (map fst esp) <-> qvalid sym n q /\ exists s, answer K big half eigh eigsh n h fl V hf mu z sym req q s) /\
    (forall q s, In (q, s) esp -> answer K big half eigh eigsh n h fl V hf mu z sym req q s) /\
    egs_ok K leb esp egs.
Proof. exact build_espace_spec. Qed.
Print Assumptions C28_build_espace.

(** C28: it succeeds whenever every requested sector can be solved. *)
Theorem C28_succeeds : forall (K : CRing) (leb : K -> K -> bool) (big : K -> bool) half eigh eigsh n h fl V hf mu z neig s sym req,
  symmetry_of s = Ok sym -> (match sym with SymSz => n <= 32 | SymN => 2 * n <= 32 end) ->
  match neig with Some l => Ok l | None => get_espace_dim n None s end = Ok req -> qtotal sym n <= length req ->
  (forall q st k, qvalid sym n q -> qns_states n q = Ok st -> nth_error req (qpos sym n q) = Some k -> k <> 0%Z ->
     exists r, solve_sector K big half eigh eigsh n h fl V hf mu z st (Some k) = Ok r) ->
  exists r, build_espace K leb big half eigh eigsh n h fl V hf mu z neig s = Ok r.
Proof. exact build_espace_total. Qed.
Print Assumptions C28_succeeds.

(** C28: symmetry names. *)
Theorem C28_symmetry_names : forall (K : CRing) (leb : K -> K -> bool) (big : K -> bool) half eigh eigsh n h fl V hf mu z neig s,
  (In s ["sz"; "Sz"; "sZ"; "SZ"]%string -> symmetry_of s = Ok SymSz) /\
  (In s ["n"; "N"]%string -> symmetry_of s = Ok SymN) /\
  (~ In s ["sz"; "Sz"; "sZ"; "SZ"; "n"; "N"]%string ->
     build_espace K leb big half eigh eigsh n h fl V hf mu z neig s = Err NotImplementedError).
Proof. exact names_build. Qed.
Print Assumptions C28_symmetry_names.

(** A toy solver on integers: the diagonal, with unit vectors, sorted. *)
Definition diag_solver (D : dense ZRing) : res (list Z * list (list Z)) :=
  Ok (sort ZRing Z.leb (map (fun a => d_at ZRing D a a) (seq 0 (d_rows ZRing D))),
      map (fun a => map (fun b => if a =? b then 1%Z else 0%Z) (seq 0 (d_rows ZRing D))) (seq 0 (d_rows ZRing D))).
Definition no_arpack : nat -> Z -> (list Z -> res (list Z)) -> res (list Z * list (list Z)) := fun _ _ _ => Err RuntimeError.
Example C28_ex :
  match build_espace ZRing Z.leb (fun _ => true) 0%Z diag_solver no_arpack 2
      (H3 ZRing (fun _ i j => if (i =? j)%nat then (Z.of_nat i - 3)%Z else 0%Z)) (mkflags true true true)
      (VArray ZRing (fun i j => if (i =? j)%nat then 5%Z else 0%Z)) false 0%Z None (Some [0; 1; 0; 0; 4; 0; 1; 0; 0]%Z) "Sz" with
  | Ok (esp, egs) => map (fun e => (fst e, s_vals ZRing (snd e))) esp =
       [([0; 1], [-3]%Z); ([1; 1], [-5; -5; -1; 1]%Z); ([2; 0], [-5]%Z)] /\ egs = Some (-5)%Z
  | Err _ => False end.
Proof. vm_compute. auto. Qed.

(** C29: the lowest k pairs, each value with its vector; all if k is omitted;
    Python's slice for negative k. *)
Theorem C29_count : forall (K : CRing) (big : K -> bool) half eigh eigsh n h fl V hf mu z st k vals cols,
  solve_lapack K big half eigh n h fl V hf mu z st = Ok (vals, cols) ->
  length vals = states_dim st -> length cols = states_dim st ->
  let d := Z.of_nat (states_dim st) in
  solve_sector K big half eigh eigsh n h fl V hf mu z st None = Ok (vals, cols) /\
  ((d <= 512 \/ k = d)%Z ->
    solve_sector K big half eigh eigsh n h fl V hf mu z st (Some k) =
      Ok (let m := if (k <? 0)%Z then states_dim st - Z.to_nat (- k) else min (Z.to_nat k) (states_dim st) in
          (firstn m vals, firstn m cols))).
Proof. exact solve_counts. Qed.
Print Assumptions C29_count.

Theorem C29_lowest : forall (K : CRing) (leb : K -> K -> bool) (l : list K) m a b j,
  ascending leb l -> In a (firstn m l) -> m <= j -> nth_error l j = Some b -> leb a b = true.
Proof. exact firstn_lowest. Qed.
Print Assumptions C29_lowest.

(** C29: beyond 512 states the iterative solver answers, unless all are asked for. *)
Theorem C29_arpack : forall (K : CRing) (big : K -> bool) half eigh eigsh n h fl V hf mu z st k,
  (512 < Z.of_nat (states_dim st))%Z -> k <> Z.of_nat (states_dim st) ->
  solve_sector K big half eigh eigsh n h fl V hf mu z st (Some k) = solve_arpack K big half eigsh n h fl V hf mu z st k.
Proof. exact solve_arpack_used. Qed.
Print Assumptions C29_arpack.

Example C29_ex : solve_sector ZRing (fun _ => true) 0%Z diag_solver no_arpack 2
      (H3 ZRing (fun _ i j => if (i =? j)%nat then (Z.of_nat i - 3)%Z else 0%Z)) (mkflags true true true)
      (VArray ZRing (fun i j => if (i =? j)%nat then 5%Z else 0%Z)) false 0%Z None (StSz [1; 2]%N [1; 2]%N) (Some 2%Z) =
  Ok ([-5; -5]%Z, [[1; 0; 0; 0]; [0; 1; 0; 0]]%Z).
Proof. vm_compute. reflexivity. Qed.

(** C30. *)
Theorem C30_dims : forall n neig_max s sym, symmetry_of s = Ok sym ->
  exists l, get_espace_dim n neig_max s = Ok l /\ length l = qtotal sym n /\
    forall q, qvalid sym n q -> nth_error l (qpos sym n q) =
      Some (match neig_max with
            | None => Z.of_nat (qdim n q)
            | Some m => if Z.eqb m 0 then Z.of_nat (qdim n q) else Z.min (Z.of_nat (qdim n q)) m
            end).
Proof. exact espace_dims. Qed.
Print Assumptions C30_dims.
Theorem C30_unknown_symmetry : forall n neig_max s, ~ In s ["sz"; "Sz"; "sZ"; "SZ"; "n"; "N"]%string ->
  get_espace_dim n neig_max s = Err NotImplementedError.
Proof. exact names_dims. Qed.
Print Assumptions C30_unknown_symmetry.
Example C30_ex : get_espace_dim 2 (Some 3%Z) "sz" = Ok [1; 2; 1; 2; 3; 2; 1; 2; 1]%Z /\
  get_espace_dim 2 None "N" = Ok [1; 4; 6; 4; 1]%Z.
Proof. vm_compute. auto. Qed.

(** C31: screening, for every criterion on eigenvalues. *)
Theorem C31_screen : forall (K : CRing) (relevant : K -> bool) esp,
  Forall (fun e => paired K (snd e)) esp -> NoDup (map fst esp) ->
  exists esp', screen_espace K relevant esp = (Ok tt, esp') /\
    Forall (fun e => paired K (snd e)) esp' /\ NoDup (map fst esp') /\
    map fst esp' = map fst (filter (fun e => existsb relevant (s_vals K (snd e))) esp) /\
    (forall q s', In (q, s') esp' -> exists s, In (q, s) esp /\ s_states K s' = s_states K s /\
       s_vals K s' = filter relevant (s_vals K s) /\
       pairs K s' = filter (fun p => relevant (fst p)) (pairs K s)) /\
    screen_espace K relevant esp' = (Ok tt, esp').
Proof. exact screen_spec. Qed.
Print Assumptions C31_screen.

(** C31: the Boltzmann criterion keeps the ground state for every cutoff < 1 ... *)
Theorem C31_ground_state_kept : forall beta egs cutoff (esp : espace RRing), (cutoff < 1)%R ->
  Forall (fun e => paired RRing (snd e)) esp -> NoDup (map fst esp) ->
  (exists q s, In (q, s) esp /\ In egs (s_vals RRing s)) ->
  exists esp', screen_espace RRing (boltzmann beta egs cutoff) esp = (Ok tt, esp') /\
    exists q s', In (q, s') esp' /\ In egs (s_vals RRing s').
Proof. exact gs_survives. Qed.
Print Assumptions C31_ground_state_kept.
(** ... is monotone in the cutoff ... *)
Theorem C31_cutoff_monotone : forall beta egs c1 c2 (esp : espace RRing), (c1 <= c2)%R ->
  Forall (fun e => paired RRing (snd e)) esp -> NoDup (map fst esp) ->
  exists e1 e2, screen_espace RRing (boltzmann beta egs c1) esp = (Ok tt, e1) /\
    screen_espace RRing (boltzmann beta egs c2) esp = (Ok tt, e2) /\
    forall q s2, In (q, s2) e2 -> exists s1, In (q, s1) e1 /\ incl (pairs RRing s2) (pairs RRing s1).
Proof. exact cutoff_monotone. Qed.
Print Assumptions C31_cutoff_monotone.
(** ... and keeps everything below a kept eigenvalue. *)
Theorem C31_low_energies_first : forall beta egs cutoff e e', (0 <= beta)%R -> (e <= e')%R ->
  boltzmann beta egs cutoff e' = true -> boltzmann beta egs cutoff e = true.
Proof. exact boltzmann_downward. Qed.
Print Assumptions C31_low_energies_first.

(** C31: a space without eigenvectors (build_non_interacting_espace) cannot be
    screened. *)
Theorem C31_no_eigenvectors : forall (K : CRing) (relevant : K -> bool) q s rest,
  s_vecs K s = NoVecs K -> existsb relevant (s_vals K s) = true ->
  screen_espace K relevant ((q, s) :: rest) = (Err AttributeError, (q, s) :: rest).
Proof. intros K relevant q s rest. exact (screen_no_vecs K relevant [] q s rest (Forall_nil _) (NoDup_nil _)). Qed.
Print Assumptions C31_no_eigenvectors.

Example C31_ex : let st := StN [1; 2; 4]%N in
  screen_espace ZRing (fun e => (e <? 3)%Z)
    [([0], mksct ZRing st [1; 5; 2]%Z (Cols ZRing [[1]; [2]; [3]]%Z)); ([1], mksct ZRing st [7]%Z (Cols ZRing [[4]]%Z));
     ([2], mksct ZRing st [2]%Z (Cols ZRing [[5]]%Z))] =
  (Ok tt, [([0], mksct ZRing st [1; 2]%Z (Cols ZRing [[1]; [3]]%Z)); ([2], mksct ZRing st [2]%Z (Cols ZRing [[5]]%Z))]).
Proof. vm_compute. reflexivity. Qed.

(** C32: the documented rule for every sector. *)
Theorem C32_rule : forall (K : CRing) n (esp : espace K) neig, qtotal SymSz n <= length neig ->
  StronglySorted qless (map fst esp) -> Forall (fun e => qvalid SymSz n (fst e)) esp ->
  exists neig', adjust_neigsector K n esp neig = Ok neig' /\ length neig' = length neig /\
    forall q, qvalid SymSz n q -> nth_error neig' (qpos SymSz n q) =
      option_map (fun x => neig_rule (Z.of_nat (qdim n q)) x (find_size K esp q)) (nth_error neig (qpos SymSz n q)).
Proof. exact adjust_rule. Qed.
Print Assumptions C32_rule.

(** C32: any number of repetitions keeps requests between 1 and the dimension. *)
Theorem C32_repeated : forall (K : CRing) n (esps : list (espace K)) neig, qtotal SymSz n <= length neig ->
  in_range n neig ->
  Forall (fun esp => StronglySorted qless (map fst esp) /\ Forall (fun e => qvalid SymSz n (fst e)) esp) esps ->
  exists neig', foldM (fun neig esp => adjust_neigsector K n esp neig) esps neig = Ok neig' /\
    length neig' = length neig /\ in_range n neig'.
Proof. exact adjust_repeated. Qed.
Print Assumptions C32_repeated.

(** C32: keys out of order always raise StopIteration. *)
Theorem C32_unsorted_raises : forall (K : CRing) n (esp : espace K) neig, qtotal SymSz n <= length neig ->
  Forall (fun e => qvalid SymSz n (fst e)) esp -> ~ StronglySorted qless (map fst esp) ->
  adjust_neigsector K n esp neig = Err StopIteration.
Proof. exact adjust_unsorted. Qed.
Print Assumptions C32_unsorted_raises.

Example C32_ex : let s k := mksct ZRing (StN []) (repeat 0%Z k) (NoVecs ZRing) in
  adjust_neigsector ZRing 2 [([0; 1], s 2); ([1; 1], s 3); ([2; 0], s 1)] [1; 3; 0; 5; 3; 2; 1; 2; 1]%Z =
  Ok [1; 2; 1; 4; 4; 1; 1; 1; 1]%Z.
Proof. vm_compute. reflexivity. Qed.

(** C33: sums of occupied levels, sorted, for up to 8 levels. *)
Theorem C33_free_spectrum : forall (K : CRing) (leb : K -> K -> bool),
  (forall a b, leb a b = true \/ leb b a = true) ->
  (forall a b c, leb a b = true -> leb b c = true -> leb a c = true) ->
  forall wild ek, length ek <= 8 ->
  exists esp egs, build_non_interacting_espace K leb wild ek = Ok (esp, egs) /\
    StronglySorted qless (map fst esp) /\ (forall q, In q (map fst esp) <-> qvalid SymSz (length ek) q) /\
    (forall q s, In (q, s) esp -> exists up dw, qns_states (length ek) q = Ok (StSz up dw) /\
       s_states K s = StSz up dw /\ s_vecs K s = NoVecs K /\ ascending leb (s_vals K s) /\
       Permutation (s_vals K s)
         (flat_map (fun sdw => map (fun sup => cadd K (occupied_energy K ek sup) (occupied_energy K ek sdw)) up) dw)) /\
    egs_ok K leb esp egs.
Proof. exact free_spectrum. Qed.
Print Assumptions C33_free_spectrum.

(** C33: with nine levels and x86 shifts the one-electron energies come out as
    e_k + e_(k+1) instead of e_k. *)
Theorem C33_nine_levels_refuted : exists esp egs s,
  build_non_interacting_espace ZRing Z.leb x86 ek9 = Ok (esp, egs) /\ In ([1; 0], s) esp /\
  s_vals ZRing s = [11; 110; 1100; 11000; 110000; 1100000; 11000000; 100000001; 110000000]%Z.
Proof. exact nine_levels. Qed.
Print Assumptions C33_nine_levels_refuted.

Example C33_ex : match build_non_interacting_espace ZRing Z.leb x86 [3; -1; 10]%Z with
  | Ok (esp, egs) => map (fun e => s_vals ZRing (snd e)) (firstn 6 esp) =
      [[0]; [-1; 3; 10]; [2; 9; 13]; [12]; [-1; 3; 10]; [-2; 2; 2; 6; 9; 9; 13; 13; 20]]%Z /\ egs = Some (-2)%Z
  | Err _ => False end.
Proof. vm_compute. auto. Qed.

(** C57: every eigenpair stored by build_espace is an eigenpair of the
    second-quantised Hamiltonian, provided the library solvers return
    eigenpairs of the matrix (or product) they are given. *)
Theorem C57_stored_eigenpairs : forall (K : CRing) (leb : K -> K -> bool) (big : K -> bool) half eigh eigsh n h fl V hf mu z U neig s esp egs,
  1 < n -> n <= 32 -> cadd K half half = c1 K -> inter_U K V = Some U ->
  (inter_Jx K V = None -> inter_Jp K V = None) ->
  (forall sp, symm K n (hspin K h sp)) -> osymm K n (inter_Jx K V) -> osymm K n (inter_Jp K V) ->
  settable K h fl = true -> eigh_sound K eigh -> eigsh_sound K eigsh ->
  (forall a b, leb a b = true \/ leb b a = true) -> (forall a b c, leb a b = true -> leb b c = true -> leb a c = true) ->
  symmetry_of s = Ok SymSz ->
  build_espace K leb big half eigh eigsh n h fl V hf mu z neig s = Ok (esp, egs) ->
  forall q sc, In (q, sc) esp -> exists nup ndw up dw c, q = [nup; ndw] /\
    generate_states n nup = Ok up /\ generate_states n ndw = Ok dw /\ s_states K sc = StSz up dw /\ s_vecs K sc = Cols K c /\
    forall i e v, nth_error (s_vals K sc) i = Some e -> nth_error c i = Some v -> is_eigenpair K big half n h V hf mu z U up dw e v.
Proof. exact stored_eigenpairs. Qed.
Print Assumptions C57_stored_eigenpairs.
Example C57_ex : eigh_sound QcRing (one_solver QcRing) /\
  match build_espace QcRing (fun a b => match Qcanon.Qccompare a b with Gt => false | _ => true end) (fun _ => true) qhalf
      (one_solver QcRing) (fun _ _ _ => Err RuntimeError) 2
      (H2 QcRing (fun i j => qz (Z.of_nat (i + j)))) (mkflags true true true)
      (VArray QcRing (fun i j => if (i =? j)%nat then qz 5 else qz 0)) false (qz 0) None None "sz" with
  | Ok (esp, egs) => map (fun e => (fst e, map Qcanon.this (s_vals QcRing (snd e)))) esp =
       [([0; 0], [0]%Q); ([0; 2], [2]%Q); ([2; 0], [2]%Q); ([2; 2], [14]%Q)]
  | Err _ => False end.
Proof. split; [exact (one_solver_sound QcRing)|vm_compute; reflexivity]. Qed.
