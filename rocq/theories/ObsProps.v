(** C41, C42, C61: occupations. *)
From Coq Require Import Reals List Arith NArith ZArith Bool Lia Lra QArith Qcanon.
From Verif Require Import Base RBase RLin OperatorsSpec FockSpec SectorModel LocalModel ObsModel ObsSpec ProjProofs ObsProofs ObsMoreProofs.
Import ListNotations.
Local Open Scope nat_scope.

(** C41: in either memory layout the returned numbers are
    <v_j| n_k |v_j> times the weight of vector j. *)
Theorem C41_expectation (K : CRing) n up dw (a : arr K) nev coeffs :
  (forall s, In s up -> (s < 2 ^ N.of_nat n)%N) ->
  matrix_arr K a (length up * length dw) nev -> match coeffs with Some c => length c = nev | None => True end ->
  exists mu md a', evecs_occupation K a up dw n coeffs = (Ok (mu, md), a') /\ shaped mu n nev /\ shaped md n nev /\
  (forall k j, k < n -> j < nev ->
     nth j (nth k mu []) (c0 K) = cmul K (weight_of K coeffs j) (expect K n up dw (fun i => entry K a (length up * length dw) nev i j) k) /\
     nth j (nth k md []) (c0 K) = cmul K (weight_of K coeffs j) (expect K n up dw (fun i => entry K a (length up * length dw) nev i j) (n + k))) /\
  a' = if a_f K a then a else mkarr K false [length dw; length up; nev] (a_buf K a).
Proof. exact (fun H => evecs_occupation_ok K n up dw H a nev coeffs). Qed.
Print Assumptions C41_expectation.

(** Normalised vectors of a sector: occupations in [0,1], summing to the electron numbers. *)
Theorem C41_bounds n p q up dw a nev : p <= n -> q <= n -> n <= 32 ->
  generate_states n p = Ok up -> generate_states n q = Ok dw ->
  matrix_arr RRing a (length up * length dw) nev -> unit_columns a (length up * length dw) nev ->
  exists mu md, fst (evecs_occupation RRing a up dw n None) = Ok (mu, md) /\ shaped mu n nev /\ shaped md n nev /\
  (forall k j, k < n -> j < nev -> (0 <= nth j (nth k mu []) 0 <= 1)%R /\ (0 <= nth j (nth k md []) 0 <= 1)%R) /\
  forall j, j < nev -> rsum n (fun k => nth j (nth k mu []) 0%R) = INR p /\ rsum n (fun k => nth j (nth k md []) 0%R) = INR q.
Proof. exact (occupation_bounds n p q up dw a nev). Qed.
Print Assumptions C41_bounds.

(** Weights multiply the unweighted numbers. *)
Theorem C41_linear (K : CRing) n up dw (a : arr K) nev c : (forall s, In s up -> (s < 2 ^ N.of_nat n)%N) ->
  matrix_arr K a (length up * length dw) nev -> length c = nev ->
  exists mu md wu wd, fst (evecs_occupation K a up dw n None) = Ok (mu, md) /\ fst (evecs_occupation K a up dw n (Some c)) = Ok (wu, wd) /\
  shaped wu n nev /\ shaped wd n nev /\
  forall k j, k < n -> j < nev -> nth j (nth k wu []) (c0 K) = cmul K (nth j c (c0 K)) (nth j (nth k mu []) (c0 K)) /\
     nth j (nth k wd []) (c0 K) = cmul K (nth j c (c0 K)) (nth j (nth k md []) (c0 K)).
Proof. exact (weights_linear K n up dw a nev c). Qed.
Print Assumptions C41_linear.

(** Same entries, whatever the layout: same result. *)
Theorem C41_layouts (K : CRing) n up dw (a b : arr K) nev coeffs : (forall s, In s up -> (s < 2 ^ N.of_nat n)%N) ->
  matrix_arr K a (length up * length dw) nev -> matrix_arr K b (length up * length dw) nev ->
  match coeffs with Some c => length c = nev | None => True end ->
  (forall i j, i < length up * length dw -> j < nev -> entry K a (length up * length dw) nev i j = entry K b (length up * length dw) nev i j) ->
  fst (evecs_occupation K a up dw n coeffs) = fst (evecs_occupation K b up dw n coeffs).
Proof. exact (layouts_agree K n up dw a b nev coeffs). Qed.
Print Assumptions C41_layouts.

(** Thermal averages over any list of solved sectors. *)
Theorem C41_thermal scts egs beta n : (forall s, In s scts -> sector_ok n s) ->
  existsb (fun s => negb (length (o_vals s) =? 0)) scts = true ->
  exists u d, fst (get_occupation scts egs beta n) = Ok (u, d) /\ length u = n /\ length d = n /\
  forall k, k < n -> nth k u 0%R = thermal scts egs beta n k /\ nth k d 0%R = thermal scts egs beta n (n + k) /\
     (0 <= nth k u 0 <= 1)%R /\ (0 <= nth k d 0 <= 1)%R.
Proof. exact (thermal_ok scts egs beta n). Qed.
Print Assumptions C41_thermal.

(** Two sites, one electron of each spin, the two vectors (3/5,0,0,4/5) and (0,0,1,0) in both layouts. *)
Definition ex_F : arr QcRing := mkarr QcRing true [4; 2] (map Q2Qc [3#5; 0; 0; 4#5; 0; 0; 1; 0])%Q.
Definition ex_C : arr QcRing := mkarr QcRing false [4; 2] (map Q2Qc [3#5; 0; 0; 0; 0; 1; 4#5; 0])%Q.
Definition show (r : res (list (list Qc) * list (list Qc))) := match r with Ok (u, d) => Some (map (map this) u, map (map this) d) | Err _ => None end.
Example C41_ex : show (fst (evecs_occupation QcRing ex_F [1; 2]%N [1; 2]%N 2 None)) = Some ([[9#25; 1]; [16#25; 0]], [[9#25; 0]; [16#25; 1]])%Q /\
  show (fst (evecs_occupation QcRing ex_C [1; 2]%N [1; 2]%N 2 None)) = Some ([[9#25; 1]; [16#25; 0]], [[9#25; 0]; [16#25; 1]])%Q.
Proof. vm_compute. auto. Qed.
Example C41_ex_hyp : generate_states 2 1 = Ok [1; 2]%N /\ matrix_arr QcRing ex_F 4 2 /\ matrix_arr QcRing ex_C 4 2 /\
  forall i j, i < 4 -> j < 2 -> entry QcRing ex_F 4 2 i j = entry QcRing ex_C 4 2 i j.
Proof.
  split; [vm_compute; reflexivity|]. split; [split; reflexivity|]. split; [split; reflexivity|].
  intros i j Hi Hj. destruct j as [|[|]]; [| |lia]; (destruct i as [|[|[|[|]]]]; [reflexivity|reflexivity|reflexivity|reflexivity|lia]).
Qed.
Definition ex_R : osct := mkosct (StSz [1; 2]%N [1; 2]%N) [0%R; 1%R] (mkarr RRing true [4; 2] [3/5; 0; 0; 4/5; 0; 0; 1; 0]%R).
Example C41_ex_sector : sector_ok 2 ex_R.
Proof.
  exists 1, 1, [1; 2]%N, [1; 2]%N. do 3 (split; [repeat constructor|]). do 3 (split; [reflexivity|]). split; [split; reflexivity|]. intros j Hj. simpl in Hj. destruct j as [|[|]]; [| |lia]; unfold rsum, nsum, entry; cbn;
  match goal with |- ?x = ?y => change (@eq R x y) end; field.
Qed.

(** C42: on [P] ranks, each holding its block of rows, the reduced result counts
    the first [P * (|dw| / P)] down states: all of them when P divides |dw|. *)
Theorem C42_distributed (K : CRing) n up dw (arrs : list (arr K)) nev coeffs (v : nat -> nat -> K) d0 :
  (forall s, In s up -> (s < 2 ^ N.of_nat n)%N) -> arrs <> [] ->
  match coeffs with Some c => length c = nev | None => True end ->
  let loc := length dw / length arrs in
  (forall r, r < length arrs -> matrix_arr K (nth r arrs d0) (loc * length up) nev /\
     forall i j, i < loc * length up -> j < nev -> entry K (nth r arrs d0) (loc * length up) nev i j = v (r * (loc * length up) + i) j) ->
  exists mu md, evecs_occupation_mpi K arrs up dw n coeffs = Ok (mu, md) /\ shaped mu n nev /\ shaped md n nev /\
  forall k j, k < n -> j < nev ->
    nth j (nth k mu []) (c0 K) = cmul K (weight_of K coeffs j) (expect K n up (firstn (length arrs * loc) dw) (fun i => v i j) k) /\
    nth j (nth k md []) (c0 K) = cmul K (weight_of K coeffs j) (expect K n up (firstn (length arrs * loc) dw) (fun i => v i j) (n + k)).
Proof. exact (mpi_ok K n up dw arrs nev coeffs v d0). Qed.
Print Assumptions C42_distributed.
(** Serial and distributed runs on the same data. *)
Theorem C42_serial (K : CRing) n up dw (a : arr K) (arrs : list (arr K)) nev coeffs d0 :
  (forall s, In s up -> (s < 2 ^ N.of_nat n)%N) -> arrs <> [] -> Nat.divide (length arrs) (length dw) ->
  match coeffs with Some c => length c = nev | None => True end ->
  matrix_arr K a (length up * length dw) nev ->
  let loc := length dw / length arrs in
  (forall r, r < length arrs -> matrix_arr K (nth r arrs d0) (loc * length up) nev /\
     forall i j, i < loc * length up -> j < nev -> entry K (nth r arrs d0) (loc * length up) nev i j = entry K a (length up * length dw) nev (r * (loc * length up) + i) j) ->
  evecs_occupation_mpi K arrs up dw n coeffs = fst (evecs_occupation K a up dw n coeffs).
Proof. exact (mpi_serial K n up dw a arrs nev coeffs d0). Qed.
Print Assumptions C42_serial.

Definition ex_r0 : arr QcRing := mkarr QcRing true [2; 2] (map Q2Qc [3#5; 0; 0; 0])%Q.
Definition ex_r1 : arr QcRing := mkarr QcRing false [2; 2] (map Q2Qc [0; 1; 4#5; 0])%Q.
Example C42_ex : show (evecs_occupation_mpi QcRing [ex_r0; ex_r1] [1; 2]%N [1; 2]%N 2 None) = Some ([[9#25; 1]; [16#25; 0]], [[9#25; 0]; [16#25; 1]])%Q.
Proof. vm_compute. reflexivity. Qed.
Example C42_ex_hyp : Nat.divide 2 2 /\ forall r, r < 2 -> matrix_arr QcRing (nth r [ex_r0; ex_r1] ex_r0) 2 2 /\
   forall i j, i < 2 -> j < 2 -> entry QcRing (nth r [ex_r0; ex_r1] ex_r0) 2 2 i j = entry QcRing ex_F 4 2 (r * 2 + i) j.
Proof.
  split; [exists 1; reflexivity|]. intros [|[|r]] Hr; [| |lia]; (split; [split; reflexivity|]); intros i j Hi Hj;
  (destruct i as [|[|]]; [| |lia]); (destruct j as [|[|]]; [| |lia]); reflexivity.
Qed.

(** C61, refuted for row-major arrays: the first call reshapes the caller's array
    and a second call on the same array raises ValueError, unless the number of
    vectors equals the number of up states.  A column-major array is left alone. *)
Theorem C61_refuted (K : CRing) n up dw (a : arr K) nev coeffs coeffs' : (forall s, In s up -> (s < 2 ^ N.of_nat n)%N) ->
  matrix_arr K a (length up * length dw) nev -> match coeffs with Some c => length c = nev | None => True end ->
  let r := evecs_occupation K a up dw n coeffs in
  (a_f K a = true -> snd r = a) /\
  (a_f K a = false -> a_shape K (snd r) = [length dw; length up; nev] /\
     (up <> [] -> dw <> [] -> nev <> length up -> fst (evecs_occupation K (snd r) up dw n coeffs') = Err ValueError)).
Proof. exact (second_call K n up dw a nev coeffs coeffs'). Qed.
Print Assumptions C61_refuted.
Example C61_ex : let a := mkarr QcRing false [4; 3] (repeat (Q2Qc 1) 12) in
  exists m, fst (evecs_occupation QcRing a [1; 2]%N [1; 2]%N 2 None) = Ok m /\
  fst (evecs_occupation QcRing (snd (evecs_occupation QcRing a [1; 2]%N [1; 2]%N 2 None)) [1; 2]%N [1; 2]%N 2 None) = Err ValueError.
Proof. eexists. split; [cbv zeta; vm_compute; reflexivity|]. vm_compute. reflexivity. Qed.
