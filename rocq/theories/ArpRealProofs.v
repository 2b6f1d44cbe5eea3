(** A solver that meets the contract, and the sparse path of the sector solver. *)
From Coq Require Import Reals List Arith NArith ZArith Bool Lia Lra.
From Verif Require Import Base RBase RLin SectorModel LocalModel MatvecModel MbModel MbSpec EspaceModel EspaceSpec EspaceEigProofs EspaceProofs ExactSpec
  SpectralProofs EighProofs TriSpec TriRealProofs ArpModel ArpSpec ArpProofs.
Import ListNotations.
Local Open Scope R_scope.

(** Asks for the products with all unit vectors and diagonalises the result; claims
    that [miss] of the wanted pairs have not converged. *)
Section Real.
Variable miss : nat.
Definition unit_at (N k : nat) : list R := map (fun i => if (i =? k)%nat then 1 else 0) (seq 0 N).
Definition real_fresh (_ _ : nat) (_ : option (list R)) : list (list R) := [].
Definition real_saupd (N : nat) (nev : Z) (ncv maxit : nat) (ido info : Z) (st : list (list R)) (w : list R) : reply (list (list R)) :=
  if ((0 <? nev) && (nev <? Z.of_nat ncv) && (Z.of_nat ncv <=? Z.of_nat N))%Z then
    let st' := if (ido =? 0)%Z then [] else st ++ [slice_at N N w] in
    if (length st' =? N)%nat then mkreply 99 1 1 (if (miss =? 0)%nat then 0 else 1) (Z.to_nat nev - miss) st' w
    else mkreply 1 1 (N + 1) 0 0 st' (unit_at N (length st') ++ repeat 0 (2 * N))
  else mkreply 99 1 1 (-3) 0 st w.
Definition real_seupd (N : nat) (nev : Z) (ncv : nat) (st : list (list R)) (w : list R) : list R * list (list R) * Z :=
  let ps := pairs N (fun i j => nth i (nth j st []) 0) N in
  (map (val_of ps) (seq 0 (Z.to_nat nev)), map (fun k => map (vec_of ps k) (seq 0 N)) (seq 0 (Z.to_nat nev)), if (miss =? 0)%nat then 0%Z else if (Z.to_nat nev - miss =? 0)%nat then (-14)%Z else 0%Z).

Definition columns (N k : nat) (A : nat -> nat -> R) : list (list R) := map (fun j => map (fun i => A i j) (seq 0 N)) (seq 0 k).
Lemma product_unit N A k : (k < N)%nat -> product N A (unit_at N k) = map (fun i => A i k) (seq 0 N).
Proof.
  intros H. unfold product. apply map_ext_in. intros i Hi. unfold apply_mat. rewrite (rsum_single N _ k H).
  - unfold unit_at. rewrite map_seq_nth by exact H. rewrite Nat.eqb_refl. ring.
  - intros j Hj Q. unfold unit_at. rewrite map_seq_nth by exact Hj. destruct (Nat.eqb_spec j k); [contradiction|ring].
Qed.
Lemma splice_slice N y l : length y = N -> (N + N <= length l)%nat -> slice_at N N (splice N y l) = y.
Proof.
  intros Ly L. assert (LS : length (splice N y l) = length l) by (unfold splice; now rewrite map_length, seq_length). rewrite slice_map by lia.
  apply (nth_ext _ _ 0 0); [rewrite map_length, seq_length; lia|]. intros k Hk. rewrite map_length, seq_length in Hk. rewrite map_seq_nth by exact Hk.
  unfold splice. rewrite map_seq_nth by lia. rewrite Ly. rewrite (proj2 (Nat.leb_le N (N + k))), (proj2 (Nat.ltb_lt (N + k) (N + N))) by lia. cbn [andb]. f_equal. lia.
Qed.
Lemma columns_S N k A : columns N (S k) A = columns N k A ++ [map (fun i => A i k) (seq 0 N)].
Proof. unfold columns. rewrite seq_S, map_app. reflexivity. Qed.
Lemma columns_length N k A : length (columns N k A) = k.
Proof. unfold columns. now rewrite map_length, seq_length. Qed.

Lemma real_ask N nev ncv maxit A : (0 < nev < Z.of_nat ncv)%Z -> (Z.of_nat ncv <= Z.of_nat N)%Z ->
  forall m k w, (m + k = N)%nat -> (k < N)%nat -> slice_at N N w = map (fun i => A i k) (seq 0 N) ->
  exists w', dialogue (list (list R)) real_saupd N nev ncv maxit A 1 0 (columns N k A) w (mkreply 99 1 1 (if (miss =? 0)%nat then 0 else 1) (Z.to_nat nev - miss) (columns N N A) w').
Proof.
  intros H1 H2. assert (L : ((0 <? nev) && (nev <? Z.of_nat ncv) && (Z.of_nat ncv <=? Z.of_nat N))%Z = true).
  { rewrite (proj2 (Z.ltb_lt _ _)) by lia. rewrite (proj2 (Z.ltb_lt _ _)) by lia. now rewrite (proj2 (Z.leb_le _ _)) by lia. }
  induction m as [|m IH]; intros k w E Hk SL; [lia|].
  assert (ST : forall b, real_saupd N nev ncv maxit 1 b (columns N k A) w = if (S k =? N)%nat then mkreply 99 1 1 (if (miss =? 0)%nat then 0 else 1) (Z.to_nat nev - miss) (columns N (S k) A) w
    else mkreply 1 1 (N + 1) 0 0 (columns N (S k) A) (unit_at N (S k) ++ repeat 0 (2 * N))).
  { intros b. unfold real_saupd. rewrite L. change (1 =? 0)%Z with false. cbv iota zeta. rewrite SL, <- columns_S, columns_length. reflexivity. }
  destruct (Nat.eqb_spec (S k) N) as [Q|Q].
  - exists w. apply dia_end; [rewrite ST; now rewrite Q|cbn; lia|cbn; lia].
  - set (o := mkreply 1%Z 1%nat (N + 1)%nat 0%Z 0%nat (columns N (S k) A) (unit_at N (S k) ++ repeat 0 (2 * N))) in *.
    assert (LW : length (r_workd o) = (3 * N)%nat) by (unfold o; cbn [r_workd]; unfold unit_at; rewrite app_length, map_length, seq_length, repeat_length; lia).
    destruct (IH (S k) (splice N (product N A (unit_at N (S k))) (r_workd o)) ltac:(lia) ltac:(lia)) as (w' & D).
    { rewrite splice_slice; [apply product_unit; lia|apply product_length|lia]. }
    exists w'. apply (dia_ask _ _ _ _ _ _ _ 1%Z 0%Z _ _ o); [apply ST|left; reflexivity|exact LW|cbn; lia|cbn; lia|cbn; lia|cbn; lia|].
    change (r_ido o) with 1%Z. change (r_info o) with 0%Z. change (r_y o) with (N + 1)%nat. change (r_x o) with 1%nat. replace (N + 1 - 1)%nat with N by lia. replace (1 - 1)%nat with O by lia. cbn [Nat.add].
    assert (X : map (fun i => nth i (r_workd o) 0) (seq 0 N) = unit_at N (S k)).
    { unfold o. cbn [r_workd]. apply (nth_ext _ _ 0 0); [unfold unit_at; now rewrite !map_length|]. intros i Hi. rewrite map_length, seq_length in Hi. rewrite map_seq_nth by exact Hi.
      apply app_nth1. unfold unit_at. now rewrite map_length, seq_length. }
    cbv beta. rewrite X. exact D.
Qed.

Lemma pairs_lowest N A M m : sym N A -> (forall i j, (i < N)%nat -> (j < N)%nat -> M i j = A i j) -> (m <= N)%nat ->
  let ps := pairs N M N in lowest_pairs N A m (map (val_of ps) (seq 0 m)) (map (fun k => map (vec_of ps k) (seq 0 N)) (seq 0 m)).
Proof.
  intros SY MA Hm ps. assert (SM : sym N M) by (intros i j Hi Hj; rewrite !MA by auto; now apply SY).
  destruct (pairs_spec N M N SM (le_n N)) as (ON & EV & AS). fold ps in ON, EV, AS.
  assert (EA : forall k, (k < N)%nat -> eigenvector N A (val_of ps k) (vec_of ps k)).
  { intros k Hk i Hi. rewrite <- (EV k i Hk Hi). unfold apply_mat, mv. apply rsum_ext. intros j Hj. now rewrite MA. }
  assert (COL : forall k i, (k < m)%nat -> (i < N)%nat -> nth i (nth k (map (fun k => map (vec_of ps k) (seq 0 N)) (seq 0 m)) []) 0 = vec_of ps k i).
  { intros k i Hk Hi. rewrite (map_seq_nth (fun k => map (vec_of ps k) (seq 0 N)) m k [] Hk). now rewrite map_seq_nth. }
  split; [split; [rewrite map_length, seq_length; lia|]; split; [rewrite map_length, seq_length; lia|]; split; [|split]|].
  - intros k Hk. rewrite (map_seq_nth (fun k => map (vec_of ps k) (seq 0 N)) m k [] Hk). now rewrite map_length, seq_length.
  - intros j k Hj Hk. rewrite <- (ON j k) by lia. apply rsum_ext. intros i Hi. cbv beta. rewrite !COL by auto. reflexivity.
  - intros k Hk i Hi. rewrite (map_seq_nth (val_of ps) m k 0 Hk), COL by auto. rewrite <- (EA k ltac:(lia) i Hi). unfold apply_mat. apply rsum_ext. intros j Hj. now rewrite COL.
  - exists (val_of ps). split; [split; [intros j k; apply (ascending_le (val_of ps) N AS)|]|].
    + exists (vec_of ps). split; [exact ON|exact EA].
    + intros k Hk. now rewrite map_seq_nth.
Qed.

Lemma real_end N nev ncv maxit A v0 : (0 < nev < Z.of_nat ncv)%Z -> (Z.of_nat ncv <= Z.of_nat N)%Z ->
  exists w, dialogue (list (list R)) real_saupd N nev ncv maxit A 0 (match v0 with None => 0 | Some _ => 1 end) (real_fresh N ncv v0) (repeat 0 (3 * N))
    (mkreply 99 1 1 (if (miss =? 0)%nat then 0 else 1) (Z.to_nat nev - miss) (columns N N A) w).
Proof.
  intros [L1 L2] L3. assert (HN : (1 < N)%nat) by lia. assert (L0 : ((0 <? nev) && (nev <? Z.of_nat ncv) && (Z.of_nat ncv <=? Z.of_nat N))%Z = true).
  { rewrite (proj2 (Z.ltb_lt _ _)) by lia. rewrite (proj2 (Z.ltb_lt _ _)) by lia. now rewrite (proj2 (Z.leb_le _ _)) by lia. }
  set (o := mkreply 1%Z 1%nat (N + 1)%nat 0%Z 0%nat ([] : list (list R)) (unit_at N 0 ++ repeat 0 (2 * N))).
  assert (LW : length (r_workd o) = (3 * N)%nat) by (unfold o; cbn [r_workd]; unfold unit_at; rewrite app_length, map_length, seq_length, repeat_length; lia).
  destruct (real_ask N nev ncv maxit A ltac:(lia) L3 N 0%nat (splice N (product N A (unit_at N 0)) (r_workd o)) ltac:(lia) ltac:(lia)) as (w' & D).
  { rewrite splice_slice; [apply product_unit; lia|apply product_length|lia]. }
  exists w'.
  apply (dia_ask _ _ _ _ _ _ _ 0%Z _ _ _ o); [|left; reflexivity|exact LW|cbn; lia|cbn; lia|cbn; lia|cbn; lia|].
  - unfold real_saupd. rewrite L0. cbn [Z.eqb]. cbv zeta. cbn [length]. destruct (Nat.eqb_spec 0 N); [lia|reflexivity].
  - change (r_ido o) with 1%Z. change (r_info o) with 0%Z. change (r_y o) with (N + 1)%nat. change (r_x o) with 1%nat. replace (N + 1 - 1)%nat with N by lia. replace (1 - 1)%nat with O by lia. cbn [Nat.add].
      assert (X : map (fun i => nth i (r_workd o) 0) (seq 0 N) = unit_at N 0).
      { unfold o. cbn [r_workd]. apply (nth_ext _ _ 0 0); [unfold unit_at; now rewrite !map_length|]. intros i Hi. rewrite map_length, seq_length in Hi. rewrite map_seq_nth by exact Hi.
        apply app_nth1. unfold unit_at. now rewrite map_length, seq_length. }
      cbv beta. rewrite X. exact D.
Qed.

Theorem real_arpack : arpack_contract (list (list R)) real_fresh real_saupd real_seupd.
Proof.
  intros N nev ncv maxit A v0 SY V.
  destruct ((0 <? nev) && (nev <? Z.of_nat ncv) && (Z.of_nat ncv <=? Z.of_nat N))%Z eqn:L.
  - apply andb_true_iff in L. destruct L as [L L3]. apply andb_true_iff in L. destruct L as [L1 L2]. apply Z.ltb_lt in L1, L2. apply Z.leb_le in L3.
    destruct (real_end N nev ncv maxit A v0 (conj L1 L2) L3) as (w' & D). eexists. split; [exact D|].
    eexists. eexists. eexists. split; [reflexivity|]. right. cbn [r_info r_nconv r_st].
      assert (LP : forall m, (m <= N)%nat -> lowest_pairs N A m (map (val_of (pairs N (fun i j => nth i (nth j (columns N N A) []) 0) N)) (seq 0 m))
        (map (fun k => map (vec_of (pairs N (fun i j => nth i (nth j (columns N N A) []) 0) N) k) (seq 0 N)) (seq 0 m))).
      { intros m Hm. apply pairs_lowest; [exact SY| |exact Hm]. intros i j Hi Hj. unfold columns.
        rewrite (map_seq_nth (fun j => map (fun i => A i j) (seq 0 N)) N j [] Hj). now rewrite map_seq_nth. }
      destruct (Nat.eqb_spec miss 0) as [Q|Q]; [left|right].
      * split; [reflexivity|]. split; [lia|]. right. rewrite !map_length, !seq_length. split; [lia|]. split; [lia|].
        replace (Z.to_nat nev - miss)%nat with (Z.to_nat nev) by lia. apply LP. lia.
      * split; [lia|]. split; [lia|]. destruct (Nat.eqb_spec (Z.to_nat nev - miss) 0) as [Z|Z]; [discriminate|]. split; [reflexivity|].
        destruct (LP (Z.to_nat nev) ltac:(lia)) as [(_ & _ & LN & ON & EV) _].
        split; [rewrite map_length, seq_length; lia|]. split; [rewrite map_length, seq_length; lia|]. split; [intros k Hk; apply LN; lia|]. split; [intros j k Hj Hk; apply ON; lia|intros k Hk; apply EV; lia].
  - exists (mkreply 99 1 1 (-3) 0 [] (repeat 0 (3 * N))). split; [|cbn; lia]. apply dia_end; [|cbn; lia|cbn; lia]. unfold real_saupd. rewrite L. reflexivity.
Qed.

End Real.

Section Link.
Variable St : Type.
Variable fresh : nat -> nat -> option (list R) -> St.
Variable saupd : nat -> Z -> nat -> nat -> Z -> Z -> St -> list R -> reply St.
Variable seupd : nat -> Z -> nat -> St -> list R -> list R * list (list R) * Z.
Variables known_aupd known_eupd : Z -> bool.
Notation eig := (eigsh St fresh saupd seupd known_aupd known_eupd).
Definition sparse (fuel : nat) (d : nat) (k : Z) (mv : list R -> res (list R)) := eig fuel d k mv None None.

Lemma rc_more n nev matvec p : forall f f' ido info st w o, (f <= f')%nat -> rc_loop St saupd n nev matvec p f ido info st w = Ok o -> rc_loop St saupd n nev matvec p f' ido info st w = Ok o.
Proof.
  induction f as [|f IH]; intros f' ido info st w o L E; [discriminate|]. destruct f' as [|f']; [lia|]. cbn [rc_loop] in *.
  destruct ((r_ido _ =? 1) || _)%Z; [|exact E]. destruct (matvec _) as [y|]; [|discriminate]. cbn [bind] in *. destruct (assign_at _ _ _ _); [|discriminate]. cbn [bind] in *. apply (IH f'); [lia|exact E].
Qed.
Lemma eigsh_more f f' n nev matvec v0 param r : (f <= f')%nat -> eig f n nev matvec v0 param = Ok r -> eig f' n nev matvec v0 param = Ok r.
Proof.
  intros L. unfold eigsh. destruct (match param with None => _ | Some p => Ok p end) as [p|]; [|auto]. cbn [bind]. destruct (negb _); [auto|]. destruct (negb _); [auto|].
  destruct (rc_loop St saupd n nev matvec p f 0 (p_info p) (p_st p) (p_workd p)) as [o|] eqn:E; [|discriminate]. now rewrite (rc_more _ _ _ _ f f' _ _ _ _ _ L E).
Qed.

Hypothesis AC : arpack_contract St fresh saupd seupd.
Lemma arpack_sound fuel : eigsh_sound RRing (sparse fuel).
Proof.
  intros d k mv A vals cols SY MV E i e v Hi Hv.
  assert (M : forall x, length x = d -> mv x = Ok (product d A x)) by (intros x Lx; exact (MV x Lx)).
  destruct (Z.lt_ge_cases 0 k) as [K1|K1]; [destruct (Z.lt_ge_cases k (Z.of_nat d)) as [K2|K2]|].
  - destruct (eigsh_pairs St fresh saupd seupd known_aupd known_eupd AC d k mv A None SY I M (conj K1 K2)) as (f0 & r & F & P).
    pose proof (eigsh_more fuel (Nat.max f0 fuel) d k mv None None _ ltac:(lia) E) as E'. rewrite (F (Nat.max f0 fuel) ltac:(lia)) in E'. rewrite E' in P.
    destruct P as (LE & _ & (_ & _ & LN & _ & EV) & _).
    assert (Li : (i < length vals)%nat) by (apply nth_error_Some; intros Q; pose proof (eq_trans (eq_sym Hi) Q); discriminate).
    rewrite <- (nth_error_nth _ _ [] Hv), <- (nth_error_nth _ _ 0 Hi). split; [apply LN; exact Li|]. intros a Ha. exact (EV i Li a Ha).
  - destruct (eigsh_illegal St fresh saupd seupd known_aupd known_eupd AC d k mv A None SY I M (or_intror K2)) as (f0 & x & F & _).
    pose proof (eigsh_more fuel (Nat.max f0 fuel) d k mv None None _ ltac:(lia) E) as E'. rewrite (F (Nat.max f0 fuel) ltac:(lia)) in E'. discriminate.
  - destruct (eigsh_illegal St fresh saupd seupd known_aupd known_eupd AC d k mv A None SY I M (or_introl K1)) as (f0 & x & F & _).
    pose proof (eigsh_more fuel (Nat.max f0 fuel) d k mv None None _ ltac:(lia) E) as E'. rewrite (F (Nat.max f0 fuel) ltac:(lia)) in E'. discriminate.
Qed.

(** Both paths of the sector solver give the same lowest eigenvalues. *)
Variable eigh : dense RRing -> res (list R * list (list R)).
Variables (big : R -> bool) (half : R).
Lemma paths_agree n h fl V U hf mu z nup ndw up dw k : eigh_contract eigh -> model_ok half n h fl V U -> (nup <= n)%nat -> (ndw <= n)%nat -> generate_states n nup = Ok up -> generate_states n ndw = Ok dw ->
  let d := (length up * length dw)%nat in (512 < d)%nat -> (0 < k < Z.of_nat d)%Z ->
  exists A vals cols f0, sym d A /\ (forall f, solve_sector RRing big half eigh (sparse f) n h fl V hf mu z (StSz up dw) None = Ok (vals, cols)) /\ length vals = d /\
    forall o, dialogue St saupd d k (ncv_of d k) (d * 10) A 0 0 (fresh d (ncv_of d k) None) (repeat 0 (3 * d)) o -> r_info o = 0%Z ->
    (exists vs cs, (forall f, (f0 <= f)%nat -> solve_sector RRing big half eigh (sparse f) n h fl V hf mu z (StSz up dw) (Some k) = Ok (vs, cs)) /\ vs = firstn (Z.to_nat k) vals /\ length cs = length vs) \/
    (forall f, (f0 <= f)%nat -> solve_sector RRing big half eigh (sparse f) n h fl V hf mu z (StSz up dw) (Some k) = Err (if known_eupd 0 then RuntimeError else KeyError)).
Proof.
  intros EC ((Hn & Hn' & Hh) & HU & HJ & (HSx & HSp) & HS & Hset) Hu Hd Eu Ed d Hd512 Hk.
  destruct (sector_matrix RRing (fun _ _ => true) big half eigh (sparse 0) n h fl V hf mu z U nup ndw up dw Hn Hn' Hu Hd Hh HU HJ HS HSx HSp Hset Eu Ed) as (ops & f & D & EB & ED & DR & DC & DS & MV & _). fold d in DR, DC, DS, MV.
  destruct (EC D) as (vals & cols & E & LV & LC & LN & ON & EV & AS); [congruence|rewrite DR; exact DS|]. rewrite DR in *.
  assert (FULL : forall g, solve_sector RRing big half eigh g n h fl V hf mu z (StSz up dw) None = Ok (vals, cols)).
  { intros g. unfold solve_sector. cbv zeta. rewrite Z.eqb_refl. cbn [orb]. unfold solve_lapack, sector_ops. rewrite EB. cbn [fst bind]. rewrite ED. cbn [bind]. rewrite E. cbn [bind]. now rewrite Z.ltb_irrefl. }
  assert (PART : forall g, solve_sector RRing big half eigh (sparse g) n h fl V hf mu z (StSz up dw) (Some k) = eig g d k (fun w => matvec RRing (fun _ => true) ops w w None) None None).
  { intros g. unfold solve_sector. cbv zeta. cbn [states_dim]. fold d. destruct (Z.eqb_spec k (Z.of_nat d)); [lia|]. destruct (Z.leb_spec (Z.of_nat d) 512); [lia|]. cbn [orb].
    unfold solve_arpack, sector_ops. rewrite EB. reflexivity. }
  set (mv := fun w => matvec RRing (fun _ => true) ops w w None) in *.
  assert (M : forall x, length x = d -> mv x = Ok (product d (d_at RRing D) x)) by (intros x Lx; exact (MV x Lx)).
  destruct (AC d k (ncv_of d k) (d * 10)%nat (d_at RRing D) None DS I) as (o & DI & _).
  destruct (Z.eq_dec (r_info o) 0) as [I0|I0].
  - destruct (eigsh_lowest St fresh saupd seupd known_aupd known_eupd AC d k mv (d_at RRing D) None o DS I M Hk DI I0) as (f0 & C).
    exists (d_at RRing D), vals, cols, f0. split; [exact DS|]. split; [intros; apply FULL|]. split; [exact LV|]. intros o' DI' _.
    destruct C as [(vs & cs & F & L1 & L2 & (_ & e & SP & EE))|F].
    + left. exists vs, cs. split; [intros g Hg; rewrite PART; now apply F|]. split; [|exact L2].
      assert (SV : spectrum d (d_at RRing D) (fun i => nth i vals 0)).
      { split; [exact AS|]. exists (fun k i => nth i (nth k cols []) 0). split; [exact ON|]. intros j Hj a Ha. exact (EV j a Hj Ha). }
      assert (LF : length (firstn (Z.to_nat k) vals) = Z.to_nat k) by (refine (eq_trans (firstn_length _ _) _); rewrite (LV : @length R vals = d); lia).
      apply (nth_ext _ _ 0 0); [refine (eq_trans _ (eq_sym LF)); lia|]. intros i Hi. rewrite (EE i Hi).
      rewrite (spectrum_unique d (d_at RRing D) e (fun i => nth i vals 0) DS SP SV i ltac:(lia)).
      symmetry. rewrite <- (firstn_skipn (Z.to_nat k) vals) at 2. rewrite app_nth1; [reflexivity|]. refine (eq_rect _ (fun m => (i < m)%nat) _ _ (eq_sym LF)). lia.
    + right. intros g Hg. rewrite PART. now apply F.
  - exists (d_at RRing D), vals, cols, 0%nat. split; [exact DS|]. split; [intros; apply FULL|]. split; [exact LV|]. intros o' DI' I0'.
    rewrite (dialogue_det St saupd _ _ _ _ _ _ _ _ _ _ _ DI' DI) in I0'. contradiction.
Qed.
End Link.

(** Pairs that have not converged. *)
Lemma shortfall known_aupd known_eupd n nev A matvec : sym n A -> (forall x, length x = n -> matvec x = Ok (product n A x)) -> (1 < nev < Z.of_nat n)%Z ->
  exists f0 d z, (forall f, (f0 <= f)%nat -> eigsh (list (list R)) real_fresh (real_saupd 1) (real_seupd 1) known_aupd known_eupd f n nev matvec None None = Ok (d, z)) /\ Z.of_nat (length d) = (nev - 1)%Z /\ Z.of_nat (length z) = (nev - 1)%Z.
Proof.
  intros SY MV H. pose proof (ncv_ok n nev ltac:(lia)) as [N1 N2].
  destruct (real_end 1 n nev (ncv_of n nev) (n * 10) A None ltac:(lia) N2) as (w & D).
  destruct (eigsh_short _ _ _ _ known_aupd known_eupd (real_arpack 1) n nev matvec A None _ SY I MV ltac:(lia) D) as (f0 & C); [reflexivity|]. exists f0. cbn [r_nconv] in C.
  destruct (Nat.eqb_spec (Z.to_nat nev - 1) 0); [lia|]. destruct C as (d & z & F & L1 & L2). exists d, z. split; [exact F|]. lia.
Qed.
Lemma wrong_key known_aupd known_eupd n A matvec : sym n A -> (forall x, length x = n -> matvec x = Ok (product n A x)) -> (1 < n)%nat -> known_eupd 1%Z = false ->
  exists f0, forall f, (f0 <= f)%nat -> eigsh (list (list R)) real_fresh (real_saupd 1) (real_seupd 1) known_aupd known_eupd f n 1 matvec None None = Err KeyError.
Proof.
  intros SY MV H KE. pose proof (ncv_ok n 1 ltac:(lia)) as [N1 N2].
  destruct (real_end 1 n 1 (ncv_of n 1) (n * 10) A None ltac:(lia) N2) as (w & D).
  destruct (eigsh_short _ _ _ _ known_aupd known_eupd (real_arpack 1) n 1 matvec A None _ SY I MV ltac:(lia) D) as (f0 & C); [reflexivity|]. exists f0. cbn [r_nconv r_info] in C.
  intros f Hf. rewrite (C f Hf). change (if (1 =? 0)%nat then 0%Z else 1%Z) with 1%Z. now rewrite KE.
Qed.
Lemma all_found known_aupd known_eupd n nev A matvec v0 : sym n A -> (forall x, length x = n -> matvec x = Ok (product n A x)) -> (0 < nev < Z.of_nat n)%Z -> match v0 with Some v => (length v <= n)%nat | None => True end ->
  exists f0 d z, (forall f, (f0 <= f)%nat -> eigsh (list (list R)) real_fresh (real_saupd 0) (real_seupd 0) known_aupd known_eupd f n nev matvec v0 None = Ok (d, z)) /\ Z.of_nat (length d) = nev /\ lowest_pairs n A (length d) d z.
Proof.
  intros SY MV H V. pose proof (ncv_ok n nev H) as [N1 N2].
  destruct (real_end 0 n nev (ncv_of n nev) (n * 10) A v0 ltac:(lia) N2) as (w & D).
  destruct (eigsh_lowest _ _ _ _ known_aupd known_eupd (real_arpack 0) n nev matvec A v0 _ SY V MV H D eq_refl) as (f0 & [(d & z & F & L & _ & LP)|F]); [exists f0, d, z; auto|].
  destruct (eigsh_result _ real_fresh (real_saupd 0) (real_seupd 0) known_aupd known_eupd n nev matvec A v0 _ _ _ _ V MV D eq_refl) as (f1 & G). cbn [r_info Nat.eqb Z.ltb Z.compare Z.eqb negb] in G.
  specialize (F (Nat.max f0 f1) ltac:(lia)). rewrite (G (Nat.max f0 f1) ltac:(lia)) in F. discriminate.
Qed.

(** The lowest eigenvalue of diag(3, 1). *)
Definition diag2 (i j : nat) : R := if (i =? j)%nat then (if (i =? 0)%nat then 3 else 1) else 0.
Lemma diag2_spectrum : spectrum 2 diag2 (fun k => if (k =? 0)%nat then 1 else 3).
Proof.
  split.
  - intros [|[|j]] [|[|k]] L Hk; cbn; lia || lra.
  - exists (fun k i => if (i + k =? 1)%nat then 1 else 0). split.
    + intros [|[|j]] [|[|k]] Hj Hk; try lia; cbn; ring.
    + intros [|[|k]] Hk [|[|i]] Hi; try lia; unfold apply_mat; cbn; ring.
Qed.
Lemma diag2_found known_aupd known_eupd : exists f0 z, forall f, (f0 <= f)%nat ->
  eigsh (list (list R)) real_fresh (real_saupd 0) (real_seupd 0) known_aupd known_eupd f 2 1 (fun x => Ok (product 2 diag2 x)) None None = Ok ([1], z).
Proof.
  assert (SY : sym 2 diag2) by (intros i j _ _; unfold diag2; rewrite (Nat.eqb_sym j i); destruct (Nat.eqb_spec i j) as [-> |]; reflexivity).
  destruct (all_found known_aupd known_eupd 2 1 diag2 (fun x => Ok (product 2 diag2 x)) None SY ltac:(reflexivity) ltac:(lia) I) as (f0 & d & z & F & L & (_ & e & SP & E)).
  exists f0, z. intros f Hf. rewrite (F f Hf). destruct d as [|x [|? ?]]; cbn [length] in L; try lia. specialize (E 0%nat ltac:(cbn; lia)). cbn [nth] in E.
  rewrite (spectrum_unique 2 diag2 e _ SY SP diag2_spectrum 0%nat ltac:(lia)) in E. now rewrite E.
Qed.
