(** Classes, hybridisation, processes, occupations, steps and moments. *)
From Coq Require Import Reals List Arith NArith Lia Lra Bool Permutation.
From Verif Require Import Base RBase RLin CBase ProjModel EspaceModel FitModel DmftModel DmftProofs FermiModel ObsModel ObsSpec ObsMoreProofs NanoModel NanoSpec NanoMatProofs NanoProofs.
Import ListNotations.
Local Open Scope R_scope.
Add Ring cxr : cx_ring.
Add Field cxf : cx_field.

(** ** Classes of equivalent sites *)
Lemma classes_nodup inv neq : classes inv neq -> NoDup neq.
Proof.
  intros [_ C]. apply (NoDup_nth neq 0%nat). intros a b Ha Hb E. destruct (C a Ha) as (_ & A & _), (C b Hb) as (_ & B & _). congruence.
Qed.
Lemma classes_range inv neq : classes inv neq -> (forall i, In i inv -> (i < length neq)%nat) /\ (forall i, In i neq -> (i < length inv)%nat) /\ (length neq <= length inv)%nat.
Proof.
  intros C. pose proof (classes_nodup _ _ C) as ND. destruct C as [A B].
  assert (R : forall i, In i neq -> (i < length inv)%nat) by (intros i H; destruct (In_nth _ _ 0%nat H) as (a & Ha & <-); now apply B).
  repeat split; auto.
  - intros i H. destruct (In_nth _ _ 0%nat H) as (a & Ha & <-). now apply A.
  - pose proof (NoDup_incl_length ND (l' := seq 0 (length inv))) as L. rewrite seq_length in L. apply L. intros i H. apply in_seq. specialize (R i H). lia.
Qed.
Lemma nodup_full l k : NoDup l -> length l = k -> (forall i, In i l -> (i < k)%nat) -> forall i, (i < k)%nat -> In i l.
Proof.
  intros ND L H i Hi. assert (P : incl (seq 0 k) l).
  { apply NoDup_length_incl; auto; [rewrite seq_length; lia|]. intros j Hj. apply in_seq. specialize (H j Hj). lia. }
  apply P. apply in_seq. lia.
Qed.
Theorem classes_first inv neq : classes inv neq ->
  ((forall i, In i neq -> (i < length neq)%nat) <-> pairwise_different (firstn (length neq) inv)).
Proof.
  intros C. pose proof (classes_nodup _ _ C) as ND. destruct (classes_range _ _ C) as (_ & _ & LE). destruct C as [A B].
  assert (LF : length (firstn (length neq) inv) = length neq) by (rewrite firstn_length; lia).
  assert (NF : forall i, (i < length neq)%nat -> nth i (firstn (length neq) inv) 0%nat = nth i inv 0%nat).
  { intros i Hi. clear - Hi LE. revert i inv LE Hi. generalize (length neq). intros k. induction k as [|k IH]; intros i inv LE Hi; [lia|]. destruct inv; [cbn in LE; lia|]. destruct i; cbn; auto. apply IH; cbn in *; lia. }
  split.
  - intros H. unfold pairwise_different. rewrite LF. intros i j Hi Hj E. rewrite !NF in E by auto.
    pose proof (nodup_full neq _ ND eq_refl H i Hi) as Ii. pose proof (nodup_full neq _ ND eq_refl H j Hj) as Ij.
    destruct (In_nth _ _ 0%nat Ii) as (a & Ha & <-), (In_nth _ _ 0%nat Ij) as (b & Hb & <-).
    destruct (B a Ha) as (_ & Ea & _), (B b Hb) as (_ & Eb & _). congruence.
  - intros P i Hi. destruct (In_nth _ _ 0%nat Hi) as (a & Ha & <-).
    assert (F : In a (firstn (length neq) inv)).
    { apply (nodup_full _ (length neq)); auto.
      - apply (NoDup_nth _ 0%nat). intros x y Hx Hy E. now apply P.
      - intros x Hx. destruct (In_nth _ _ 0%nat Hx) as (m & Hm & <-). rewrite LF in Hm. rewrite NF by auto. apply A. lia. }
    destruct (In_nth _ _ 0%nat F) as (m & Hm & E). rewrite LF in Hm. rewrite NF in E by auto.
    destruct (B a Ha) as (_ & _ & M). destruct (Nat.lt_ge_cases m (nth a neq 0%nat)) as [K|K]; [exfalso; now apply (M m)|lia].
Qed.

(** ** One process *)
Definition lattice1 (n : nat) (H S : mat) (Hyb : cx -> mat) (neq inv : list nat) (mu : R) (f : list cx -> res rows) : nloc :=
  nl_set_local (nl_update (nl_init n H S Hyb neq inv None) mu) [f].
Definition sigma_of (inv : list nat) (sigma : rows) (j i : nat) : cx := nth j (nth (nth i inv 0%nat) sigma []) (rcx 0).

Section One.
Variable inv : nat -> mat -> res mat.
Hypothesis INV : inverts inv.
Variables (n : nat) (H S : mat) (Hyb : cx -> mat) (neq ids : list nat) (mu : R) (f : list cx -> res rows) (zs : list cx) (sigma : rows) (mem : nat -> nat -> cx).
Let l := lattice1 n H S Hyb neq ids mu f.
Hypothesis CL : classes ids neq.
Hypothesis LEN : length ids = n.
Hypothesis NP : neq <> [].
Hypothesis NZ : zs <> [].
Hypothesis FS : f zs = Ok sigma.
Hypothesis SH : length sigma = length neq /\ forall r, In r sigma -> length r = length zs.
Definition lat1 (j : nat) : mat := lat mu H S Hyb (sigma_of ids sigma j) (nth j zs (rcx 0)).

Lemma get1 : nl_get_sigma l zs = Ok sigma.
Proof. unfold nl_get_sigma, nl_Sigma_loc, l, lattice1. cbn. now rewrite FS. Qed.
Lemma sigma_ne : sigma <> [].
Proof. destruct SH as [L _]. intros ->. destruct neq; [congruence|discriminate]. Qed.
Theorem green1 : (length neq <> 1 \/ length zs = 1)%nat -> pairwise_different (firstn (length neq) ids) ->
  match nl_call inv mem l zs with
  | Ok G => length G = length neq /\ (forall r, In r G -> length r = length zs) /\
      forall j, (j < length zs)%nat -> exists g, inverse n (lat1 j) g /\
        forall a, (a < length neq)%nat -> nth j (nth a G []) (rcx 0) = g (nth a neq 0%nat) (nth a neq 0%nat)
  | Err _ => exists j, (j < length zs)%nat /\ ~ exists g, inverse n (lat1 j) g
  end.
Proof.
  intros C P. destruct (classes_range _ _ CL) as (R1 & R2 & _). pose proof (proj2 (classes_first _ _ CL) P) as F.
  destruct SH as [L RW].
  apply (call_values inv INV l mu eq_refl LEN mem sigma zs get1 RW NZ sigma_ne).
  - intros i Hi. rewrite L. now apply R1.
  - intros i Hi. change (i < n)%nat. rewrite <- LEN. now apply R2.
  - now apply (classes_nodup ids).
  - now rewrite L.
  - intros i Hi. rewrite L. now apply F.
Qed.
Theorem green1_index : (length neq <> 1 \/ length zs = 1)%nat -> ~ pairwise_different (firstn (length neq) ids) -> (exists g, inverse n (lat1 0) g) ->
  nl_call inv mem l zs = Err IndexError.
Proof.
  intros C P E. destruct (classes_range _ _ CL) as (R1 & R2 & _). destruct SH as [L RW].
  assert (X : exists i, In i neq /\ (length neq <= i)%nat).
  { destruct (Forall_Exists_dec (fun i => (i < length neq)%nat)) with (l := neq) as [A|A]; [intros i; apply lt_dec| |].
    - exfalso. apply P. apply (classes_first _ _ CL). now apply Forall_forall.
    - apply Exists_exists in A. destruct A as (i & A & B). exists i. split; [auto|lia]. }
  destruct X as (i & I1 & I2).
  apply (call_index inv INV l mu eq_refl LEN mem sigma zs get1 RW NZ sigma_ne) with (i := i); auto.
  - intros k Hk. rewrite L. now apply R1.
  - intros k Hk. change (k < n)%nat. rewrite <- LEN. now apply R2.
  - now rewrite L.
  - now rewrite L.
Qed.
(** A single class: the loop runs once. *)
Theorem green1_single r : neq = [0%nat] -> sigma = [r] ->
  match nl_call inv mem l zs with
  | Ok G => exists g row, inverse n (lat1 0) g /\ G = [row] /\ length row = length zs /\ nth 0 row (rcx 0) = g 0%nat 0%nat /\
      forall j, (0 < j < length zs)%nat -> nth j row (rcx 0) = mem 0%nat j
  | Err _ => ~ exists g, inverse n (lat1 0) g
  end.
Proof.
  intros EN ES. destruct SH as [L RW]. unfold nl_call. rewrite get1. cbn [bind]. rewrite (shape_ok l sigma zs get1 RW NZ sigma_ne).
  destruct (classes_range _ _ CL) as (R1 & R2 & _).
  assert (exists z zs', zs = z :: zs') as (z & zs' & Ez) by (destruct zs as [|z zs']; [congruence|eauto]).
  assert (Lr : length r = length zs) by (apply RW; rewrite ES; now left).
  assert (I0 : forall i, In i ids -> i = 0%nat) by (intros i Hi; specialize (R1 i Hi); rewrite EN in R1; cbn in R1; lia).
  pose proof (chunk_ok inv INV l mu eq_refl LEN r z zs' (map (mem 0%nat) (seq 0 (length r)))) as K.
  assert (Ln : nl_neq l = [0%nat]) by exact EN.
  assert (K1 : forall i, In i (nl_inv l) -> (i < length r)%nat) by (intros i Hi; rewrite (I0 i Hi), Lr, Ez; cbn; lia).
  assert (K2 : forall i, In i (nl_neq l) -> (i < nl_n l)%nat) by (intros i Hi; change (i < n)%nat; rewrite <- LEN; now apply R2).
  assert (K3 : NoDup (nl_neq l)) by (rewrite Ln; repeat constructor; auto).
  assert (K4 : forall i, In i (nl_neq l) -> (i < length (map (mem 0%nat) (seq 0 (length r))))%nat) by (rewrite Ln; intros i [<-|[]]; rewrite map_length, seq_length, Lr, Ez; cbn; lia).
  specialize (K K1 K2 K3 K4).
  assert (LT : forall g, inverse (nl_n l) (the_lat l mu r z) g <-> inverse n (lat1 0) g).
  { assert (Q : forall i j, (i < n)%nat -> (j < n)%nat -> the_lat l mu r z i j = lat1 0 i j).
    { intros i j Hi Hj. unfold the_lat, lat1, lat, site_sigma, sigma_of. rewrite ES, Ez. change (nl_inv l) with ids. cbn [nth].
      rewrite (I0 (nth i ids 0%nat)) by (apply nth_In; lia). reflexivity. }
    intros g. split; apply inverse_ext; intros i j Hi Hj; [|symmetry]; now apply Q. }
  rewrite ES, Ez. unfold enum. cbn [chunks length seq combine mapM]. destruct (loc_chunk inv l r (z :: zs') _) as [o|e]; cbn [bind].
  - destruct K as (g & I & Lo & A & B). rewrite Ln in *. unfold take. cbn [mapM elem_at nth_error bind]. exists g, o. rewrite map_length, seq_length, Lr in Lo. rewrite Ez in Lo. cbn [length] in Lo. repeat split; auto.
    + now apply LT.
    + now apply LT.
    + apply A. now left.
    + intros j Hj. rewrite B by (intros [E|[]]; lia). rewrite nth_map_seq; auto. rewrite Lr, Ez. cbn [length]. lia.
  - intros (g & I). apply K. exists g. now apply LT.
Qed.

(** Weiss field and hybridisation. *)
Lemma map2M_in {A B C} (h : A -> B -> res C) x y r : map2M h x y = Ok r -> length x = length y /\ length r = length x /\
  forall i dx dy dr, (i < length x)%nat -> h (nth i x dx) (nth i y dy) = Ok (nth i r dr).
Proof.
  unfold map2M. destruct (Nat.eqb_spec (length x) (length y)) as [E|E]; [|discriminate]. intros M. apply mapM_in in M. rewrite combine_length, <- E, Nat.min_id in M.
  destruct M as [L M]. repeat split; auto. intros i dx dy dr Hi. specialize (M i (dx, dy) dr Hi). rewrite combine_nth in M by auto. exact M.
Qed.
Theorem delta1_values G D : nl_call inv mem l zs = Ok G -> nl_Delta inv mem l zs = Ok D ->
  length D = length neq /\ (forall r, In r D -> length r = length zs) /\
  forall a j, (a < length neq)%nat -> (j < length zs)%nat ->
    nth j (nth a D []) (rcx 0) = hybridisation mu H (sigma_of ids sigma j) (nth j zs (rcx 0)) (nth a neq 0%nat) (nth j (nth a G []) (rcx 0)).
Proof.
  intros EG ED. unfold nl_Delta, nl_Weiss in ED. rewrite EG in ED. cbn [bind] in ED. unfold nl_Sigma_loc, l, lattice1 in ED. cbn [nl_Sigma nl_set_local attr bind nl_rank nl_comm nl_update nl_init nth_error] in ED.
  rewrite FS in ED. cbn [bind] in ED. destruct (map2M _ G sigma) as [W|] eqn:EW; [|discriminate]. cbn [bind] in ED.
  unfold nl_ed in ED. cbn [nl_n nl_H nl_neq nl_set_local nl_update nl_init idx_world nl_mu attr] in ED.
  destruct (classes_range _ _ CL) as (R1 & R2 & _). rewrite (take_ok (rcx 0)) in ED by (intros i Hi; rewrite diagonal_length, <- LEN; now apply R2). cbn [bind] in ED.
  apply map2M_in in EW. destruct EW as (LG & LW & EW). apply map2M_in in ED. rewrite map_length in ED. destruct ED as (LD1 & LD & ED).
  destruct SH as [LS RW].
  assert (RowW : forall a, (a < length neq)%nat -> length (nth a W []) = length zs /\ length (nth a D []) = length zs /\ forall j, (j < length zs)%nat -> nth j (nth a W []) (rcx 0) = cxadd (cxinv (nth j (nth a G []) (rcx 0))) (nth j (nth a sigma []) (rcx 0)) /\
    nth j (nth a D []) (rcx 0) = cxsub (cxsub (cxadd (nth j zs (rcx 0)) (rcx mu)) (H (nth a neq 0%nat) (nth a neq 0%nat))) (nth j (nth a W []) (rcx 0))).
  { intros a Ha. specialize (EW a [] [] [] ltac:(lia)). specialize (ED a (rcx 0) [] [] Ha). apply map2M_in in EW. apply map2M_in in ED. destruct EW as (A1 & A2 & A3), ED as (B1 & B2 & B3).
    assert (Z : length (nth a sigma []) = length zs) by (apply RW, nth_In; lia). split; [lia|]. split; [lia|]. intros j Hj. split.
    - specialize (A3 j (rcx 0) (rcx 0) (rcx 0) ltac:(lia)). now injection A3.
    - specialize (B3 j (rcx 0) (rcx 0) (rcx 0) Hj). rewrite (nth_map (fun i => nth i (diagonal n H) (rcx 0)) neq a 0%nat) in B3 by auto. rewrite nth_diagonal in B3; [now injection B3|]. rewrite <- LEN. apply R2. now apply nth_In. }
  split; [lia|]. split.
  - intros r Hr. destruct (In_nth _ _ [] Hr) as (a & Ha & <-). apply RowW. lia.
  - intros a j Ha Hj. destruct (RowW a Ha) as (_ & _ & R). destruct (R j Hj) as [E1 E2]. rewrite E2, E1. unfold hybridisation, sigma_of.
    destruct (proj2 CL a Ha) as (_ & Ec & _). rewrite Ec. ring.
Qed.
End One.
