(** Second-order tunnelling within the sector of N electrons. *)
From Coq Require Import Reals List Arith NArith ZArith Bool.
From Verif Require Import Base RBase RLin OperatorsSpec FockSpec SectorModel LocalModel MatvecModel EspaceModel ProjModel ProjSpec GfSpec RateModel RateSpec TransSpec TnlSpec.
Import ListNotations.
Local Open Scope R_scope.

(** <j| sum_p a_p c(+)_p,spin |i> *)
Definition coupled (n spin : nat) (op : fop) (J I : sct RRing) (j i : nat) (a : list R) : R :=
  rsum n (fun p => nth p a 0 * namp n op (p + spin * n) J I j i).
(** The electron of spin [s] comes in first (from the lead with couplings [ae]), then one of
    spin [s'] leaves with energy [z] (into the lead with couplings [ai]). *)
Definition via_more (n s' s : nat) (ae ai : list R) (S M : sct RRing) (f i : nat) (z : R) : R :=
  rsum (nvals M) (fun k => coupled n s' OpC S M f k ai * coupled n s OpCdg M S k i ae / (energy M k - energy S f - z)).
(** The electron of spin [s'] leaves first. *)
Definition via_less (n s' s : nat) (ae ai : list R) (S L : sct RRing) (f i : nat) (z : R) : R :=
  rsum (nvals L) (fun k => coupled n s OpCdg S L f k ae * coupled n s' OpC L S k i ai / (energy S i - energy L k - z)).
(** The second-order amplitude; intermediate sectors that are empty or full are left out. *)
Definition second_order (n : nat) (es : espace RRing) (N s' s : nat) (ae ai : list R) (f i : nat) (z T : R) : Prop :=
  exists S x y, In ([N], S) es /\
    (if (N + 1 <? 2 * n)%nat then exists M, In ([N + 1]%nat, M) es /\ x = via_more n s' s ae ai S M f i z else x = 0) /\
    (if (1 <? N)%nat then exists L, In ([N - 1]%nat, L) es /\ y = via_less n s' s ae ai S L f i z else y = 0) /\
    T = x + y.
(** The same with all intermediate sectors. *)
Definition full_order (n : nat) (es : espace RRing) (N s' s : nat) (ae ai : list R) (f i : nat) (z T : R) : Prop :=
  exists S x y, In ([N], S) es /\
    (if (N <? 2 * n)%nat then exists M, In ([N + 1]%nat, M) es /\ x = via_more n s' s ae ai S M f i z else x = 0) /\
    (if (0 <? N)%nat then exists L, In ([N - 1]%nat, L) es /\ y = via_less n s' s ae ai S L f i z else y = 0) /\
    T = x + y.
(** No intermediate state is met exactly. *)
Definition off_pole (es : espace RRing) (N f i : nat) (z : R) : Prop :=
  forall S, In ([N], S) es ->
    (forall M k, In ([N + 1]%nat, M) es -> (k < nvals M)%nat -> energy M k - energy S f <> z) /\
    (forall L k, In ([N - 1]%nat, L) es -> (k < nvals L)%nat -> energy S i - energy L k <> z).
(** Sum of the squared amplitudes over the spins of both electrons. *)
Definition cross (n : nat) (es : espace RRing) (N : nat) (ae ai : list R) (f i : nat) (z X : R) : Prop :=
  exists T00 T01 T10 T11, second_order n es N 0 0 ae ai f i z T00 /\ second_order n es N 0 1 ae ai f i z T01 /\
    second_order n es N 1 0 ae ai f i z T10 /\ second_order n es N 1 1 ae ai f i z T11 /\ X = T00 ^ 2 + T01 ^ 2 + T10 ^ 2 + T11 ^ 2.

(** Screening: the weight of an intermediate state when every site couples with strength 1. *)
Definition ones (n : nat) : list R := repeat 1 n.
Definition weight_more (n s' s : nat) (S M : sct RRing) (f i k : nat) : R := coupled n s' OpC S M f k (ones n) * coupled n s OpCdg M S k i (ones n).
Definition weight_less (n s' s : nat) (S L : sct RRing) (f i k : nat) : R := coupled n s OpCdg S L f k (ones n) * coupled n s' OpC L S k i (ones n).
Definition heavy (w : R) : Prop := 1 / 10 ^ 10 < Rabs w.
Definition heavyb (w : R) : bool := if Rlt_dec (1 / 10 ^ 10) (Rabs w) then true else false.
(** The amplitude with only the intermediate states of non-negligible weight. *)
Definition kept_more (n s' s : nat) (ae ai : list R) (S M : sct RRing) (f i : nat) (z : R) : R :=
  rsum (nvals M) (fun k => if heavyb (weight_more n s' s S M f i k) then coupled n s' OpC S M f k ai * coupled n s OpCdg M S k i ae / (energy M k - energy S f - z) else 0).
Definition kept_less (n s' s : nat) (ae ai : list R) (S L : sct RRing) (f i : nat) (z : R) : R :=
  rsum (nvals L) (fun k => if heavyb (weight_less n s' s S L f i k) then coupled n s OpCdg S L f k ae * coupled n s' OpC L S k i ai / (energy S i - energy L k - z) else 0).
Definition kept_order (n : nat) (es : espace RRing) (N s' s : nat) (ae ai : list R) (f i : nat) (z T : R) : Prop :=
  exists S x y, In ([N], S) es /\
    (if (N + 1 <? 2 * n)%nat then exists M, In ([N + 1]%nat, M) es /\ x = kept_more n s' s ae ai S M f i z else x = 0) /\
    (if (1 <? N)%nat then exists L, In ([N - 1]%nat, L) es /\ y = kept_less n s' s ae ai S L f i z else y = 0) /\
    T = x + y.
Definition kept_cross (n : nat) (es : espace RRing) (N : nat) (ae ai : list R) (f i : nat) (z X : R) : Prop :=
  exists T00 T01 T10 T11, kept_order n es N 0 0 ae ai f i z T00 /\ kept_order n es N 0 1 ae ai f i z T01 /\
    kept_order n es N 1 0 ae ai f i z T10 /\ kept_order n es N 1 1 ae ai f i z T11 /\ X = T00 ^ 2 + T01 ^ 2 + T10 ^ 2 + T11 ^ 2.
(** Some process from i to f has an intermediate state of non-negligible weight. *)
Definition connected (n : nat) (es : espace RRing) (N f i : nat) : Prop :=
  exists s' s S k, (s' < 2)%nat /\ (s < 2)%nat /\ In ([N], S) es /\
    ((exists M, (N + 1 < 2 * n)%nat /\ In ([N + 1]%nat, M) es /\ (k < nvals M)%nat /\ heavy (weight_more n s' s S M f i k)) \/
     (exists L, (1 < N)%nat /\ In ([N - 1]%nat, L) es /\ (k < nvals L)%nat /\ heavy (weight_less n s' s S L f i k))).
(** Both states within [c] of the reference energy and of each other. *)
Definition in_range (es : espace RRing) (N : nat) (e c : R) (f i : nat) : Prop :=
  exists S, In ([N], S) es /\ (f < nvals S)%nat /\ (i < nvals S)%nat /\ Rabs (energy S f - energy S i) < c /\ Rabs (energy S f - e) < c /\ Rabs (energy S i - e) < c.
(** The reference energy of the screening: the given one or, without a given number of electrons, the lowest. *)
Definition reference (es : espace RRing) (No : option nat) (egs : option R) (e : R) : Prop :=
  match No with Some _ => egs = Some e | None => exists N, lowest es N e end.
(** The weight of the golden rule: the level below [me] filled, above [mi] empty. *)
Definition fermi_of (x : R) : R := 1 / (exp x + 1).
Definition window (beta me mi e : R) : R := fermi_of (beta * (e - me)) * fermi_of (- beta * (e - mi)).
