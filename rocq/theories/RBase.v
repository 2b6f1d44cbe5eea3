(** The real numbers as exact scalars. *)
From Coq Require Import Reals Lra List Bool.
From Verif Require Import Base.
Local Open Scope R_scope.

Definition RRing : CRing := mkCRing R 0 1 Rplus Rmult Rminus Ropp RTheory.
Definition RField : CField := mkCField RRing Rdiv Rinv (Rfield).

Definition Rleb (a b : R) : bool := if Rle_dec a b then true else false.
Definition Rltb (a b : R) : bool := if Rlt_dec a b then true else false.
Lemma Rleb_spec a b : Rleb a b = true <-> a <= b.
Proof. unfold Rleb. destruct (Rle_dec a b); split; congruence || lra. Qed.
Lemma Rltb_spec a b : Rltb a b = true <-> a < b.
Proof. unfold Rltb. destruct (Rlt_dec a b); split; congruence || lra. Qed.
Lemma Rleb_total a b : Rleb a b = true \/ Rleb b a = true.
Proof. rewrite !Rleb_spec. lra. Qed.
Lemma Rleb_trans a b c : Rleb a b = true -> Rleb b c = true -> Rleb a c = true.
Proof. rewrite !Rleb_spec. lra. Qed.
