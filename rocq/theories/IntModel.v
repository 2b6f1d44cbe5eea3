(** Model of the cotunnelling integrals: edpyt/integrals.py and the choice among
    them in edpyt/cotnl.py, with exact real arithmetic. *)
From Coq Require Import Reals List Bool.
From Verif Require Import Base RBase CBase.
Import ListNotations.
Local Open Scope R_scope.

Section Int.
(** [mpmath.psi]: the polygamma function of order [n]. *)
Variable psi : nat -> cx -> cx.

(** integrals.py:15-16 [Psi] *)
Definition Psi (n : nat) (a b beta : R) : cx := psi n (1 / 2, beta / (2 * PI) * (a - b)).
(** integrals.py:19-24 [Taylor] *)
Definition Taylor (n : nat) (x a b beta : R) : cx :=
  let k := Psi n a b beta in
  cxsub (cxadd (cxsub (cxdiv k (rcx x)) (cxmul (rcx (1 / 2)) k)) (cxmul (rcx (1 / 12 * x)) k)) (cxmul (rcx (1 / 720 * x ^ 3)) k).
(** integrals.py:33 [nB] *)
Definition nB (x : R) : R := 1 / (exp x - 1).
(** The literals 1e-16 and 1e-15. *)
Definition tiny16 : R := / 10 ^ 16.
Definition tiny15 : R := / 10 ^ 15.

(** integrals.py:36-48 [I1] (also [Gamma1], line 99); [mu] is the pair of
    potentials. *)
Definition I1 (C eps : R) (mu : R * R) (beta : R) : R :=
  let x := (snd mu - fst mu) * beta in
  if Rltb (Rabs x) tiny16 then 0
  else if Rltb (Rabs x) tiny15 then C ^ 2 * beta / (2 * PI) * im (cxsub (Taylor 1 x (snd mu) eps beta) (Taylor 1 x (fst mu) eps beta))
  else C ^ 2 * beta / (2 * PI) * nB x * im (cxsub (Psi 1 (snd mu) eps beta) (Psi 1 (fst mu) eps beta)).
(** integrals.py:63-79 [I2].  The middle branch calls [Taylor] without its first
    argument.  Dividing by [epsA - epsB = 0] is an error here; numpy warns and
    goes on with nan. *)
Definition I2 (A B epsA epsB : R) (mu : R * R) (beta : R) : res R :=
  let x := (snd mu - fst mu) * beta in
  if Rltb (Rabs x) tiny16 then Ok 0
  else if Rltb (Rabs x) tiny15 then Err TypeError
  else if Req_EM_T epsA epsB then Err ZeroDivisionError
  else Ok (A * B * nB x / (epsA - epsB) *
           re (cxadd (cxsub (cxsub (Psi 0 epsA (snd mu) beta) (Psi 0 epsA (fst mu) beta)) (Psi 0 epsB (snd mu) beta)) (Psi 0 epsB (fst mu) beta))).
(** integrals.py:102-105 [Gamma2] *)
Definition Gamma2 (A B epsA epsB : R) (mu : R * R) (beta : R) : res R :=
  do i2 <- I2 A B epsA epsB mu beta;
  Ok (I1 A epsA mu beta + I1 B epsB mu beta + i2).
(** integrals.py:108-114 [Gamma4] *)
Definition Gamma4 (A B C D epsA epsB epsC epsD : R) (mu : R * R) (beta : R) : res R :=
  do g1 <- Gamma2 A B epsA epsB mu beta;
  do g2 <- Gamma2 A C epsA epsC mu beta;
  do g3 <- Gamma2 A (- D) epsA epsD mu beta;
  do g4 <- Gamma2 B (- C) epsB epsC mu beta;
  do g5 <- Gamma2 B D epsB epsD mu beta;
  do g6 <- Gamma2 C D epsC epsD mu beta;
  Ok (g1 + g2 - g3 - g4 + g5 + g6).

(** cotnl.py:249-261 [Sigma.exact]: [Y] and [E] are the amplitudes and the poles
    collected from the Green's functions; [mu] has been shifted. *)
Definition exact (Y E : list R) (mu : R * R) (beta : R) : res R :=
  match Y, E with
  | [y], [e] => Ok (I1 y e mu beta)
  | [y1; y2], [e1; e2] => Gamma2 y1 y2 e1 e2 mu beta
  | [y1; y2; y3; y4], [e1; e2; e3; e4] => Gamma4 y1 y2 y3 y4 e1 e2 e3 e4 mu beta
  | _, _ => Err NotImplementedError
  end.
End Int.
