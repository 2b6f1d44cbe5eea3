(** Free energy of a stored spectrum, and the change of the one-electron levels. *)
From Coq Require Import String Reals List Arith ZArith.
From Verif Require Import Base RBase RLin LocalModel MatvecModel EspaceModel MbModel MbSpec DedModel ObsModel ExactSpec OccSpec.
Import ListNotations.
Local Open Scope R_scope.

(** - ln Z / beta, from the Z of [_get_entropy_params] and its reference energy. *)
Definition free_energy (beta : R) (es : espace RRing) (e : R) : R :=
  e - ln (snd (entropy_params (map (fun x => s_vals RRing (snd x)) es) e beta)) / beta.
(** The level of spin [s] on site [i]: [mu] is added to the diagonal (ham_local.py:33-34). *)
Definition level (h : hmat RRing) (mu : R) (s i : nat) : R := hspin RRing h s i i + mu.
Definition same_hopping (n : nat) (h h' : hmat RRing) : Prop :=
  forall s i j, (i < n)%nat -> (j < n)%nat -> i <> j -> hspin RRing h s i j = hspin RRing h' s i j.
(** sum_i up_i u_i + dw_i d_i *)
Definition work (n : nat) (up dw : nat -> R) (u d : list R) : R := rsum n (fun i => up i * nth i u 0 + dw i * nth i d 0).
(** [es], [e] and [scts] are what build_espace (espace.py) stores for the model, with any
    eigensolver that meets its contract. *)
Definition solved (big : R -> bool) (half : R) (n : nat) (V : inter RRing) (U : nat -> nat -> R) (hf : bool) (z : option (nat -> R))
    (h : hmat RRing) (mu : R) (es : espace RRing) (e : R) (scts : list osct) : Prop :=
  exists fl eigh eigsh, model_ok half n h fl V U /\ eigh_contract eigh /\
    build_espace RRing Rleb big half eigh eigsh n h fl V hf mu z None "sz" = Ok (es, Some e) /\ Forall2 (fun x o => stored (snd x) o) es scts.
