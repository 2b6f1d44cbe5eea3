(** The many-body Hamiltonian of a cluster as a matrix in the Fock basis of 2n
    orbitals (up 0..n-1, down n..2n-1), written with ladder operators and
    independently of the code. *)
From Coq Require Import List Arith NArith ZArith Bool.
From Verif Require Import Base OperatorsSpec SectorModel FockSpec LocalModel LocalSpec HoppingModel NonLocalSpec
  MatvecModel MbModel.
Import ListNotations.

Section MbSpec.
Variable K : CRing.
Variable half : K.
Local Open Scope cr_scope.

(** sum_ij T_ij c+_is c_js *)
Definition hop_op (n : nat) (T : nat -> nat -> K) (s : nat) (t st : N) : K :=
  coupling K n T (fun i j => [Cr (i + s * n); An (j + s * n)]) t st.

(** <ub db| H |ua da>: local energies, hopping, and the three couplings;
    [sgn] multiplies the opposite-spin exchange (1 as documented). *)
Definition hamiltonian (sgn : K) (n : nat) (e : nat -> nat -> K) (U : nat -> nat -> K) (z : nat -> K) (hf : bool)
    (T : nat -> nat -> nat -> K) (Jx Jp : nat -> nat -> K) (ub db ua da : N) : K :=
  let t := combine n ub db in let s := combine n ua da in
  (if N.eqb t s then fock_energy K half n (e 0%nat) (e 1%nat) U z hf ua da else 0)
  + hop_op n (T 0%nat) 0 t s + hop_op n (T 1%nat) 1 t s
  + exch_same K half n Jx t s + sgn * exch_opp K half n Jx t s + pair_hop K half n Jp t s.

(** One-body matrix of each spin: shared, or one per spin. *)
Definition hspin (h : hmat K) : nat -> nat -> nat -> K :=
  match h with H2 _ h => fun _ => h | H3 _ h => h end.
Definition inter_U (V : inter K) : option (nat -> nat -> K) :=
  match V with VArray _ U => Some U | VDict _ U _ _ => U | VOther _ => None end.
Definition inter_Jx (V : inter K) : option (nat -> nat -> K) :=
  match V with VDict _ _ J _ => J | _ => None end.
Definition inter_Jp (V : inter K) : option (nat -> nat -> K) :=
  match V with VDict _ _ _ J => J | _ => None end.

Definition zfun (hf : bool) (z : option (nat -> K)) : nat -> K :=
  match z with Some z => z | None => fun _ => if hf then 1 else 0 end.

(** Sectors as build_espace makes them. *)
Definition sector_of (n : nat) (st : states_t) : Prop :=
  match st with
  | StSz up dw => (n <= 32)%nat /\ exists nup ndw, (nup <= n)%nat /\ (ndw <= n)%nat /\
                    generate_states n nup = Ok up /\ generate_states n ndw = Ok dw
  | StN l => (2 * n <= 32)%nat /\ exists p, (p <= 2 * n)%nat /\ generate_states (2 * n) p = Ok l
  end.

Definition symm (n : nat) (A : nat -> nat -> K) : Prop :=
  forall i j, (i < n)%nat -> (j < n)%nat -> A i j = A j i.
Definition osymm (n : nat) (A : option (nat -> nat -> K)) : Prop :=
  match A with Some A => symm n A | None => True end.

(** The final flag change succeeds. *)
Definition settable (h : hmat K) (fl : hflags) : bool :=
  match h with
  | H2 _ _ => if f_owns fl then f_writeable fl else f_base fl
  | H3 _ _ => f_owns fl || f_base fl
  end.

Inductive kind := KLocal | KUp | KDw | KNonLocal.
Definition kind_of (o : op K) : kind :=
  match o with OpLocal _ _ => KLocal | OpUp _ _ _ => KUp | OpDw _ _ _ => KDw | OpNL _ _ => KNonLocal end.

End MbSpec.
