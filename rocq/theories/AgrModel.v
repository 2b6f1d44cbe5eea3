(** The Lanczos Green's functions of edpyt/gf_lanczos.py and edpyt/gf2_lanczos.py
    as functions of the parameters of the model: the routines left open in
    GflModel.v are those of espace.py and matvec_product.py. *)
From Coq Require Import Reals String List Arith NArith ZArith Bool.
From Verif Require Import Base RBase RLin CBase SectorModel LocalModel HoppingModel NonLocalModel MatvecModel MbModel EspaceModel ProjModel CfModel GfModel GflModel.
Import ListNotations.
Local Open Scope R_scope.

Section Of.
Variables (big : R -> bool) (half : R).
Variable eigh : dense RRing -> res (list R * list (list R)).
Variable eigsh : nat -> Z -> (list R -> res (list R)) -> res (list R * list (list R)).
Variables (n : nat) (h : hmat RRing) (fl : hflags) (V : inter RRing) (hf : bool) (mu : R) (z : option (nat -> R)).
(** gf_lanczos.py:184, 219: [solve_sector(H, V, sctJ)], all eigenpairs. *)
Definition all_pairs (st : states_t) : res (list R * list (list R)) := solve_sector RRing big half eigh eigsh n h fl V hf mu z st None.
(** gf_lanczos.py:198-200, 233-235 and gf2_lanczos.py:88-90, 109-111:
    [matvec_operator( *build_mb_ham(H, V, sctJ))]; the uninitialised output has no
    influence (C23_output_contents_irrelevant), any array of that size is used. *)
Definition product_of (st : states_t) : res (list R -> res (list R)) :=
  do ops <- sector_ops RRing big half n h fl V hf mu z st; Ok (fun w => matvec RRing (fun _ => true) ops w w None).

Variable tridiag : (list R -> res (list R)) -> list R -> res (list R * list R).
Variable eight : list R -> list R -> res (list R * list (list R)).
(** gf_lanczos.py:127-255 and gf2_lanczos.py. *)
Definition gf_lanczos_of := build_gf_lanczos all_pairs product_of tridiag eight n.
Definition gf2_lanczos_of := build_gf2_lanczos all_pairs product_of tridiag eight n.
End Of.
