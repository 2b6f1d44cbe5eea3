(** Model of edpyt/gf2_exact.py: the matrix of Green's functions, with exact real
    arithmetic. *)
From Coq Require Import Reals List Arith ZArith Bool.
From Verif Require Import Base RBase RLin CBase SectorModel MatvecModel EspaceModel ProjModel CfModel GfModel.
Import ListNotations.
Local Open Scope R_scope.

(** gf2_exact.py:43-44, one pair of sites: [(EJ - EI).flatten()] and
    [(b2J * exponents).flatten()], where [b1] has the shape (I, J) and is
    transposed, [b2] the shape (J, I). *)
Definition gm_lambdas (egs : R) (I J : sct RRing) : list R :=
  flat_map (fun j => map (fun i => (nth j (s_vals RRing J) 0 - egs) - (nth i (s_vals RRing I) 0 - egs)) (seq 0 (length (s_vals RRing I)))) (seq 0 (length (s_vals RRing J))).
Definition gm_weights (beta egs : R) (I J : sct RRing) (b1 b2 : list (list R)) : list R :=
  flat_map (fun j => map (fun i => nth j (nth i b1 []) 0 * nth i (nth j b2 []) 0 * (boltz beta egs (nth j (s_vals RRing J) 0) + boltz beta egs (nth i (s_vals RRing I) 0)))
    (seq 0 (length (s_vals RRing I)))) (seq 0 (length (s_vals RRing J))).

(** The two [defaultdict(list)]: weights and energies per pair of sites. *)
Definition gm_acc := nat -> nat -> list R * list R.
Definition gm_extend (acc : gm_acc) (p1 p2 : nat) (q l : list R) : gm_acc :=
  fun a b => if (a =? p1)%nat && (b =? p2)%nat then (fst (acc a b) ++ q, snd (acc a b) ++ l) else acc a b.
(** [np.ndindex(n,n)] *)
Definition sites (n : nat) : list (nat * nat) := list_prod (seq 0 n) (seq 0 n).

Definition gm_project := nat -> nat -> fop -> sct RRing -> sct RRing -> res (list (list R)).
(** gf2_exact.py:31-44, one sector. *)
Definition gm_step (project : gm_project) (n : nat) (es : espace RRing) (beta egs : R) (ispin : Z) (acc : gm_acc) (e : qnums * sct RRing) : res gm_acc :=
  match fst e with
  | [nupI; ndwI] =>
      match get_cdg_sector (Z.of_nat n) (Z.of_nat nupI) (Z.of_nat ndwI) ispin with
      | Err OutOfHilbertError => Ok acc
      | Err x => Err x
      | Ok (nupJ, ndwJ) =>
          let sI := snd e in
          do sJ <- es_get es [Z.to_nat nupJ; Z.to_nat ndwJ];
          foldM (fun acc pp => let '(p1, p2) := pp in
            do b1 <- project p1 n OpC sJ sI;
            do b2 <- project p2 n OpCdg sI sJ;
            Ok (gm_extend acc p1 p2 (gm_weights beta egs sI sJ b1 b2) (gm_lambdas egs sI sJ))) (sites n) acc
      end
  | _ => Err ValueError
  end.

(** gf2_exact.py:8-12 [class Gf2] *)
Record gm_t := mkgm { gm_shape : nat; gm_gf : nat -> nat -> gf_t }.
(** gf2_exact.py:23-52 [build_gf2_exact]; [n] is [H.shape[-1]]. *)
Definition build_gf2_exact (n : nat) (es : espace RRing) (beta egs : R) (ispin : Z) : res gm_t :=
  do project <- pick ispin (project_exact_up RRing) (project_exact_dw RRing);
  do acc <- foldM (gm_step project n es beta egs ispin) es (fun _ _ => ([], []));
  let Z := partition beta egs es in
  Ok (mkgm n (fun p1 p2 => mkgf (fst (acc p1 p2)) (snd (acc p1 p2)) Z)).
(** gf2_exact.py:15-20 at one energy; row [p1], column [p2]. *)
Definition gm_call (g : gm_t) (e : cx) (eta : R) : res (list (list cx)) :=
  mapM (fun p1 => mapM (fun p2 => gf_call (gm_gf g p1 p2) e eta) (seq 0 (gm_shape g))) (seq 0 (gm_shape g)).
