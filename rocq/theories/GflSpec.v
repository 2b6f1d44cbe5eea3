(** The thermal Green's function as a sum of resolvent elements. *)
From Coq Require Import Reals List Arith NArith ZArith Bool.
From Verif Require Import Base RBase RLin CBase OperatorsSpec FockSpec SectorModel LocalModel MatvecModel EspaceModel ProjModel ProjSpec LanczosSpec CfSpec GfSpec.
Import ListNotations.
Local Open Scope R_scope.

(** The basis of the sector with [p] up and [q] down electrons, without eigenvectors. *)
Definition bare (n p q : nat) : sct RRing :=
  match generate_states n p, generate_states n q with
  | Ok u, Ok d => mksct RRing (StSz u d) [] (Cols RRing [])
  | _, _ => mksct RRing (StSz [] []) [] (Cols RRing [])
  end.
Definition dimn (n p q : nat) : nat := sdim RRing (bare n p q).

(** Where adding ([OpCdg]) or removing ([OpC]) an electron of the given spin leads. *)
Definition moved (n : nat) (op : fop) (ispin : Z) (p q : nat) : option (nat * nat) :=
  match op with
  | OpCdg => if (ispin =? 0)%Z then (if (p <? n)%nat then Some (S p, q) else None) else (if (q <? n)%nat then Some (p, S q) else None)
  | OpC => if (ispin =? 0)%Z then match p with O => None | S p => Some (p, q) end else match q with O => None | S q => Some (p, q) end
  end.
Definition orbital (n : nat) (ispin : Z) (pos : nat) : nat := if (ispin =? 0)%Z then pos else (pos + n)%nat.
(** The state [i] of the sector [s] after the operator on the site [pos], in the basis of the sector (p', q'). *)
Definition exc (n : nat) (op : fop) (ispin : Z) (pos p' q' : nat) (s : sct RRing) (i a : nat) : R :=
  applied RRing n (lad op (orbital n ispin pos)) (bare n p' q') s (vec RRing s i) a.
(** z - (H - E) when adding, z + (H - E) when removing. *)
Definition side (op : fop) : R := match op with OpCdg => 1 | OpC => -1 end.

(** [X op key i] solves the linear system of the state [i] of the sector [key]
    excited at the site [pos]; [M p q] is the Hamiltonian matrix of a sector. *)
Definition resolved (n : nat) (M : nat -> nat -> nat -> nat -> R) (ispin : Z) (es : espace RRing) (pos : nat) (z : cx) (X : fop -> qnums -> nat -> nat -> cx) : Prop :=
  forall op p q s i p' q', In ([p; q], s) es -> (i < nvals s)%nat -> moved n op ispin p q = Some (p', q') ->
    solves (dimn n p' q') (shifted (side op) (energy s i) (M p' q')) z (X op [p; q] i) (fun a => rcx (exc n op ispin pos p' q' s i a)).

Definition csuml (l : list cx) : cx := fold_right cxadd (rcx 0) l.
Definition rsuml (l : list R) : R := fold_right Rplus 0 l.
(** Boltzmann-weighted contribution of one sector, between the sites [pos] (solved for in [X]) and [pos']. *)
Definition contribution (n : nat) (beta egs : R) (ispin : Z) (pos' : nat) (X : fop -> qnums -> nat -> nat -> cx) (op : fop) (e : qnums * sct RRing) : cx :=
  match fst e with
  | [p; q] =>
      match moved n op ispin p q with
      | Some (p', q') => csum (nvals (snd e)) (fun i =>
          cxmul (rcx (weight beta egs (energy (snd e) i)))
                (csum (dimn n p' q') (fun a => cxmul (rcx (exc n op ispin pos' p' q' (snd e) i a)) (X op [p; q] i a))))
      | None => rcx 0
      end
  | _ => rcx 0
  end.
Definition Zof (beta egs : R) (es : espace RRing) : R := rsuml (map (fun e => rsum (nvals (snd e)) (fun i => weight beta egs (energy (snd e) i))) es).
Definition green (n : nat) (beta egs : R) (ispin : Z) (es : espace RRing) (pos' : nat) (X : fop -> qnums -> nat -> nat -> cx) (ops : list fop) : cx :=
  cxdiv (csuml (map (fun op => csuml (map (contribution n beta egs ispin pos' X op) es)) ops)) (rcx (Zof beta egs es)).

(** [w], [U] are a complete orthonormal set of eigenpairs of the d x d matrix. *)
Definition eigensystem (d : nat) (M : nat -> nat -> R) (w : list R) (U : list (list R)) : Prop :=
  length w = d /\ length U = d /\ (forall u, In u U -> length u = d) /\
  orthonormal d d (fun k i => nth i (nth k U []) 0) /\
  forall k i, (k < d)%nat -> (i < d)%nat -> rsum d (fun j => M i j * nth j (nth k U []) 0) = nth k w 0 * nth i (nth k U []) 0.

(** The Lanczos coefficients returned for the start vector [phi] span its whole
    Krylov space; an error is the zero-norm one, for the zero vector. *)
Definition exhausts (d : nat) (mv : list R -> res (list R)) (phi : list R) (r : res (list R * list R)) : Prop :=
  match r with
  | Ok (a, b) => exists vs rv, @lanczos RField d mv phi a b vs rv /\ (0 < length vs)%nat /\ forall i, (i < d)%nat -> nth i rv 0 = 0
  | Err e => e = ZeroNormInitialVector /\ forall i, (i < d)%nat -> nth i phi 0 = 0
  end.

(** The dictionary lists sectors of the right shape, one per key. *)
Definition sectors (n : nat) (es : espace RRing) : Prop :=
  NoDup (map fst es) /\ forall key s, In (key, s) es -> exists p q, key = [p; q] /\ is_sector RRing n p q s.

(** What is assumed about the routines called.  [M p q] is the Hamiltonian of a
    sector: [matvec_operator] multiplies by it, [solve_sector] diagonalises it. *)
Definition operators (n : nat) (mvop : states_t -> res (list R -> res (list R))) (M : nat -> nat -> nat -> nat -> R) : Prop :=
  forall p q, (p <= n)%nat -> (q <= n)%nat -> matrix_symmetric (dimn n p q) (M p q) /\
    exists mv, mvop (s_states RRing (bare n p q)) = Ok mv /\ multiplies (dimn n p q) (M p q) mv.
Definition solver (n : nat) (solve : states_t -> res (list R * list (list R))) (M : nat -> nat -> nat -> nat -> R) : Prop :=
  forall p q, (p <= n)%nat -> (q <= n)%nat -> (dimn n p q <= 10)%nat ->
    exists w U, solve (s_states RRing (bare n p q)) = Ok (w, U) /\ eigensystem (dimn n p q) (M p q) w U.
(** The stored small sectors are what [solve_sector] returns for them. *)
Definition settled (n : nat) (solve : states_t -> res (list R * list (list R))) (es : espace RRing) : Prop :=
  forall p q s, In ([p; q], s) es -> (dimn n p q <= 10)%nat ->
    exists U, s_vecs RRing s = Cols RRing U /\ solve (s_states RRing s) = Ok (s_vals RRing s, U).
(** [eigh_tridiagonal] solves its problems. *)
Definition eigh_sound (eigh : list R -> list R -> res (list R * list (list R))) : Prop :=
  forall a b1, (0 < length a)%nat -> S (length b1) = length a ->
  exists w U, eigh a b1 = Ok (w, U) /\ length w = length a /\ @tri_eigen RField a b1 w U.
(** [phi] is, up to a sign, the vector [f] made from some state of the dictionary. *)
Definition started (n : nat) (ispin : Z) (es : espace RRing) (f : fop -> nat -> nat -> sct RRing -> nat -> nat -> R) (p' q' : nat) (phi : list R) : Prop :=
  exists op p q s i sg, In ([p; q], s) es /\ (i < nvals s)%nat /\ moved n op ispin p q = Some (p', q') /\ sg * sg = 1 /\
    length phi = dimn n p' q' /\ forall a, (a < dimn n p' q')%nat -> nth a phi 0 = sg * f op p' q' s i a.
(** The Lanczos runs from these vectors exhaust their Krylov spaces. *)
Definition krylov (n : nat) (mvop : states_t -> res (list R -> res (list R))) (tridiag : (list R -> res (list R)) -> list R -> res (list R * list R))
    (ispin : Z) (es : espace RRing) (f : fop -> nat -> nat -> sct RRing -> nat -> nat -> R) (least : nat) : Prop :=
  forall p' q' phi mv, (least <= dimn n p' q')%nat -> started n ispin es f p' q' phi -> mvop (s_states RRing (bare n p' q')) = Ok mv ->
    exhausts (dimn n p' q') mv phi (tridiag mv phi).

(** The sum of the operators on two sites, and the condition that it never annihilates a state. *)
Definition pair_excited (n : nat) (ispin : Z) (ipos jpos : nat) (op : fop) (p' q' : nat) (s : sct RRing) (i a : nat) : R :=
  exc n op ispin ipos p' q' s i a + exc n op ispin jpos p' q' s i a.
Definition never_zero (n : nat) (ispin : Z) (es : espace RRing) (f : fop -> nat -> nat -> sct RRing -> nat -> nat -> R) : Prop :=
  forall p' q' phi, started n ispin es f p' q' phi -> exists a, (a < dimn n p' q')%nat /\ nth a phi 0 <> 0.
(** The functions collected in the first and the second object returned. *)
Definition ops_e (separate : bool) : list fop := if separate then [OpCdg] else [OpCdg; OpC].
Definition ops_h (separate : bool) : list fop := if separate then [OpC] else [OpCdg; OpC].
