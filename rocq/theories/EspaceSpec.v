(** Specification vocabulary for the eigenvalue spaces. *)
From Coq Require Import String List Arith NArith ZArith Bool.
From Verif Require Import Base OperatorsSpec SectorModel SectorSpec LocalModel LocalSpec HoppingModel CsrSpec NonLocalSpec MatvecModel MbModel MbSpec EspaceModel.
Import ListNotations.

(** The quantum numbers that exist. *)
Definition qvalid (sym : symm_t) (n : nat) (q : qnums) : Prop :=
  match sym with
  | SymSz => exists a b, q = [a; b] /\ a <= n /\ b <= n
  | SymN => exists p, q = [p] /\ p <= 2 * n
  end.

(** Lexicographic order. *)
Fixpoint qless (p q : qnums) : Prop :=
  match p, q with
  | a :: p, b :: q => a < b \/ (a = b /\ qless p q)
  | _, _ => False
  end.

(** The flat position of a sector in a request array. *)
Definition qpos (sym : symm_t) (n : nat) (q : qnums) : nat :=
  match sym, q with
  | SymSz, [a; b] => a * (n + 1) + b
  | SymN, [p] => p
  | _, _ => 0
  end.

(** Number of sectors. *)
Definition qtotal (sym : symm_t) (n : nat) : nat :=
  match sym with SymSz => (n + 1) * (n + 1) | SymN => 2 * n + 1 end.
(** Number of states of a sector (binom is the binomial coefficient by
    C12_binomial). *)
Definition qdim (n : nat) (q : qnums) : nat :=
  match q with
  | [p] => binom (2 * n) p
  | [a; b] => binom n a * binom n b
  | _ => 0
  end.

(** [l] is ascending. *)
Definition ascending {A} (leb : A -> A -> bool) (l : list A) : Prop :=
  forall i j a b, i <= j -> nth_error l i = Some a -> nth_error l j = Some b -> leb a b = true.

(** The documented rule of adjust_neigsector for one sector with [d] states,
    request [x] and [size] eigenvalues present ([None] if the sector is absent). *)
Definition neig_rule (d x : Z) (size : option Z) : Z :=
  match size with
  | None => Z.max 1 (x - 1)
  | Some m => if Z.eqb m x then Z.min d (x + 1) else if (m <? x)%Z then Z.max 1 (x - 1) else x
  end.

(** Every request lies between one and the number of states. *)
Definition in_range (n : nat) (neig : list Z) : Prop :=
  forall q x, qvalid SymSz n q -> nth_error neig (qpos SymSz n q) = Some x -> (1 <= x <= Z.of_nat (qdim n q))%Z.

Section K.
Variable K : CRing.

(** Number of eigenvalues present for a key. *)
Fixpoint find_size (esp : espace K) (q : qnums) : option Z :=
  match esp with
  | [] => None
  | (q', s) :: esp => if qeqb q q' then Some (Z.of_nat (length (s_vals K s))) else find_size esp q
  end.

(** A sector whose eigenvector array has one column per eigenvalue. *)
Definition paired (s : sct K) : Prop :=
  exists c, s_vecs K s = Cols K c /\ length c = length (s_vals K s).
(** The (eigenvalue, vector) pairs of a sector. *)
Definition pairs (s : sct K) : list (K * list K) :=
  match s_vecs K s with Cols _ c => List.combine (s_vals K s) c | _ => [] end.

(** Total energy of the levels occupied in [s]. *)
Definition occupied_energy (ek : list K) (s : N) : K :=
  nsum (length ek) (fun i => if N.testbit s (N.of_nat i) then nth i ek (c0 K) else c0 K).
End K.

(** ** What build_espace should store *)
Section Solve.
Variable K : CRing.
Local Open Scope cr_scope.
Variable leb : K -> K -> bool.
Variable big : K -> bool.
Variable half : K.
Variable eigh : dense K -> res (list K * list (list K)).
Variable eigsh : nat -> Z -> (list K -> res (list K)) -> res (list K * list (list K)).

(** The library eigensolvers are trusted for this: pairs returned for a
    symmetric matrix (or the product with one) are eigenpairs of it. *)
Definition eigh_sound : Prop := forall D vals cols, d_rows K D = d_cols K D ->
  (forall a b, (a < d_rows K D)%nat -> (b < d_rows K D)%nat -> d_at K D a b = d_at K D b a) ->
  eigh D = Ok (vals, cols) ->
  forall i e v, nth_error vals i = Some e -> nth_error cols i = Some v ->
    length v = d_rows K D /\
    forall a, (a < d_rows K D)%nat -> nsum (d_rows K D) (fun b => d_at K D a b * nth b v 0) = e * nth a v 0.
Definition eigsh_sound : Prop := forall d k mv (A : nat -> nat -> K) vals cols, (forall a b, (a < d)%nat -> (b < d)%nat -> A a b = A b a) ->
  (forall x, length x = d -> mv x = Ok (map (fun a => nsum d (fun b => A a b * nth b x 0)) (seq 0 d))) -> eigsh d k mv = Ok (vals, cols) ->
  forall i e v, nth_error vals i = Some e -> nth_error cols i = Some v ->
    length v = d /\ forall a, (a < d)%nat -> nsum d (fun b => A a b * nth b v 0) = e * nth a v 0.

Variable n : nat.
Variable h : hmat K.
Variable fl : hflags.
Variable V : inter K.
Variable hf : bool.
Variable mu : K.
Variable z : option (nat -> K).

(** What one sector contributes. *)
Definition answer (sym : symm_t) (req : list Z) (q : qnums) (s : sct K) : Prop :=
  exists k c, qns_states n q = Ok (s_states K s) /\ nth_error req (qpos sym n q) = Some k /\ k <> 0%Z /\
    solve_sector K big half eigh eigsh n h fl V hf mu z (s_states K s) (Some k) = Ok (s_vals K s, c) /\ s_vecs K s = Cols K c /\ s_vals K s <> [].

(** [egs] is the least stored eigenvalue; infinite if nothing is stored. *)
Definition egs_ok (esp : espace K) (egs : option K) : Prop :=
  match egs with
  | None => esp = []
  | Some e => (exists q s, In (q, s) esp /\ In e (s_vals K s)) /\
              forall q s v, In (q, s) esp -> In v (s_vals K s) -> leb e v = true
  end.

(** [v] is an eigenvector of the second-quantised Hamiltonian (with the
    exchange sign of the code) for the eigenvalue [e]. *)
Definition is_eigenpair (U : nat -> nat -> K) (up dw : list N) (e : K) (v : list K) : Prop :=
  length v = (length up * length dw)%nat /\
  forall ja ka ua da, nth_error up ja = Some ua -> nth_error dw ka = Some da ->
    nsum (length dw) (fun kb => nsum (length up) (fun jb =>
      hamiltonian K half (- (1)) n (fun s i => hspin K h s i i + mu) U (zfun K hf z) hf
        (fun s => offdiag K big (hspin K h s)) (opt_offdiag K big (inter_Jx K V)) (opt_offdiag K big (inter_Jp K V))
        (nth jb up 0%N) (nth kb dw 0%N) ua da * nth (jb + kb * length up) v 0)) = e * nth (ja + ka * length up) v 0.

End Solve.
