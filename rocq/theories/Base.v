(** Common definitions: exceptions as values, arrays as lists, exact scalars,
    finite sums.  Nothing here models a particular source function. *)
From Coq Require Import List Arith NArith ZArith Lia Bool Ring Field Permutation.
Import ListNotations.

(** ** Python exceptions as values *)

(** One constructor per exception class that the modelled code can raise.
    [OutOfBounds] stands for an unchecked memory access (Cython with
    [boundscheck(False)], Numba, C); [OutOfFuel] is a model artefact that the
    theorems show to be unreachable. *)
Inductive exn : Set :=
| AssertionError | IndexError | ValueError | TypeError | AttributeError
| KeyError | StopIteration | RuntimeError | NotImplementedError
| OutOfHilbertError | ZeroNormInitialVector | ConvergedExc | FailedToConvergeExc
| UnboundLocalError | ZeroDivisionError | NRError | ImportError | OutOfBounds | OutOfFuel.

Inductive res (A : Type) : Type :=
| Ok (a : A)
| Err (e : exn).
Arguments Ok {A} a.
Arguments Err {A} e.

Definition bind {A B} (r : res A) (f : A -> res B) : res B :=
  match r with Ok a => f a | Err e => Err e end.
Notation "'do' x <- r ; k" := (bind r (fun x => k))
  (at level 200, x pattern, r at level 100, k at level 200, right associativity).

Definition rmap {A B} (f : A -> B) (r : res A) : res B :=
  match r with Ok a => Ok (f a) | Err e => Err e end.

Definition is_ok {A} (r : res A) : bool :=
  match r with Ok _ => true | Err _ => false end.

Fixpoint mapM {A B} (f : A -> res B) (l : list A) : res (list B) :=
  match l with
  | [] => Ok []
  | a :: l => do b <- f a; do bs <- mapM f l; Ok (b :: bs)
  end.

(** Left fold that can raise. *)
Fixpoint foldM {A B} (f : B -> A -> res B) (l : list A) (b : B) : res B :=
  match l with
  | [] => Ok b
  | a :: l => do b' <- f b a; foldM f l b'
  end.

(** ** Arrays as lists *)

(** [a[i] = x]; [None] if [i] is out of range. *)
Fixpoint upd {A} (l : list A) (i : nat) (x : A) : option (list A) :=
  match l, i with
  | [], _ => None
  | _ :: l, O => Some (x :: l)
  | y :: l, S i => match upd l i x with Some l' => Some (y :: l') | None => None end
  end.

(** Total variant: a write outside the array leaves it unchanged (used only
    where the theorems establish that the index is in range). *)
Fixpoint upd_tot {A} (l : list A) (i : nat) (x : A) : list A :=
  match l, i with
  | [], _ => []
  | _ :: l, O => x :: l
  | y :: l, S i => y :: upd_tot l i x
  end.

Fixpoint modify {A} (l : list A) (i : nat) (f : A -> A) : list A :=
  match l, i with
  | [], _ => []
  | y :: l, O => f y :: l
  | y :: l, S i => y :: modify l i f
  end.

Lemma upd_tot_length {A} (l : list A) i x : length (upd_tot l i x) = length l.
Proof. revert i; induction l; destruct i; simpl; auto. Qed.

Lemma modify_length {A} (l : list A) i f : length (modify l i f) = length l.
Proof. revert i; induction l; destruct i; simpl; auto. Qed.

Lemma nth_error_upd_tot {A} (l : list A) i x j :
  nth_error (upd_tot l i x) j =
  if (i =? j) && (i <? length l) then Some x else nth_error l j.
Proof.
  revert i j; induction l as [|a l IH]; intros i j; simpl.
  - replace (i <? 0) with false by (symmetry; apply Nat.ltb_ge; lia).
    now rewrite andb_false_r.
  - destruct i, j; simpl; auto. rewrite IH. reflexivity.
Qed.

Lemma nth_upd_tot {A} (l : list A) i x j d :
  i < length l -> nth j (upd_tot l i x) d = if i =? j then x else nth j l d.
Proof.
  revert i j; induction l as [|a l IH]; intros i j H; simpl in *; [lia|].
  destruct i, j; simpl; auto. apply IH; lia.
Qed.

Lemma nth_modify {A} (l : list A) i f j d :
  i < length l -> nth j (modify l i f) d = if i =? j then f (nth j l d) else nth j l d.
Proof.
  revert i j; induction l as [|a l IH]; intros i j H; simpl in *; [lia|].
  destruct i, j; simpl; auto. apply IH; lia.
Qed.

Lemma nth_modify_out {A} (l : list A) i f : length l <= i -> modify l i f = l.
Proof.
  revert i; induction l as [|a l IH]; intros i H; simpl in *; auto.
  destruct i; simpl in *; [lia|]. f_equal; apply IH; lia.
Qed.

Lemma upd_upd_tot {A} (l : list A) i x :
  i < length l -> upd l i x = Some (upd_tot l i x).
Proof.
  revert i; induction l as [|a l IH]; intros i H; simpl in *; [lia|].
  destruct i; simpl; auto. rewrite IH; [auto|lia].
Qed.

Lemma list_ext {A} (l l' : list A) d :
  length l = length l' -> (forall i, i < length l -> nth i l d = nth i l' d) -> l = l'.
Proof. intros; eapply nth_ext; eauto. Qed.

(** ** Exact scalars *)

(** A commutative ring as an explicit record (no axioms: every theorem is
    universally quantified over it). *)
Record CRing := mkCRing {
  car :> Type;
  c0 : car; c1 : car;
  cadd : car -> car -> car;
  cmul : car -> car -> car;
  csub : car -> car -> car;
  copp : car -> car;
  cth : ring_theory c0 c1 cadd cmul csub copp eq
}.

Declare Scope cr_scope.
Delimit Scope cr_scope with cr.
Notation "0" := (c0 _) : cr_scope.
Notation "1" := (c1 _) : cr_scope.
Infix "+" := (cadd _) : cr_scope.
Infix "*" := (cmul _) : cr_scope.
Infix "-" := (csub _) : cr_scope.
Notation "- x" := (copp _ x) : cr_scope.

(** A field: a ring with division. *)
Record CField := mkCField {
  fring :> CRing;
  cdiv : fring -> fring -> fring;
  cinv : fring -> fring;
  fth : field_theory (c0 fring) (c1 fring) (cadd fring) (cmul fring)
          (csub fring) (copp fring) cdiv cinv eq
}.
Infix "/" := (cdiv _) : cr_scope.

Definition ZRing : CRing := mkCRing Z 0%Z 1%Z Z.add Z.mul Z.sub Z.opp Zth.

Section Sums.
Variable K : CRing.
Add Ring kring : (cth K).
Local Open Scope cr_scope.

(** Finite sum over a list of indices. *)
Fixpoint bsum {A} (f : A -> K) (l : list A) : K :=
  match l with [] => 0 | a :: l => f a + bsum f l end.

(** Sum over [0..n-1]. *)
Definition nsum (n : nat) (f : nat -> K) : K := bsum f (seq 0 n).

Definition b2k (b : bool) : K := if b then 1 else 0.

(** Embedding of the signs and small integers of the code ([np.float64(sgn)]). *)
Fixpoint pos2k (p : positive) : K :=
  match p with
  | xH => 1 | xO p => (1+1) * pos2k p | xI p => 1 + (1+1) * pos2k p
  end.
Definition z2k (z : Z) : K :=
  match z with Z0 => 0 | Zpos p => pos2k p | Zneg p => - pos2k p end.

Lemma bsum_ext {A} (f g : A -> K) l :
  (forall a, In a l -> f a = g a) -> bsum f l = bsum g l.
Proof.
  induction l as [|a l IH]; simpl; intros H; auto.
  rewrite (H a) by now left. f_equal; apply IH; intros; apply H; now right.
Qed.

Lemma bsum_app {A} (f : A -> K) l l' : bsum f (l ++ l') = bsum f l + bsum f l'.
Proof. induction l; simpl; [ring|rewrite IHl; ring]. Qed.

Lemma bsum_add {A} (f g : A -> K) l :
  bsum (fun a => f a + g a) l = bsum f l + bsum g l.
Proof. induction l; simpl; [ring|rewrite IHl; ring]. Qed.

Lemma bsum_sub {A} (f g : A -> K) l :
  bsum (fun a => f a - g a) l = bsum f l - bsum g l.
Proof. induction l; simpl; [ring|rewrite IHl; ring]. Qed.

Lemma bsum_opp {A} (f : A -> K) l : bsum (fun a => - f a) l = - bsum f l.
Proof. induction l; simpl; [ring|rewrite IHl; ring]. Qed.

Lemma bsum_scal_l {A} (f : A -> K) c l : bsum (fun a => c * f a) l = c * bsum f l.
Proof. induction l; simpl; [ring|rewrite IHl; ring]. Qed.

Lemma bsum_scal_r {A} (f : A -> K) c l : bsum (fun a => f a * c) l = bsum f l * c.
Proof. induction l; simpl; [ring|rewrite IHl; ring]. Qed.

Lemma bsum_0 {A} (f : A -> K) l : (forall a, In a l -> f a = 0) -> bsum f l = 0.
Proof.
  induction l as [|a l IH]; simpl; intros H; auto.
  rewrite H, IH; [ring| |]; auto.
Qed.

Lemma bsum_perm {A} (f : A -> K) l l' : Permutation l l' -> bsum f l = bsum f l'.
Proof.
  induction 1; simpl; auto.
  - now rewrite IHPermutation.
  - ring.
  - congruence.
Qed.

Lemma bsum_map {A B} (f : B -> K) (g : A -> B) l : bsum f (map g l) = bsum (fun a => f (g a)) l.
Proof. induction l; simpl; congruence. Qed.

Lemma bsum_flat_map {A B} (f : B -> K) (g : A -> list B) l :
  bsum f (flat_map g l) = bsum (fun a => bsum f (g a)) l.
Proof. induction l; simpl; auto. rewrite bsum_app; congruence. Qed.

Lemma bsum_filter {A} (f : A -> K) (p : A -> bool) l :
  bsum f (filter p l) = bsum (fun a => if p a then f a else 0) l.
Proof. induction l as [|a l IH]; simpl; auto. destruct (p a); simpl; rewrite IH; ring. Qed.

Lemma bsum_swap {A B} (f : A -> B -> K) l l' :
  bsum (fun a => bsum (fun b => f a b) l') l = bsum (fun b => bsum (fun a => f a b) l) l'.
Proof.
  induction l as [|a l IH]; simpl.
  - induction l'; simpl; [auto|rewrite <- IHl'; ring].
  - rewrite IH, <- bsum_add. apply bsum_ext; auto.
Qed.

(** Sum with a single surviving term. *)
Lemma bsum_single {A} (f : A -> K) l a :
  NoDup l -> In a l -> (forall b, In b l -> b <> a -> f b = 0) -> bsum f l = f a.
Proof.
  induction l as [|b l IH]; simpl; intros ND Hin H; [tauto|].
  inversion ND as [|? ? Hni ND']; subst.
  destruct Hin as [->|Hin].
  - rewrite (bsum_0 f l); [ring|]. intros x Hx; apply H; auto. intros ->; tauto.
  - rewrite H, IH; auto; [ring|]. intros ->; tauto.
Qed.

Lemma bsum_fold_left {A} (f : A -> K) l acc :
  fold_left (fun acc a => acc + f a) l acc = acc + bsum f l.
Proof. revert acc; induction l; simpl; intros; [ring|rewrite IHl; ring]. Qed.

Lemma nsum_ext n (f g : nat -> K) :
  (forall i, (i < n)%nat -> f i = g i) -> nsum n f = nsum n g.
Proof. intros H; apply bsum_ext; intros a Ha; apply in_seq in Ha; apply H; lia. Qed.

Lemma nsum_S n (f : nat -> K) : nsum (S n) f = nsum n f + f n.
Proof. unfold nsum. rewrite seq_S, bsum_app; simpl. ring. Qed.

Lemma nsum_S_l n (f : nat -> K) : nsum (S n) f = f O + nsum n (fun i => f (S i)).
Proof. unfold nsum. simpl. f_equal. rewrite <- seq_shift, bsum_map. reflexivity. Qed.

Lemma nsum_0 n (f : nat -> K) : (forall i, (i < n)%nat -> f i = 0) -> nsum n f = 0.
Proof. intros H; apply bsum_0; intros a Ha; apply in_seq in Ha; apply H; lia. Qed.

Lemma nsum_single n (f : nat -> K) i :
  (i < n)%nat -> (forall j, (j < n)%nat -> j <> i -> f j = 0) -> nsum n f = f i.
Proof.
  intros Hi H; apply bsum_single; [apply seq_NoDup|apply in_seq; lia|].
  intros b Hb; apply in_seq in Hb; apply H; lia.
Qed.

Lemma nsum_add n (f g : nat -> K) : nsum n (fun i => f i + g i) = nsum n f + nsum n g.
Proof. apply bsum_add. Qed.
Lemma nsum_sub n (f g : nat -> K) : nsum n (fun i => f i - g i) = nsum n f - nsum n g.
Proof. apply bsum_sub. Qed.
Lemma nsum_scal_l n c (f : nat -> K) : nsum n (fun i => c * f i) = c * nsum n f.
Proof. apply bsum_scal_l. Qed.
Lemma nsum_scal_r n c (f : nat -> K) : nsum n (fun i => f i * c) = nsum n f * c.
Proof. apply bsum_scal_r. Qed.
Lemma nsum_swap n m (f : nat -> nat -> K) :
  nsum n (fun i => nsum m (fun j => f i j)) = nsum m (fun j => nsum n (fun i => f i j)).
Proof. apply bsum_swap. Qed.

Lemma bsum_nth {A} (f : A -> K) l d :
  bsum f l = nsum (length l) (fun i => f (nth i l d)).
Proof.
  induction l as [|a l IH]; [reflexivity|].
  simpl length. rewrite nsum_S_l. simpl. rewrite IH. reflexivity.
Qed.

(** Splitting a sum over [0..a*b-1] into [b] blocks of length [a]. *)
Lemma nsum_split n m (f : nat -> K) :
  nsum (n + m) f = nsum n f + nsum m (fun i => f (n + i)%nat).
Proof.
  unfold nsum. rewrite seq_app, bsum_app. f_equal. simpl.
  induction m; [reflexivity|].
  rewrite !seq_S, !bsum_app, IHm. simpl. reflexivity.
Qed.

Lemma nsum_mul a b (f : nat -> K) :
  nsum (b * a) f = nsum b (fun j => nsum a (fun i => f (i + j * a)%nat)).
Proof.
  induction b as [|b IH]; [reflexivity|].
  rewrite nsum_S, <- IH. replace (S b * a)%nat with (b * a + a)%nat by lia.
  rewrite nsum_split. f_equal. apply nsum_ext; intros. f_equal; lia.
Qed.

Lemma z2k_1 : z2k 1 = 1.
Proof. reflexivity. Qed.
Lemma z2k_m1 : z2k (-1) = - (1).
Proof. reflexivity. Qed.
Lemma z2k_opp z : z2k (- z) = - z2k z.
Proof. destruct z; simpl; ring. Qed.

Lemma pos2k_succ p : pos2k (Pos.succ p) = 1 + pos2k p.
Proof. induction p; simpl; [rewrite IHp; ring|ring|ring]. Qed.

Lemma pos2k_add p q : pos2k (p + q) = pos2k p + pos2k q.
Proof.
  revert q; induction p using Pos.peano_ind; intros q.
  - rewrite Pos.add_1_l, pos2k_succ. reflexivity.
  - rewrite Pos.add_succ_l, !pos2k_succ, IHp. ring.
Qed.

Lemma pos2k_mul p q : pos2k (p * q) = pos2k p * pos2k q.
Proof.
  revert q; induction p using Pos.peano_ind; intros q.
  - simpl. ring.
  - rewrite Pos.mul_succ_l, pos2k_add, IHp, pos2k_succ. ring.
Qed.

Lemma z2k_mul a b : z2k (a * b) = z2k a * z2k b.
Proof. destruct a, b; simpl; rewrite ?pos2k_mul; ring. Qed.

Lemma pos2k_sub_lt p q : (p < q)%positive -> pos2k (q - p) = pos2k q - pos2k p.
Proof.
  intros H. assert (E : pos2k q = pos2k ((q - p) + p)) by (now rewrite Pos.sub_add).
  rewrite E, pos2k_add. ring.
Qed.

Lemma z2k_add a b : z2k (a + b) = z2k a + z2k b.
Proof.
  destruct a as [|p|p], b as [|q|q]; simpl; rewrite ?pos2k_add; try ring.
  - rewrite Z.pos_sub_spec. destruct (Pos.compare_spec p q); subst; simpl;
      rewrite ?pos2k_sub_lt by auto; ring.
  - rewrite Z.pos_sub_spec. destruct (Pos.compare_spec q p); subst; simpl;
      rewrite ?pos2k_sub_lt by auto; ring.
Qed.

End Sums.
Arguments bsum {K A} f l.
Arguments nsum {K} n f.
Arguments b2k {K} b.
Arguments z2k {K} z.

(** ** Concrete scalars for examples and witnesses: canonical rationals. *)
From Coq Require Import QArith Qcanon.
Definition QcRing : CRing := mkCRing Qc 0%Qc 1%Qc Qcplus Qcmult Qcminus Qcopp Qcrt.
Definition QcField : CField := mkCField QcRing Qcdiv Qcinv Qcft.
Definition qhalf : QcRing := Q2Qc (1 # 2).
Lemma qhalf_spec : cadd QcRing qhalf qhalf = c1 QcRing.
Proof. apply Qc_is_canon. reflexivity. Qed.
Definition qz (z : Z) : QcRing := Q2Qc (inject_Z z).
