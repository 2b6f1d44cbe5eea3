(** Complex numbers over the reals as exact scalars. *)
From Coq Require Import Reals Lra Psatz Ring Field.
From Verif Require Import Base RBase RLin.
Local Open Scope R_scope.

Definition cx : Type := (R * R)%type.
Definition re (z : cx) : R := fst z.
Definition im (z : cx) : R := snd z.
Definition rcx (x : R) : cx := (x, 0).
Definition ci : cx := (0, 1).
Definition cxadd (x y : cx) : cx := (re x + re y, im x + im y).
Definition cxopp (x : cx) : cx := (- re x, - im x).
Definition cxsub (x y : cx) : cx := cxadd x (cxopp y).
Definition cxmul (x y : cx) : cx := (re x * re y - im x * im y, re x * im y + im x * re y).
Definition cxn2 (x : cx) : R := re x * re x + im x * im x.
Definition cxinv (x : cx) : cx := (re x / cxn2 x, - im x / cxn2 x).
Definition cxdiv (x y : cx) : cx := cxmul x (cxinv y).
Definition cxconj (x : cx) : cx := (re x, - im x).

Lemma cx_eq (x y : cx) : re x = re y -> im x = im y -> x = y.
Proof. destruct x, y; simpl; congruence. Qed.
Lemma cxn2_pos x : x <> rcx 0 -> 0 < cxn2 x.
Proof.
  intros H. unfold cxn2. destruct (Req_dec (re x) 0) as [E1|E1]; [destruct (Req_dec (im x) 0) as [E2|E2]|].
  - exfalso. apply H. apply cx_eq; auto.
  - nra.
  - nra.
Qed.
Lemma cx_ring : ring_theory (rcx 0) (rcx 1) cxadd cxmul cxsub cxopp eq.
Proof. constructor; intros; apply cx_eq; cbv [cxadd cxmul cxsub cxopp rcx re im fst snd]; try ring; destruct x; reflexivity || ring. Qed.
Lemma cx_field : field_theory (rcx 0) (rcx 1) cxadd cxmul cxsub cxopp cxdiv cxinv eq.
Proof.
  constructor.
  - exact cx_ring.
  - intros E. apply (f_equal re) in E. simpl in E. lra.
  - reflexivity.
  - intros p H. pose proof (cxn2_pos p H) as P. apply cx_eq; cbv [cxmul cxinv rcx cxn2 re im fst snd] in *; destruct p; field; lra.
Qed.
Definition CxRing : CRing := mkCRing cx (rcx 0) (rcx 1) cxadd cxmul cxsub cxopp cx_ring.
Definition CxField : CField := mkCField CxRing cxdiv cxinv cx_field.

Definition csum (n : nat) (f : nat -> cx) : cx := @nsum CxRing n f.
Lemma csum_re n f : re (csum n f) = rsum n (fun i => re (f i)).
Proof.
  induction n; [reflexivity|]. unfold csum in *. rewrite (nsum_S CxRing), rsum_S. simpl. rewrite <- IHn. reflexivity.
Qed.
Lemma csum_im n f : im (csum n f) = rsum n (fun i => im (f i)).
Proof.
  induction n; [reflexivity|]. unfold csum in *. rewrite (nsum_S CxRing), rsum_S. simpl. rewrite <- IHn. reflexivity.
Qed.
Lemma rcx_add x y : rcx (x + y) = cxadd (rcx x) (rcx y).
Proof. apply cx_eq; simpl; ring. Qed.
Lemma rcx_sub x y : rcx (x - y) = cxsub (rcx x) (rcx y).
Proof. apply cx_eq; simpl; ring. Qed.
Lemma rcx_mul x y : rcx (x * y) = cxmul (rcx x) (rcx y).
Proof. apply cx_eq; simpl; ring. Qed.
Lemma rcx_opp x : rcx (- x) = cxopp (rcx x).
Proof. apply cx_eq; simpl; ring. Qed.
Lemma rcx_sum n f : rcx (rsum n f) = csum n (fun i => rcx (f i)).
Proof. apply cx_eq; rewrite ?csum_re, ?csum_im; simpl; [reflexivity|]. symmetry. apply rsum_0. reflexivity. Qed.
Lemma rcx_inj x y : rcx x = rcx y -> x = y.
Proof. intros E. now apply (f_equal re) in E. Qed.
Lemma im_neq z : im z <> 0 -> z <> rcx 0.
Proof. intros H ->. simpl in H. lra. Qed.

Lemma csum_ext n f g : (forall i, (i < n)%nat -> f i = g i) -> csum n f = csum n g.
Proof. apply (nsum_ext CxRing). Qed.
Lemma csum_add n f g : csum n (fun i => cxadd (f i) (g i)) = cxadd (csum n f) (csum n g).
Proof. apply (nsum_add CxRing). Qed.
Lemma csum_sub n f g : csum n (fun i => cxsub (f i) (g i)) = cxsub (csum n f) (csum n g).
Proof. apply (nsum_sub CxRing). Qed.
Lemma csum_scal_l n c f : csum n (fun i => cxmul c (f i)) = cxmul c (csum n f).
Proof. apply (nsum_scal_l CxRing). Qed.
Lemma csum_swap n m f : csum n (fun i => csum m (fun j => f i j)) = csum m (fun j => csum n (fun i => f i j)).
Proof. apply (nsum_swap CxRing). Qed.
Lemma csum_single n f i : (i < n)%nat -> (forall j, (j < n)%nat -> j <> i -> f j = rcx 0) -> csum n f = f i.
Proof. apply (nsum_single CxRing). Qed.
Lemma csum_0 n f : (forall i, (i < n)%nat -> f i = rcx 0) -> csum n f = rcx 0.
Proof. apply (nsum_0 CxRing). Qed.
