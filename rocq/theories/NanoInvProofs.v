(** A matrix inversion that meets the specification. *)
From Coq Require Import Reals List Arith Lia Lra Bool.
From Verif Require Import Base RBase RLin CBase NanoSpec NanoMatProofs.
Import ListNotations.
Local Open Scope R_scope.
Add Ring cxr : cx_ring.
Add Field cxf : cx_field.

Definition cx_dec (x y : cx) : {x = y} + {x <> y}.
Proof. destruct x as [a b], y as [c d]. destruct (Req_EM_T a c); [destruct (Req_EM_T b d); [left; congruence|right; congruence]|right; congruence]. Defined.
Fixpoint pivot (f : nat -> cx) (n : nat) : option nat :=
  match n with
  | O => None
  | S n => if cx_dec (f n) (rcx 0) then pivot f n else Some n
  end.
Lemma pivot_ok f n : match pivot f n with Some p => (p < n)%nat /\ f p <> rcx 0 | None => forall i, (i < n)%nat -> f i = rcx 0 end.
Proof.
  induction n as [|n IH]; cbn [pivot]; [intros; lia|]. destruct (cx_dec (f n) (rcx 0)) as [E|E]; [|split; [lia|auto]].
  destruct (pivot f n) as [p|]; [destruct IH; split; [lia|auto]|]. intros i Hi. destruct (Nat.eq_dec i n) as [->|]; auto. apply IH. lia.
Qed.
Definition swap (p n i : nat) : nat := if (i =? p)%nat then n else if (i =? n)%nat then p else i.
Fixpoint gauss (n : nat) (x : nat -> nat -> cx) : res (nat -> nat -> cx) :=
  match n with
  | O => Ok (fun _ _ => rcx 0)
  | S n =>
      match pivot (fun i => x i n) (S n) with
      | None => Err ValueError
      | Some p =>
          let b := fun i j => x (swap p n i) j in
          let d := b n n in
          do s <- gauss n (fun i j => cxsub (b i j) (cxdiv (cxmul (b i n) (b n j)) d));
          let c i j := if (i <? n)%nat then (if (j <? n)%nat then s i j else cxopp (cxdiv (csum n (fun l => cxmul (s i l) (b l n))) d))
                       else if (j <? n)%nat then cxopp (cxdiv (csum n (fun l => cxmul (b n l) (s l j))) d)
                       else cxadd (cxinv d) (cxdiv (csum n (fun k => cxmul (b n k) (csum n (fun l => cxmul (s k l) (b l n))))) (cxmul d d)) in
          Ok (fun i j => c i (swap p n j))
      end
  end.

Lemma csum_S n f : csum (S n) f = cxadd (csum n f) (f n).
Proof. unfold csum. rewrite (nsum_S CxRing). reflexivity. Qed.
Lemma swap_lt p n i : (p < S n)%nat -> (i < S n)%nat -> (swap p n i < S n)%nat.
Proof. unfold swap. destruct (Nat.eqb_spec i p), (Nat.eqb_spec i n); lia. Qed.
Lemma swap_swap p n i : swap p n (swap p n i) = i.
Proof. unfold swap. destruct (Nat.eqb_spec i p), (Nat.eqb_spec i n); subst; repeat (match goal with |- context[(?a =? ?b)%nat] => destruct (Nat.eqb_spec a b) end); congruence || lia. Qed.

(** Permuting rows. *)
Lemma csum_swap_index p n f : (p < S n)%nat -> csum (S n) (fun i => f (swap p n i)) = csum (S n) f.
Proof.
  intros Hp. transitivity (csum (S n) (fun i => csum (S n) (fun k => cxmul (delta (swap p n i) k) (f k)))).
  - apply csum_ext. intros i Hi. symmetry. apply csum_one. now apply swap_lt.
  - rewrite csum_swap. apply csum_ext. intros k Hk. rewrite (csum_ext _ _ (fun i => cxmul (delta (swap p n k) i) (f k))).
    + apply (csum_one (S n) (swap p n k) (fun _ => f k)). now apply swap_lt.
    + intros i Hi. f_equal. unfold delta. destruct (Nat.eqb_spec (swap p n i) k) as [<-|N].
      * now rewrite swap_swap, Nat.eqb_refl.
      * destruct (Nat.eqb_spec (swap p n k) i) as [<-|]; auto. rewrite swap_swap in N. congruence.
Qed.
Lemma delta_swap p n i j : delta (swap p n i) j = delta i (swap p n j).
Proof. unfold delta. destruct (Nat.eqb_spec (swap p n i) j) as [N|N], (Nat.eqb_spec i (swap p n j)) as [E|E]; auto; exfalso; [apply E; rewrite <- N; now rewrite swap_swap|apply N; rewrite E; apply swap_swap]. Qed.
Lemma inverse_rows p n x g : (p < S n)%nat -> (inverse (S n) x g <-> inverse (S n) (fun i j => x (swap p n i) j) (fun i j => g i (swap p n j))).
Proof.
  intros Hp. split; intros I i j Hi Hj.
  - pose proof (swap_lt p n i Hp Hi). pose proof (swap_lt p n j Hp Hj). split.
    + rewrite (proj1 (I (swap p n i) (swap p n j) ltac:(auto) ltac:(auto))). rewrite delta_swap, swap_swap. reflexivity.
    + rewrite (csum_swap_index p n (fun l => cxmul (g i l) (x l j))) by auto. now apply I.
  - pose proof (swap_lt p n i Hp Hi) as A. pose proof (swap_lt p n j Hp Hj) as B. split.
    + pose proof (proj1 (I (swap p n i) (swap p n j) A B)) as E. cbv beta in E. rewrite !swap_swap in E. rewrite E, delta_swap, swap_swap. reflexivity.
    + rewrite <- (csum_swap_index p n (fun l => cxmul (g i l) (x l j))) by auto. now apply (proj2 (I i j Hi Hj)).
Qed.

(** Blocks. *)
Section Block.
Variables (n : nat) (b : nat -> nat -> cx).
Hypothesis D : b n n <> rcx 0.
Let sch i j := cxsub (b i j) (cxdiv (cxmul (b i n) (b n j)) (b n n)).
Lemma block_schur g : inverse (S n) b g -> inverse n sch g.
Proof.
  intros I i j Hi Hj.
  pose proof (proj1 (I i j ltac:(lia) ltac:(lia))) as A. pose proof (proj1 (I n j ltac:(lia) ltac:(lia))) as A'.
  pose proof (proj2 (I i j ltac:(lia) ltac:(lia))) as B. pose proof (proj2 (I i n ltac:(lia) ltac:(lia))) as B'.
  rewrite csum_S in A, A', B, B'.
  assert (Z1 : delta n j = rcx 0) by (unfold delta; destruct (Nat.eqb_spec n j); [lia|reflexivity]). assert (Z2 : delta i n = rcx 0) by (unfold delta; destruct (Nat.eqb_spec i n); [lia|reflexivity]).
  rewrite Z1 in A'. rewrite Z2 in B'. split.
  - rewrite (csum_ext n _ (fun l => cxsub (cxmul (b i l) (g l j)) (cxmul (cxdiv (b i n) (b n n)) (cxmul (b n l) (g l j))))) by (intros l _; unfold sch; field; auto).
    rewrite csum_sub, csum_scal_l, <- A. assert (csum n (fun l => cxmul (b n l) (g l j)) = cxopp (cxmul (b n n) (g n j))) as ->; [|field; auto].
    set (t := csum n (fun l => cxmul (b n l) (g l j))) in *. transitivity (cxsub (cxadd t (cxmul (b n n) (g n j))) (cxmul (b n n) (g n j))); [ring|]. rewrite A'. ring.
  - rewrite (csum_ext n _ (fun l => cxsub (cxmul (g i l) (b l j)) (cxmul (cxdiv (b n j) (b n n)) (cxmul (g i l) (b l n))))) by (intros l _; unfold sch; field; auto).
    rewrite csum_sub, csum_scal_l, <- B. assert (csum n (fun l => cxmul (g i l) (b l n)) = cxopp (cxmul (g i n) (b n n))) as ->; [|field; auto].
    set (t := csum n (fun l => cxmul (g i l) (b l n))) in *. transitivity (cxsub (cxadd t (cxmul (g i n) (b n n))) (cxmul (g i n) (b n n))); [ring|]. rewrite B'. ring.
Qed.
Variable s : nat -> nat -> cx.
Hypothesis IS : inverse n sch s.
Let u i := csum n (fun l => cxmul (s i l) (b l n)).
Let v j := csum n (fun l => cxmul (b n l) (s l j)).
Let w := csum n (fun k => cxmul (b n k) (u k)).
Let c i j := if (i <? n)%nat then (if (j <? n)%nat then s i j else cxopp (cxdiv (u i) (b n n)))
             else if (j <? n)%nat then cxopp (cxdiv (v j) (b n n)) else cxadd (cxinv (b n n)) (cxdiv w (cxmul (b n n) (b n n))).
Lemma w_alt : w = csum n (fun l => cxmul (v l) (b l n)).
Proof.
  unfold w, u, v. rewrite (csum_ext n _ (fun k => csum n (fun l => cxmul (cxmul (b n k) (s k l)) (b l n)))).
  - rewrite csum_swap. apply csum_ext. intros l Hl. now rewrite csum_scal_r.
  - intros k Hk. rewrite <- csum_scal_l. apply csum_ext. intros; ring.
Qed.
(** sums against the rows and columns of b *)
Lemma bs i j : (i < n)%nat -> (j < n)%nat -> csum n (fun l => cxmul (b i l) (s l j)) = cxadd (delta i j) (cxmul (cxdiv (b i n) (b n n)) (v j)).
Proof.
  intros Hi Hj. pose proof (proj1 (IS i j Hi Hj)) as A.
  rewrite (csum_ext n _ (fun l => cxsub (cxmul (b i l) (s l j)) (cxmul (cxdiv (b i n) (b n n)) (cxmul (b n l) (s l j))))) in A by (intros l _; unfold sch; field; auto).
  rewrite csum_sub, csum_scal_l in A. rewrite <- A. unfold v. ring.
Qed.
Lemma sb i j : (i < n)%nat -> (j < n)%nat -> csum n (fun l => cxmul (s i l) (b l j)) = cxadd (delta i j) (cxmul (cxdiv (b n j) (b n n)) (u i)).
Proof.
  intros Hi Hj. pose proof (proj2 (IS i j Hi Hj)) as A.
  rewrite (csum_ext n _ (fun l => cxsub (cxmul (s i l) (b l j)) (cxmul (cxdiv (b n j) (b n n)) (cxmul (s i l) (b l n))))) in A by (intros l _; unfold sch; field; auto).
  rewrite csum_sub, csum_scal_l in A. rewrite <- A. unfold u. ring.
Qed.
Lemma bu i : (i < n)%nat -> csum n (fun l => cxmul (b i l) (u l)) = cxadd (b i n) (cxmul (cxdiv (b i n) (b n n)) w).
Proof.
  intros Hi. unfold u. rewrite (csum_ext n _ (fun l => csum n (fun k => cxmul (cxmul (b i l) (s l k)) (b k n)))) by (intros l _; rewrite <- csum_scal_l; apply csum_ext; intros; ring).
  rewrite csum_swap. rewrite (csum_ext n _ (fun k => cxadd (cxmul (delta i k) (b k n)) (cxmul (cxdiv (b i n) (b n n)) (cxmul (v k) (b k n))))).
  - rewrite csum_add, csum_scal_l, (csum_one n i (fun k => b k n)) by auto. rewrite w_alt. reflexivity.
  - intros k Hk. rewrite csum_scal_r, bs by auto. ring.
Qed.
Lemma vb j : (j < n)%nat -> csum n (fun l => cxmul (v l) (b l j)) = cxadd (b n j) (cxmul (cxdiv (b n j) (b n n)) w).
Proof.
  intros Hj. unfold v. rewrite (csum_ext n _ (fun l => csum n (fun k => cxmul (b n k) (cxmul (s k l) (b l j))))) by (intros l _; rewrite <- csum_scal_r; apply csum_ext; intros; ring).
  rewrite csum_swap. rewrite (csum_ext n _ (fun k => cxadd (cxmul (b n k) (delta k j)) (cxmul (cxdiv (b n j) (b n n)) (cxmul (b n k) (u k))))).
  - rewrite csum_add, csum_scal_l, (csum_one' n j (fun k => b n k)) by auto. reflexivity.
  - intros k Hk. rewrite csum_scal_l, sb by auto. ring.
Qed.
Lemma ltb_t i : (i < n)%nat -> (i <? n)%nat = true.
Proof. intros. now apply Nat.ltb_lt. Qed.
Lemma block_inverse : inverse (S n) b c.
Proof.
  assert (F : (n <? n)%nat = false) by apply Nat.ltb_irrefl.
  intros i j Hi Hj. rewrite !csum_S. unfold c at 2 4. rewrite F.
  assert (CJ : forall l, (l < n)%nat -> c l j = if (j <? n)%nat then s l j else cxopp (cxdiv (u l) (b n n))) by (intros l Hl; unfold c; now rewrite ltb_t).
  assert (CI : forall l, (l < n)%nat -> c i l = if (i <? n)%nat then s i l else cxopp (cxdiv (v l) (b n n))) by (intros l Hl; unfold c; rewrite (ltb_t l Hl); reflexivity).
  split.
  - rewrite (csum_ext n _ (fun l => cxmul (b i l) (if (j <? n)%nat then s l j else cxopp (cxdiv (u l) (b n n))))) by (intros l Hl; now rewrite CJ).
    destruct (Nat.ltb_spec j n) as [J|J].
    + destruct (Nat.eq_dec i n) as [->|Ni].
      * fold (v j). unfold delta. destruct (Nat.eqb_spec n j); [lia|]. field. auto.
      * rewrite bs by lia. field. auto.
    + assert (j = n) by lia. subst j.
      rewrite (csum_ext n _ (fun l => cxmul (cxopp (cxinv (b n n))) (cxmul (b i l) (u l)))) by (intros l _; unfold cxdiv; ring). rewrite csum_scal_l.
      destruct (Nat.eq_dec i n) as [->|Ni].
      * fold w. unfold delta. rewrite Nat.eqb_refl. field. auto.
      * rewrite bu by lia. unfold delta. destruct (Nat.eqb_spec i n); [lia|]. field. auto.
  - rewrite (csum_ext n _ (fun l => cxmul (if (i <? n)%nat then s i l else cxopp (cxdiv (v l) (b n n))) (b l j))) by (intros l Hl; now rewrite CI).
    destruct (Nat.ltb_spec i n) as [J|J].
    + destruct (Nat.eq_dec j n) as [->|Nj].
      * fold (u i). unfold delta. destruct (Nat.eqb_spec i n); [lia|]. field. auto.
      * rewrite sb by lia. field. auto.
    + assert (i = n) by lia. subst i.
      rewrite (csum_ext n _ (fun l => cxmul (cxopp (cxinv (b n n))) (cxmul (v l) (b l j)))) by (intros l _; unfold cxdiv; ring). rewrite csum_scal_l.
      destruct (Nat.eq_dec j n) as [->|Nj].
      * rewrite <- w_alt. unfold delta. rewrite Nat.eqb_refl. field. auto.
      * rewrite vb by lia. unfold delta. destruct (Nat.eqb_spec n j); [lia|]. field. auto.
Qed.
End Block.

Theorem gauss_inverts : inverts gauss.
Proof.
  intros n. induction n as [|n IH]; intros x; cbn [gauss]; [intros i j Hi; lia|].
  pose proof (pivot_ok (fun i => x i n) (S n)) as P. destruct (pivot _ (S n)) as [p|].
  - destruct P as [Hp NP]. set (b := fun i j => x (swap p n i) j).
    assert (D : b n n <> rcx 0). { unfold b, swap. destruct (Nat.eqb_spec n p) as [E|E]; [now rewrite <- E in NP|]. now rewrite Nat.eqb_refl. }
    cbv zeta. specialize (IH (fun i j => cxsub (b i j) (cxdiv (cxmul (b i n) (b n j)) (b n n)))). destruct (gauss n _) as [s|e]; cbn [bind].
    + pose proof (block_inverse n b D s IH) as B. apply (inverse_rows p n x _ Hp). 
      intros i j Hi Hj. cbv beta. rewrite swap_swap. pose proof (B i j Hi Hj) as [B1 B2]. split; [rewrite <- B1|rewrite <- B2]; apply csum_ext; intros l Hl; rewrite ?swap_swap; reflexivity.
    + intros (g & I). apply IH. apply (inverse_rows p n x g Hp) in I. exists (fun i j => g i (swap p n j)). now apply block_schur.
  - intros (g & I). pose proof (proj2 (I n n ltac:(lia) ltac:(lia))) as E. rewrite csum_0 in E.
    + unfold delta in E. rewrite Nat.eqb_refl in E. apply (f_equal re) in E. cbn in E. lra.
    + intros l Hl. rewrite P by auto. ring.
Qed.
