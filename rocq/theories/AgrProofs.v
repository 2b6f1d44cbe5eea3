(** The thermal sum of resolvent elements over a complete set of sectors is the Lehmann sum. *)
From Coq Require Import Reals List Arith NArith ZArith Bool Lia Lra Psatz Ring Field Permutation.
From Verif Require Import Base RBase RLin CBase OperatorsSpec FockSpec SectorModel LocalModel MatvecModel EspaceModel ProjModel ProjSpec ProjProofs ProjFinalProofs
  CfModel CfSpec GfModel GfSpec GfProofs GfSumProofs GfMoreProofs GmModel GmSpec GmProofs GflSpec AgrSpec.
Import ListNotations.
Local Open Scope R_scope.
Add Field cxf3 : cx_field.

Lemma csum_scal_r' n c f : csum n (fun i => cxmul (f i) c) = cxmul (csum n f) c.
Proof. rewrite (csum_ext n _ (fun i => cxmul c (f i))) by (intros; ring). rewrite csum_scal_l. ring. Qed.

(** Resolvent element in an eigenbasis. *)
Section Element.
Variables (d : nat) (T : nat -> nat -> R) (v : nat -> nat -> R) (lam : nat -> R) (z : cx) (x : nat -> cx) (f g : nat -> R).
Hypothesis ON : orthonormal d d v. Hypothesis SY : matrix_symmetric d T.
Hypothesis EV : forall k a, (k < d)%nat -> (a < d)%nat -> rsum d (fun b => T a b * v k b) = lam k * v k a.
Hypothesis Hz : im z <> 0. Hypothesis SX : solves d T z x (fun a => rcx (f a)).
Definition comp (k : nat) : cx := csum d (fun a => cxmul (rcx (v k a)) (x a)).
Lemma nonreal l : cxsub z (rcx l) <> rcx 0.
Proof. intros E. apply (f_equal im) in E. unfold cxsub, cxadd, cxopp, rcx, im, re in *. cbn [fst snd] in E. lra. Qed.
Lemma comp_value k : (k < d)%nat -> comp k = cxdiv (rcx (rsum d (fun a => f a * v k a))) (cxsub z (rcx (lam k))).
Proof.
  intros Hk. pose proof (nonreal (lam k)) as NZ. assert (E : cxmul (cxsub z (rcx (lam k))) (comp k) = rcx (rsum d (fun a => f a * v k a))).
  { rewrite rcx_sum. rewrite (csum_ext d _ (fun a => cxmul (rcx (v k a)) (rcx (f a)))) by (intros; rewrite rcx_mul; ring).
    rewrite (csum_ext d _ (fun a => cxsub (cxmul z (cxmul (rcx (v k a)) (x a))) (csum d (fun j => cxmul (cxmul (rcx (T j a)) (rcx (v k a))) (x j))))).
    2: { intros a Ha. rewrite <- (SX a Ha). transitivity (cxsub (cxmul z (cxmul (rcx (v k a)) (x a))) (cxmul (rcx (v k a)) (csum d (fun j => cxmul (rcx (T a j)) (x j))))); [ring|].
         f_equal. rewrite <- csum_scal_l. apply csum_ext. intros j Hj. rewrite (SY a j Ha Hj). ring. }
    rewrite csum_sub, csum_scal_l, csum_swap. fold (comp k).
    rewrite (csum_ext d _ (fun j => cxmul (rcx (lam k)) (cxmul (rcx (v k j)) (x j)))).
    - rewrite csum_scal_l. fold (comp k). ring.
    - intros j Hj. rewrite csum_scal_r'. rewrite (csum_ext d _ (fun b => rcx (T j b * v k b))) by (intros; now rewrite rcx_mul). rewrite <- rcx_sum, (EV k j Hk Hj), rcx_mul. ring. }
  rewrite <- E. field. exact NZ.
Qed.
Theorem element : csum d (fun a => cxmul (rcx (g a)) (x a)) =
  csum d (fun k => cxdiv (rcx (rsum d (fun a => g a * v k a) * rsum d (fun a => f a * v k a))) (cxsub z (rcx (lam k)))).
Proof.
  rewrite (csum_ext d (fun k => cxdiv _ _) (fun k => cxmul (rcx (rsum d (fun a => g a * v k a))) (comp k))).
  2: { intros k Hk. rewrite (comp_value k Hk), rcx_mul. unfold cxdiv. ring. }
  transitivity (csum d (fun k => csum d (fun b => csum d (fun a => cxmul (cxmul (rcx (g b)) (rcx (v k b * v k a))) (x a))))).
  2: { apply csum_ext. intros k Hk. unfold comp. rewrite rcx_sum, <- csum_scal_r'. apply csum_ext. intros b Hb. rewrite <- csum_scal_l. apply csum_ext. intros a Ha. rewrite !rcx_mul. ring. }
  rewrite csum_swap. apply csum_ext. intros b Hb. rewrite csum_swap.
  rewrite (csum_ext d _ (fun a => cxmul (cxmul (rcx (g b)) (rcx (if (b =? a)%nat then 1 else 0))) (x a))).
  - symmetry. rewrite (csum_single d _ b Hb); [rewrite Nat.eqb_refl; ring|]. intros j Hj N. destruct (Nat.eqb_spec b j); [congruence|ring].
  - intros a Ha. rewrite csum_scal_r'. f_equal. rewrite csum_scal_l. f_equal. rewrite <- rcx_sum. f_equal. exact (orthonormal_complete d d v ON eq_refl b a Hb Ha).
Qed.
End Element.

Lemma shifted_sym d sg E T : matrix_symmetric d T -> matrix_symmetric d (CfSpec.shifted sg E T).
Proof. intros S i j Hi Hj. unfold CfSpec.shifted. rewrite (S i j Hi Hj), (Nat.eqb_sym j i). reflexivity. Qed.
Lemma shifted_eig d op E T v lam : (forall a, (a < d)%nat -> rsum d (fun b => T a b * v b) = lam * v a) ->
  forall a, (a < d)%nat -> rsum d (fun b => CfSpec.shifted (side op) E T a b * v b) = (side op * (lam - E)) * v a.
Proof.
  intros H a Ha. rewrite (rsum_ext d _ (fun b => side op * (T a b * v b) - side op * ((if (a =? b)%nat then E else 0) * v b))).
  - rewrite rsum_sub, !rsum_scal_l, (H a Ha). rewrite (rsum_single d _ a Ha); [rewrite Nat.eqb_refl; ring|]. intros j _ N. destruct (Nat.eqb_spec a j); [congruence|ring].
  - intros b _. unfold CfSpec.shifted, side. destruct op; unfold Rltb; destruct Rlt_dec; try lra; ring.
Qed.

(** The states of a sector are those of the bare one. *)
Lemma bare_sector n p q s : is_sector RRing n p q s -> ups RRing (bare n p q) = ups RRing s /\ dws RRing (bare n p q) = dws RRing s.
Proof. intros (_ & _ & _ & S & GU & GD & _). unfold bare. rewrite GU, GD. auto. Qed.
Lemma dimn_sector n p q s : is_sector RRing n p q s -> dimn n p q = sdim RRing s.
Proof. intros H. unfold dimn, sdim. now destruct (bare_sector _ _ _ _ H) as [-> ->]. Qed.
Lemma basis_sector n p q s a : is_sector RRing n p q s -> basis RRing n (bare n p q) a = basis RRing n s a.
Proof. intros H. unfold basis. now destruct (bare_sector _ _ _ _ H) as [-> ->]. Qed.
Lemma exc_sector n op ispin pos p q J s i a : is_sector RRing n p q J -> exc n op ispin pos p q s i a = applied RRing n (lad op (orbital n ispin pos)) J s (vec RRing s i) a.
Proof. intros H. unfold exc, applied. apply (nsum_ext RRing). intros b _. now rewrite (basis_sector n p q J a H). Qed.

Section Family.
Variables (n : nat) (es : espace RRing) (F : family) (M : nat -> nat -> nat -> nat -> R) (beta egs : R) (s : nat).
Hypothesis HF : lists_family n es F. Hypothesis Hs : (s <= 1)%nat.
Hypothesis EB : forall p q, (p <= n)%nat -> (q <= n)%nat -> eigenbasis (F p q).
Hypothesis SY : forall p q, (p <= n)%nat -> (q <= n)%nat -> matrix_symmetric (dimn n p q) (M p q).
Hypothesis EV : forall p q, (p <= n)%nat -> (q <= n)%nat -> forall k a, (k < sdim RRing (F p q))%nat -> (a < sdim RRing (F p q))%nat ->
  rsum (sdim RRing (F p q)) (fun b => M p q a b * nth b (vec RRing (F p q) k) 0) = energy (F p q) k * nth a (vec RRing (F p q) k) 0.
Notation ispin := (Z.of_nat s).

Lemma orbital_spin x : orbital n ispin x = (x + s * n)%nat.
Proof. clear - Hs. unfold orbital. destruct s as [|[|]]; [| |lia]; cbn; lia. Qed.
Lemma moved_range op p q p' q' : (p <= n)%nat -> (q <= n)%nat -> moved n op ispin p q = Some (p', q') -> (p' <= n)%nat /\ (q' <= n)%nat.
Proof.
  clear - Hs. intros Hp Hq. unfold moved. destruct op, s as [|[|]]; try lia; cbn [Z.of_nat Z.eqb Pos.of_succ_nat Pos.eqb].
  - destruct p; [discriminate|]. intros [= <- <-]. lia.
  - destruct q; [discriminate|]. intros [= <- <-]. lia.
  - destruct (Nat.ltb_spec p n); [|discriminate]. intros [= <- <-]. lia.
  - destruct (Nat.ltb_spec q n); [|discriminate]. intros [= <- <-]. lia.
Qed.

(** One state of a sector. *)
Lemma state_sum op x y z X p q p' q' i : im z <> 0 -> resolved n M ispin es x z X -> (p <= n)%nat -> (q <= n)%nat -> (i < nvals (F p q))%nat -> moved n op ispin p q = Some (p', q') ->
  csum (dimn n p' q') (fun a => cxmul (rcx (exc n op ispin y p' q' (F p q) i a)) (X op [p; q] i a)) =
  csum (nvals (F p' q')) (fun k => cxdiv (rcx (bracket RRing n (lad op (y + s * n)) (F p' q') (F p q) (vec RRing (F p' q') k) (vec RRing (F p q) i) *
      bracket RRing n (lad op (x + s * n)) (F p' q') (F p q) (vec RRing (F p' q') k) (vec RRing (F p q) i)))
    (cxsub z (rcx (side op * (energy (F p' q') k - energy (F p q) i))))).
Proof.
  intros Hz HX Hp Hq Hi HM. destruct (moved_range op p q p' q' Hp Hq HM) as [Hp' Hq']. pose proof (proj2 (proj2 HF) p' q' Hp' Hq') as IS.
  assert (I : In ([p; q], F p q) es) by (apply (proj1 (proj2 HF)); exists p, q; auto).
  pose proof (HX op p q (F p q) i p' q' I Hi HM) as SX. destruct (EB p' q' Hp' Hq') as [NV ON]. pose proof (dimn_sector n p' q' _ IS) as DE. pose proof (SY p' q' Hp' Hq') as SY'.
  rewrite NV. rewrite DE in SX, SY' |- *.
  rewrite (element (sdim RRing (F p' q')) _ (fun k b => nth b (vec RRing (F p' q') k) 0) (fun k => side op * (energy (F p' q') k - energy (F p q) i)) z (X op [p; q] i)
    (exc n op ispin x p' q' (F p q) i) (exc n op ispin y p' q' (F p q) i) ON (shifted_sym _ _ _ _ SY')
    (fun k a Hk Ha => shifted_eig _ op _ _ (fun b => nth b (vec RRing (F p' q') k) 0) _ (fun a' Ha' => EV p' q' Hp' Hq' k a' Hk Ha') a Ha) Hz SX).
  assert (B : forall w k, rsum (sdim RRing (F p' q')) (fun a => exc n op ispin w p' q' (F p q) i a * nth a (vec RRing (F p' q') k) 0) =
    bracket RRing n (lad op (w + s * n)) (F p' q') (F p q) (vec RRing (F p' q') k) (vec RRing (F p q) i)).
  { intros w k. unfold bracket. apply rsum_ext. intros a _. rewrite (exc_sector n op ispin w p' q' _ _ _ _ IS), orbital_spin. apply Rmult_comm. }
  apply csum_ext. intros k _. now rewrite !B.
Qed.

Definition ckey (y : nat) X op (key : qnums) : cx := match key with [p; q] => contribution n beta egs ispin y X op ([p; q], F p q) | _ => rcx 0 end.
Lemma csuml_bsum {A} (f : A -> cx) l : csuml (map f l) = @bsum CxRing _ f l.
Proof. induction l; cbn [map csuml fold_right bsum]; auto. fold (csuml (map f l)). now rewrite IHl. Qed.
Lemma contributions y X op : csuml (map (contribution n beta egs ispin y X op) es) = csum (S n) (fun p => csum (S n) (fun q => contribution n beta egs ispin y X op ([p; q], F p q))).
Proof.
  rewrite csuml_bsum. transitivity (@bsum CxRing _ (ckey y X op) (map fst es)).
  - rewrite bsum_map. apply (bsum_ext CxRing). intros [key t] I. pose proof (proj1 (proj1 (proj2 HF) _ _) I) as (p & q & Hp & Hq & -> & ->). reflexivity.
  - rewrite (bsum_perm CxRing _ _ _ (keys_perm n es F HF)), grid_sum. reflexivity.
Qed.
Lemma Zof_Zsum : Zof beta egs es = Zsum n beta egs F.
Proof.
  unfold Zof, Zsum. transitivity (@bsum RRing _ (fun key => match key with [p; q] => rsum (nvals (F p q)) (fun i => weight beta egs (energy (F p q) i)) | _ => 0 end) (map fst es)).
  - rewrite bsum_map. assert (E : forall (f : qnums * sct RRing -> R) l, rsuml (map f l) = @bsum RRing _ f l).
    { intros f l. induction l; cbn [map rsuml fold_right bsum]; auto. fold (rsuml (map f l)). now rewrite IHl. }
    rewrite E. apply (bsum_ext RRing). intros [key t] I. pose proof (proj1 (proj1 (proj2 HF) _ _) I) as (p & q & Hp & Hq & -> & ->). reflexivity.
  - rewrite (bsum_perm RRing _ _ _ (keys_perm n es F HF)), grid_sum. reflexivity.
Qed.

(** The electron numbers with [m] of the chosen spin and [o] of the other. *)
Definition nu (m o : nat) : nat := match s with O => m | _ => o end.
Definition nd (m o : nat) : nat := match s with O => o | _ => m end.
Lemma of_spin_nu m o : of_spin F s m o = F (nu m o) (nd m o).
Proof. unfold of_spin, nu, nd. destruct s; reflexivity. Qed.
Lemma grid_spin (f : nat -> nat -> cx) : csum (S n) (fun p => csum (S n) (fun q => f p q)) = csum (S n) (fun m => csum (S n) (fun o => f (nu m o) (nd m o))).
Proof. unfold nu, nd. destruct s; [reflexivity|]. apply csum_swap. Qed.
Lemma moved_add m o : moved n OpCdg ispin (nu m o) (nd m o) = if (m <? n)%nat then Some (nu (S m) o, nd (S m) o) else None.
Proof. clear - Hs. unfold moved, nu, nd. destruct s as [|[|]]; [| |lia]; cbn [Z.of_nat Z.eqb Pos.of_succ_nat Pos.eqb]; reflexivity. Qed.
Lemma moved_rem m o : moved n OpC ispin (nu m o) (nd m o) = match m with O => None | S m => Some (nu m o, nd m o) end.
Proof. clear - Hs. unfold moved, nu, nd. destruct s as [|[|]]; [| |lia]; cbn [Z.of_nat Z.eqb Pos.of_succ_nat Pos.eqb]; destruct m; reflexivity. Qed.
Lemma nu_range m o : (m <= n)%nat -> (o <= n)%nat -> (nu m o <= n)%nat /\ (nd m o <= n)%nat.
Proof. unfold nu, nd. destruct s; auto. Qed.

Lemma part_sum op x y z X : im z <> 0 -> resolved n M ispin es x z X ->
  csuml (map (contribution n beta egs ispin y X op) es) = lehmann_part n s x y beta egs F op z.
Proof.
  intros Hz HX. rewrite contributions, grid_spin. unfold lehmann_part. cbv zeta. destruct op.
  - (* removing *)
    change (csum (S n)) with (@nsum CxRing (S n)) at 1. rewrite nsum_S_l. change (@nsum CxRing n) with (csum n).
    rewrite (nsum_0 CxRing (S n)); [|intros o _; unfold contribution; cbn [fst snd]; now rewrite moved_rem].
    etransitivity; [apply (Radd_0_l (cth CxRing))|]. apply csum_ext. intros m Hm. change (@nsum CxRing (S n)) with (csum (S n)). apply csum_ext. intros o Ho. rewrite !of_spin_nu.
    unfold contribution. cbn [fst snd]. rewrite moved_rem. destruct (nu_range (S m) o ltac:(lia) ltac:(lia)) as [R1 R2].
    apply csum_ext. intros j Hj. rewrite (state_sum OpC x y z X _ _ (nu m o) (nd m o) j Hz HX R1 R2 Hj (moved_rem (S m) o)). rewrite <- csum_scal_l. apply csum_ext. intros i Hi.
    rewrite !(bracket_adj RRing n OpC). cbn [opp_op lad part_weight side]. unfold add_amp. replace (-1 * (energy (F (nu m o) (nd m o)) i - energy (F (nu (S m) o) (nd (S m) o)) j)) with (energy (F (nu (S m) o) (nd (S m) o)) j - energy (F (nu m o) (nd m o)) i) by ring.
    rewrite !rcx_mul. unfold cxdiv. ring.
  - (* adding *)
    change (csum (S n)) with (@nsum CxRing (S n)) at 1. rewrite nsum_S. change (@nsum CxRing n) with (csum n).
    rewrite (csum_0 (S n) (fun o => contribution n beta egs ispin y X OpCdg ([nu n o; nd n o], F (nu n o) (nd n o)))); [|intros o _; unfold contribution; cbn [fst snd]; rewrite moved_add, Nat.ltb_irrefl; reflexivity].
    etransitivity; [apply (Radd_comm (cth CxRing))|]. etransitivity; [apply (Radd_0_l (cth CxRing))|]. apply csum_ext. intros m Hm. change (@nsum CxRing (S n)) with (csum (S n)). apply csum_ext. intros o Ho. rewrite !of_spin_nu.
    unfold contribution. cbn [fst snd]. pose proof (moved_add m o) as MA. destruct (Nat.ltb_spec m n); [|lia]. rewrite MA. destruct (nu_range m o ltac:(lia) ltac:(lia)) as [R1 R2].
    rewrite csum_swap. apply csum_ext. intros i Hi. rewrite (state_sum OpCdg x y z X _ _ _ _ i Hz HX R1 R2 Hi MA). rewrite <- csum_scal_l. apply csum_ext. intros j Hj.
    cbn [lad part_weight side]. unfold add_amp. replace (1 * (energy (F (nu (S m) o) (nd (S m) o)) j - energy (F (nu m o) (nd m o)) i)) with (energy (F (nu (S m) o) (nd (S m) o)) j - energy (F (nu m o) (nd m o)) i) by ring.
    rewrite !rcx_mul. unfold cxdiv. ring.
Qed.

Lemma parts_add x y z : cxadd (lehmann_part n s x y beta egs F OpCdg z) (lehmann_part n s x y beta egs F OpC z) = lehmann n s x y beta egs F z.
Proof.
  unfold lehmann_part, lehmann. rewrite <- csum_add. apply csum_ext. intros m _. rewrite <- csum_add. apply csum_ext. intros o _. cbv zeta. rewrite <- csum_add. apply csum_ext. intros j _.
  rewrite <- csum_add. apply csum_ext. intros i _. cbn [part_weight]. rewrite !rcx_mul, rcx_add. unfold cxdiv. ring.
Qed.
Theorem green_part op x y z X : im z <> 0 -> resolved n M ispin es x z X ->
  green n beta egs ispin es y X [op] = cxdiv (lehmann_part n s x y beta egs F op z) (rcx (Zsum n beta egs F)).
Proof. intros Hz HX. unfold green. cbn [map csuml fold_right]. fold (csuml (map (contribution n beta egs ispin y X op) es)). rewrite (part_sum op x y z X Hz HX), Zof_Zsum. f_equal. ring. Qed.
Theorem green_whole x y z X : im z <> 0 -> resolved n M ispin es x z X ->
  green n beta egs ispin es y X [OpCdg; OpC] = cxdiv (lehmann n s x y beta egs F z) (rcx (Zsum n beta egs F)).
Proof. intros Hz HX. unfold green. cbn [map]. rewrite !(part_sum _ x y z X Hz HX), Zof_Zsum, <- parts_add. cbn [csuml fold_right]. f_equal. ring. Qed.
End Family.
