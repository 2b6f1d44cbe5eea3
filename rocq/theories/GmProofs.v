(** The matrix of Green's functions is the Lehmann matrix of the chosen spin. *)
From Coq Require Import Reals List Arith NArith ZArith Bool Lia Lra Psatz Ring Permutation.
From Verif Require Import Base RBase RLin CBase OperatorsSpec FockSpec SectorModel LocalModel MatvecModel EspaceModel ProjModel ProjSpec ProjProofs ProjFinalProofs
  CfModel GfModel GfSpec GfProofs GfSumProofs GfMoreProofs GmModel GmSpec GmFockProofs.
Import ListNotations.
Local Open Scope R_scope.

Definition proj_of (s : nat) : gm_project := match s with O => project_exact_up RRing | _ => project_exact_dw RRing end.
Definition sg_of (s q : nat) : R := match s with O => @z2k RRing (parity_sign q) | _ => 1 end.
Lemma sg_sq s q : sg_of s q * sg_of s q = 1.
Proof. destruct s; [apply sgn_sq|apply Rmult_1_l]. Qed.

Lemma proj_amp n s p q p' q' op x (I J : sct RRing) : (s <= 1)%nat -> shifted op s p q p' q' -> is_sector RRing n p q I -> is_sector RRing n p' q' J -> (x < n)%nat ->
  exists v, proj_of s x n op I J = Ok v /\ forall j i, (j < nvals J)%nat -> (i < nvals I)%nat ->
    nth i (nth j v []) 0 = sg_of s q * bracket RRing n (lad op (x + s * n)) J I (vec RRing J j) (vec RRing I i).
Proof.
  intros Hs Hsh HI HJ Hx. destruct s as [|[|]]; [| |lia]; cbn [shifted proj_of sg_of] in *.
  - destruct Hsh as [Hn ->]. destruct (project_exact_up_spec RRing n p p' q x op I J HI HJ Hn Hx) as (v & E & _ & _ & H). exists v. split; [exact E|].
    intros j i Hj Hi. rewrite Nat.mul_0_l, Nat.add_0_r. exact (H j i Hj Hi).
  - destruct Hsh as [-> Hn]. destruct (project_exact_dw_spec RRing n p q q' x op I J HI HJ Hn Hx) as (v & E & _ & _ & H). exists v. split; [exact E|].
    intros j i Hj Hi. rewrite Nat.mul_1_l, Rmult_1_l. exact (H j i Hj Hi).
Qed.

(** Closed form of the lists of one sector. *)
Definition pair_w (n s x y : nat) (beta egs : R) (I J : sct RRing) (j i : nat) : R :=
  add_amp n s x J I j i * add_amp n s y J I j i * (weight beta egs (energy J j) + weight beta egs (energy I i)).
Definition wlist (n s x y : nat) (beta egs : R) (I J : sct RRing) : list R :=
  flat_map (fun j => map (pair_w n s x y beta egs I J j) (seq 0 (nvals I))) (seq 0 (nvals J)).
Definition llist (I J : sct RRing) : list R :=
  flat_map (fun j => map (fun i => energy J j - energy I i) (seq 0 (nvals I))) (seq 0 (nvals J)).

Lemma flat_map_ext_in {A B} (f g : A -> list B) l : (forall a, In a l -> f a = g a) -> flat_map f l = flat_map g l.
Proof. induction l as [|a l IH]; intros H; cbn [flat_map]; auto. rewrite (H a (or_introl eq_refl)), IH; auto. intros; apply H; now right. Qed.
Lemma llist_eq egs I J : gm_lambdas egs I J = llist I J.
Proof. unfold gm_lambdas, llist. apply flat_map_ext_in. intros j _. apply map_ext. intros i. unfold energy. ring. Qed.

Lemma combine_maps {A B C} (g : A -> B) (h : A -> C) l : List.combine (map g l) (map h l) = map (fun a => (g a, h a)) l.
Proof. induction l; simpl; congruence. Qed.
Lemma combine_lists {A B C D} (g : A -> B -> C) (h : A -> B -> D) li lj :
  List.combine (flat_map (fun j => map (g j) li) lj) (flat_map (fun j => map (h j) li) lj) = flat_map (fun j => map (fun i => (g j i, h j i)) li) lj.
Proof.
  induction lj as [|j lj IH]; cbn [flat_map]; auto.
  assert (E : forall (x1 x2 : list C) (y1 y2 : list D), length x1 = length y1 -> List.combine (x1 ++ x2) (y1 ++ y2) = List.combine x1 y1 ++ List.combine x2 y2).
  { induction x1; intros x2 [|y y1] y2 L; simpl in *; try lia; auto. f_equal. apply IHx1. lia. }
  rewrite E by (now rewrite !map_length). rewrite IH, combine_maps. reflexivity.
Qed.
Lemma lists_length n s x y beta egs I J : length (wlist n s x y beta egs I J) = length (llist I J).
Proof.
  unfold wlist, llist. induction (seq 0 (nvals J)) as [|j l IH]; cbn [flat_map]; auto. rewrite !app_length, !map_length. congruence.
Qed.
Lemma lists_sum (K : CRing) (f : R -> R -> K) n s x y beta egs I J :
  bsum (fun p => f (fst p) (snd p)) (List.combine (wlist n s x y beta egs I J) (llist I J)) =
  nsum (nvals J) (fun j => nsum (nvals I) (fun i => f (pair_w n s x y beta egs I J j i) (energy J j - energy I i))).
Proof.
  unfold wlist, llist. rewrite combine_lists, bsum_flat_map. unfold nsum. apply bsum_ext. intros j _. now rewrite bsum_map.
Qed.

Lemma sites_in n a b : In (a, b) (sites n) <-> (a < n)%nat /\ (b < n)%nat.
Proof. unfold sites. rewrite in_prod_iff, !in_seq. split; lia. Qed.
Lemma prod_nodup (l m : list nat) : NoDup l -> NoDup m -> NoDup (list_prod l m).
Proof.
  intros H Hm0. induction H as [|a l Ha Hl IH]; cbn [list_prod]; [constructor|].
  assert (G : forall m', NoDup m' -> NoDup (map (fun y : nat => (a, y)) m' ++ list_prod l m)).
  { induction 1 as [|b m' Hb Hm IH']; cbn [map app]; auto. constructor; auto. rewrite in_app_iff, in_map_iff, in_prod_iff.
    intros [(c & E & I)|[I _]]; [|contradiction]. injection E as ->. contradiction. }
  now apply G.
Qed.
Lemma sites_nodup n : NoDup (sites n).
Proof. apply prod_nodup; apply seq_NoDup. Qed.

Section Build.
Variables (n : nat) (es : espace RRing) (F : family) (beta egs : R) (s : nat).
Hypothesis HF : lists_family n es F. Hypothesis Hs : (s <= 1)%nat.

(** Electron numbers of the chosen spin and of the other. *)
Definition mine (p q : nat) : nat := match s with O => p | _ => q end.
Definition up1 (p q : nat) : sct RRing := match s with O => F (S p) q | _ => F p (S q) end.

Lemma inner_fold p q sites0 (acc : gm_acc) : (p <= n)%nat -> (q <= n)%nat -> (mine p q < n)%nat -> NoDup sites0 -> (forall a b, In (a, b) sites0 -> (a < n)%nat /\ (b < n)%nat) ->
  exists acc', foldM (fun acc pp => let '(p1, p2) := pp in
            do b1 <- proj_of s p1 n OpC (up1 p q) (F p q);
            do b2 <- proj_of s p2 n OpCdg (F p q) (up1 p q);
            Ok (gm_extend acc p1 p2 (gm_weights beta egs (F p q) (up1 p q) b1 b2) (gm_lambdas egs (F p q) (up1 p q)))) sites0 acc = Ok acc' /\
  forall a b, acc' a b = if existsb (fun t => (a =? fst t) && (b =? snd t))%nat sites0
      then (fst (acc a b) ++ wlist n s a b beta egs (F p q) (up1 p q), snd (acc a b) ++ llist (F p q) (up1 p q)) else acc a b.
Proof.
  intros Hp Hq Hm ND HB. pose proof HF as (_ & _ & HS). revert acc. induction sites0 as [|[x y] l IH]; intros acc.
  - exists acc. split; [reflexivity|]. intros. reflexivity.
  - inversion ND as [|? ? Hni ND']; subst. destruct (HB x y (or_introl eq_refl)) as [Hx Hy].
    assert (SH : exists p' q', shifted OpCdg s p q p' q' /\ up1 p q = F p' q' /\ (p' <= n)%nat /\ (q' <= n)%nat /\ shifted OpC s p' q' p q /\ sg_of s q' = sg_of s q).
    { unfold mine in Hm. unfold up1. clear - Hs Hm Hp Hq. destruct s as [|[|]]; [exists (S p), q|exists p, (S q)|lia]; (split; [split; reflexivity|]); (split; [reflexivity|]); (split; [lia|]); (split; [lia|]); split; try split; reflexivity. }
    destruct SH as (p' & q' & SH & EU & Hp' & Hq' & SH' & ES).
    cbn [foldM]. rewrite EU.
    destruct (proj_amp n s p' q' p q OpC x (F p' q') (F p q) Hs SH' (HS _ _ Hp' Hq') (HS _ _ Hp Hq) Hx) as (b1 & E1 & V1).
    destruct (proj_amp n s p q p' q' OpCdg y (F p q) (F p' q') Hs SH (HS _ _ Hp Hq) (HS _ _ Hp' Hq') Hy) as (b2 & E2 & V2).
    rewrite E1, E2. cbn [bind]. rewrite <- EU.
    assert (W : gm_weights beta egs (F p q) (up1 p q) b1 b2 = wlist n s x y beta egs (F p q) (up1 p q)).
    { rewrite EU. unfold gm_weights, wlist. apply flat_map_ext_in. intros j Hj. apply map_ext_in. intros i Hi. apply in_seq in Hj. apply in_seq in Hi.
      rewrite (V1 i j), (V2 j i) by tauto. unfold pair_w, add_amp, boltz, weight, energy. rewrite ES.
      rewrite (bracket_adj RRing n OpC (x + s * n) (F p' q') (F p q)). cbn [opp_op lad].
      transitivity ((sg_of s q * sg_of s q) * (bracket RRing n (Cr (x + s * n)) (F p' q') (F p q) (vec RRing (F p' q') j) (vec RRing (F p q) i) *
        bracket RRing n (Cr (y + s * n)) (F p' q') (F p q) (vec RRing (F p' q') j) (vec RRing (F p q) i)) *
        (exp (- beta * (nth j (s_vals RRing (F p' q')) 0 - egs)) + exp (- beta * (nth i (s_vals RRing (F p q)) 0 - egs)))); [|rewrite sg_sq]; ring. }
    rewrite W, llist_eq.
    destruct (IH ND' ltac:(intros; apply HB; now right) (gm_extend acc x y (wlist n s x y beta egs (F p q) (up1 p q)) (llist (F p q) (up1 p q)))) as (acc' & E & H).
    exists acc'. split; [rewrite llist_eq in E; exact E|]. intros a b. rewrite H. cbn [existsb fst snd]. unfold gm_extend.
    destruct (Nat.eqb_spec a x) as [->|NA]; cbn [andb orb]; [|reflexivity]. destruct (Nat.eqb_spec b y) as [->|NB]; cbn [andb orb]; [|reflexivity].
    destruct (existsb _ l) eqn:X; [|reflexivity]. exfalso. apply Hni. apply existsb_exists in X. destruct X as ([c d] & I & Q).
    cbn [fst snd] in Q. apply andb_prop in Q. destruct Q as [Q1 Q2]. apply Nat.eqb_eq in Q1, Q2. now subst.
Qed.

Definition gkey (K : CRing) (f : R -> R -> K) (x y : nat) (key : qnums) : K :=
  match key with
  | [p; q] => if (mine p q <? n)%nat then nsum (nvals (up1 p q)) (fun j => nsum (nvals (F p q)) (fun i =>
      f (pair_w n s x y beta egs (F p q) (up1 p q) j i) (energy (up1 p q) j - energy (F p q) i))) else c0 K
  | _ => c0 K
  end.

Lemma outer_fold ents (acc : gm_acc) : (forall e, In e ents -> In e es) -> (forall a b, length (fst (acc a b)) = length (snd (acc a b))) ->
  exists acc', foldM (gm_step (proj_of s) n es beta egs (Z.of_nat s)) ents acc = Ok acc' /\
  (forall a b, length (fst (acc' a b)) = length (snd (acc' a b))) /\
  forall (K : CRing) (f : R -> R -> K) x y, (x < n)%nat -> (y < n)%nat ->
    bsum (fun p => f (fst p) (snd p)) (List.combine (fst (acc' x y)) (snd (acc' x y))) =
    cadd K (bsum (fun p => f (fst p) (snd p)) (List.combine (fst (acc x y)) (snd (acc x y)))) (bsum (gkey K f x y) (map fst ents)).
Proof.
  revert acc. induction ents as [|[key sI] l IH]; intros acc HI L.
  - exists acc. split; [reflexivity|]. split; [exact L|]. intros K f x y _ _. cbn [map bsum]. pose proof (cth K) as T. symmetry. rewrite (Radd_comm T). apply (Radd_0_l T).
  - pose proof (HI _ (or_introl eq_refl)) as I. apply (proj1 (proj2 HF)) in I. destruct I as (p & q & Hp & Hq & -> & ->).
    cbn [foldM]. unfold gm_step at 1. cbn [fst snd].
    assert (C : get_cdg_sector (Z.of_nat n) (Z.of_nat p) (Z.of_nat q) (Z.of_nat s) =
      if (mine p q <? n)%nat then Ok (match s with O => (Z.of_nat p + 1, Z.of_nat q)%Z | _ => (Z.of_nat p, Z.of_nat q + 1)%Z end) else Err OutOfHilbertError).
    { unfold mine, get_cdg_sector. clear - Hs. destruct s as [|[|]]; [| |lia]; cbn [Z.of_nat Z.eqb Pos.of_succ_nat Pos.eqb].
      - destruct (Z.ltb_spec (Z.of_nat n) (Z.of_nat p + 1)), (Nat.ltb_spec p n); auto; lia.
      - destruct (Z.ltb_spec (Z.of_nat n) (Z.of_nat q + 1)), (Nat.ltb_spec q n); auto; lia. }
    rewrite C. destruct (mine p q <? n)%nat eqn:M.
    + assert (E : forall (k : sct RRing -> res gm_acc), (match (match s with O => (Z.of_nat p + 1, Z.of_nat q)%Z | _ => (Z.of_nat p, Z.of_nat q + 1)%Z end) with
          (nupJ, ndwJ) => do sJ <- es_get es [Z.to_nat nupJ; Z.to_nat ndwJ]; k sJ end) = k (up1 p q)).
      { intros k. apply Nat.ltb_lt in M. unfold mine, up1 in *. destruct s as [|[|]]; [| |lia].
        - replace (Z.to_nat (Z.of_nat p + 1)) with (S p) by lia. rewrite Nat2Z.id, (es_get_family n es F (S p) q HF) by lia. reflexivity.
        - replace (Z.to_nat (Z.of_nat q + 1)) with (S q) by lia. rewrite Nat2Z.id, (es_get_family n es F p (S q) HF) by lia. reflexivity. }
      rewrite E. destruct (inner_fold p q (sites n) acc Hp Hq ltac:(now apply Nat.ltb_lt) (sites_nodup n) ltac:(intros; now apply sites_in)) as (acc1 & E1 & H1).
      rewrite E1. cbn [bind].
      assert (L1 : forall a b, length (fst (acc1 a b)) = length (snd (acc1 a b))).
      { intros a b. rewrite H1. destruct (existsb _ _); cbn [fst snd]; auto. rewrite !app_length, lists_length. now rewrite L. }
      destruct (IH acc1 ltac:(intros; apply HI; now right) L1) as (acc' & E' & L' & H'). exists acc'. split; [exact E'|]. split; [exact L'|].
      intros K f x y Hx Hy. rewrite H' by auto. cbn [map fst bsum]. rewrite H1.
      replace (existsb _ (sites n)) with true.
      2: { symmetry. apply existsb_exists. exists (x, y). split; [now apply sites_in|]. cbn [fst snd]. now rewrite !Nat.eqb_refl. }
      cbn [fst snd]. rewrite combine_app_eq by auto. rewrite bsum_app, lists_sum. cbn [gkey]. rewrite M. pose proof (cth K) as T. symmetry. apply (Radd_assoc T).
    + destruct (IH acc ltac:(intros; apply HI; now right) L) as (acc' & E' & L' & H'). exists acc'. split; [exact E'|]. split; [exact L'|].
      intros K f x y Hx Hy. rewrite H' by auto. cbn [map fst bsum gkey]. rewrite M. pose proof (cth K) as T. f_equal. symmetry. apply (Radd_0_l T).
Qed.

Lemma gm_entries : exists g, build_gf2_exact n es beta egs (Z.of_nat s) = Ok g /\ gm_shape g = n /\
  (forall x y, length (gf_q (gm_gf g x y)) = length (gf_l (gm_gf g x y)) /\ gf_Z (gm_gf g x y) = Zsum n beta egs F) /\
  forall (K : CRing) (f : R -> R -> K) x y, (x < n)%nat -> (y < n)%nat ->
    nsum (length (gf_l (gm_gf g x y))) (fun i => f (nth i (gf_q (gm_gf g x y)) 0) (nth i (gf_l (gm_gf g x y)) 0)) =
    nsum n (fun m => nsum (S n) (fun o => nsum (nvals (of_spin F s (S m) o)) (fun j => nsum (nvals (of_spin F s m o)) (fun i =>
      f (pair_w n s x y beta egs (of_spin F s m o) (of_spin F s (S m) o) j i) (energy (of_spin F s (S m) o) j - energy (of_spin F s m o) i))))).
Proof.
  assert (P : pick (Z.of_nat s) (project_exact_up RRing) (project_exact_dw RRing) = Ok (proj_of s)) by (clear - Hs; destruct s as [|[|]]; [| |lia]; reflexivity).
  unfold build_gf2_exact. rewrite P. cbn [bind].
  destruct (outer_fold es (fun _ _ => ([], [])) ltac:(auto) ltac:(auto)) as (acc & E & L & H). rewrite E. cbn [bind].
  eexists. split; [reflexivity|]. split; [reflexivity|]. cbn [gm_gf gf_q gf_l gf_Z]. split.
  - intros x y. split; [apply L|]. now apply partition_Zsum.
  - intros K f x y Hx Hy. rewrite <- (bsum_combine K f) by auto. rewrite H by auto. cbn [fst snd List.combine bsum].
    pose proof (cth K) as T. rewrite (Radd_0_l T). rewrite (bsum_perm K _ _ _ (keys_perm n es F HF)), grid_sum. clear - Hs T.
    unfold gkey, mine, up1, of_spin. destruct s as [|[|]]; [| |lia].
    + rewrite nsum_S. rewrite (nsum_0 K (S n)).
      * rewrite (Radd_comm T), (Radd_0_l T). apply nsum_ext. intros p Hp. apply nsum_ext. intros q Hq. destruct (Nat.ltb_spec p n); [reflexivity|lia].
      * intros q _. destruct (Nat.ltb_spec n n); [lia|reflexivity].
    + rewrite nsum_swap, nsum_S. rewrite (nsum_0 K (S n)).
      * rewrite (Radd_comm T), (Radd_0_l T). apply nsum_ext. intros p Hp. apply nsum_ext. intros q Hq. destruct (Nat.ltb_spec p n); [reflexivity|lia].
      * intros q _. destruct (Nat.ltb_spec n n); [lia|reflexivity].
Qed.

Theorem gm_lehmann : exists g, build_gf2_exact n es beta egs (Z.of_nat s) = Ok g /\ gm_shape g = n /\
  forall e eta, gm_call g e eta = Ok (map (fun x => map (fun y => cxdiv (lehmann n s x y beta egs F (zpoint e eta)) (rcx (Zsum n beta egs F))) (seq 0 n)) (seq 0 n)).
Proof.
  destruct gm_entries as (g & E & SH & L & H). exists g. split; [exact E|]. split; [exact SH|]. intros e eta. unfold gm_call. rewrite SH.
  assert (M : forall {A B} (f : A -> res B) (h : A -> B) l, (forall a, In a l -> f a = Ok (h a)) -> mapM f l = Ok (map h l)).
  { induction l as [|a l IHl]; intros Q; cbn [mapM map]; auto. rewrite (Q a (or_introl eq_refl)), IHl; auto. intros; apply Q; now right. }
  apply M. intros x Hx. apply M. intros y Hy. apply in_seq in Hx. apply in_seq in Hy.
  destruct (L x y) as [L1 L2]. unfold gf_call, k_sp. rewrite L1, Nat.eqb_refl. cbn [bind]. rewrite L2. do 2 f_equal.
  etransitivity; [exact (H CxRing (fun q l => cxmul (cxinv (cxsub (zpoint e eta) (rcx l))) (rcx q)) x y ltac:(lia) ltac:(lia))|].
  unfold lehmann, csum. apply (nsum_ext CxRing). intros m _. apply (nsum_ext CxRing). intros o _. cbv zeta.
  apply (nsum_ext CxRing). intros j _. apply (nsum_ext CxRing). intros i _. unfold cxdiv, pair_w. apply (Rmul_comm cx_ring).
Qed.
End Build.

Lemma lehmann_sym n s x y beta egs F z : lehmann n s x y beta egs F z = lehmann n s y x beta egs F z.
Proof.
  unfold lehmann. apply csum_ext. intros m _. apply csum_ext. intros o _. cbv zeta. apply csum_ext. intros j _. apply csum_ext. intros i _.
  f_equal. f_equal. ring.
Qed.
Lemma lehmann_diag n x beta egs F z : lehmann n 0 x x beta egs F z = lehmann_up n x beta egs F z.
Proof.
  unfold lehmann, lehmann_up. apply csum_ext. intros m _. apply csum_ext. intros o _. cbv zeta. cbn [of_spin]. apply csum_ext. intros j _. apply csum_ext. intros i _.
  unfold add_amp, bra2. rewrite Nat.mul_0_l, Nat.add_0_r. f_equal. f_equal. ring.
Qed.
