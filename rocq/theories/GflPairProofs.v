(** The matrix-valued Green's function of gf2_lanczos.py. *)
From Coq Require Import Reals String List Arith NArith ZArith Bool Lia Lra Psatz Ring Field.
From Verif Require Import Base RBase RLin CBase OperatorsModel OperatorsSpec OperatorsProofs LookupModel SectorModel SectorSpec SectorProofs FockSpec LocalModel MatvecModel EspaceModel
  ProjModel ProjSpec ProjProofs ProjMoreProofs ProjFinalProofs LanczosSpec CfModel CfSpec CfProofs CfMoreProofs GfModel GfSpec GfProofs GfMoreProofs GflModel GflSpec DmftProofs GflProofs GflLoopProofs GflMainProofs.
Import ListNotations.
Local Open Scope R_scope.

(** ** Loops and tables *)
Lemma foldM_seq_inv {A} (f : A -> nat -> res A) (P : nat -> A -> Prop) m : forall s a, P s a ->
  (forall k a, (s <= k < s + m)%nat -> P k a -> exists a', f a k = Ok a' /\ P (S k) a') -> exists a', foldM f (seq s m) a = Ok a' /\ P (s + m)%nat a'.
Proof.
  induction m as [|m IH]; intros s a H0 HS; cbn [seq foldM].
  - exists a. rewrite Nat.add_0_r. auto.
  - destruct (HS s a ltac:(lia) H0) as (a' & E & H1). rewrite E. cbn [bind].
    destruct (IH (S s) a' H1) as (a'' & E2 & H2); [intros; apply HS; auto; lia|]. exists a''. split; [exact E2|].
    now replace (s + S m)%nat with (S s + m)%nat by lia.
Qed.

Definition square {A} (m : nat) (t : list (list A)) : Prop := length t = m /\ forall i, (i < m)%nat -> length (nth i t []) = m.
Lemma square_set2 {A} m (t : list (list A)) i j x : square m t -> (i < m)%nat -> square m (set2 t i j x).
Proof.
  intros [L H] Hi. split; unfold set2; [now rewrite upd_tot_length|]. intros k Hk. rewrite nth_upd_tot by lia.
  destruct (Nat.eqb_spec i k) as [->|]; [rewrite upd_tot_length|]; now apply H.
Qed.
Lemma nth_set2 {A} m (t : list (list A)) i j x d k l : square m t -> (i < m)%nat -> (j < m)%nat ->
  nth l (nth k (set2 t i j x) []) d = if ((i =? k) && (j =? l))%nat then x else nth l (nth k t []) d.
Proof.
  intros [L H] Hi Hj. unfold set2. rewrite nth_upd_tot by lia. destruct (Nat.eqb_spec i k) as [->|N]; cbn [andb]; [|reflexivity].
  rewrite nth_upd_tot by (rewrite H; auto). reflexivity.
Qed.

Lemma csuml_ext {A} (f g : A -> cx) l : (forall x, In x l -> f x = g x) -> csuml (map f l) = csuml (map g l).
Proof. intros H. f_equal. now apply map_ext_in. Qed.
Lemma csuml_scal {A} c (f : A -> cx) l : csuml (map (fun x => c *c f x) l) = c *c csuml (map f l).
Proof. induction l as [|a l IH]; cbn [map csuml fold_right]; [ring|]. fold (csuml (map (fun x => c *c f x) l)) (csuml (map f l)). rewrite IH. ring. Qed.

Lemma vsum_row u v i : (i < length u)%nat -> length u = length v ->
  nth i (vsum u v) [] = map (fun q : R * R => fst q + snd q) (List.combine (nth i u []) (nth i v [])).
Proof.
  unfold vsum. revert v i. induction u as [|x u IH]; intros [|y v] i; cbn [length]; intros Hi L; try lia.
  destruct i; [reflexivity|]. cbn [List.combine map nth]. apply IH; lia.
Qed.
Lemma nth_addrow (x y : list R) a : length x = length y -> nth a (map (fun q : R * R => fst q + snd q) (List.combine x y)) 0 = nth a x 0 + nth a y 0.
Proof.
  revert y a. induction x as [|u x IH]; intros [|v y] a; cbn [length]; intros L; try lia.
  - destruct a; simpl; ring.
  - destruct a; [reflexivity|]. cbn [List.combine map nth]. apply IH. lia.
Qed.

Section Pair.
Variable solve : states_t -> res (list R * list (list R)).
Variable mvop : states_t -> res (list R -> res (list R)).
Variable tridiag : (list R -> res (list R)) -> list R -> res (list R * list R).
Variable eigh : list R -> list R -> res (list R * list (list R)).
Variable n : nat.
Variable M : nat -> nat -> nat -> nat -> R.
Variable es : espace RRing.
Variables (beta egs : R) (ispin : Z) (k : kern).
Hypothesis Hn : (n <= 32)%nat.
Hypothesis HES : sectors n es.
Hypothesis Hop : operators n mvop M.
Hypothesis Hsp : (ispin = 0 \/ ispin = 1)%Z.
Hypothesis HK : k = KSp -> eigh_sound eigh.

(** Value for the sum of the operators on two sites. *)
Definition paired (ipos jpos : nat) (Xi Xj : fop -> qnums -> nat -> nat -> cx) (op : fop) (e : qnums * sct RRing) : cx :=
  contribution n beta egs ispin ipos Xi op e +c contribution n beta egs ispin jpos Xj op e +c rcx 2 *c contribution n beta egs ispin jpos Xi op e.

Section Off.
Variables ipos jpos : nat.
Hypothesis Hi : (ipos < n)%nat. Hypothesis Hj : (jpos < n)%nat.
Let fp := pair_excited n ispin ipos jpos.
Hypothesis HKr : krylov n mvop tridiag ispin es fp 0.
Hypothesis HNz : never_zero n ispin es fp.

Lemma off_side_ok op p q sI : In ([p; q], sI) es ->
  exists fs, off_side mvop tridiag eigh n k op ipos jpos ispin es p q sI (exponents beta egs sI) = Ok fs /\
  forall e eta Xi Xj, im (zpoint e eta) <> 0 -> resolved n M ispin es ipos (zpoint e eta) Xi -> resolved n M ispin es jpos (zpoint e eta) Xj ->
    denotes fs e eta (paired ipos jpos Xi Xj op ([p; q], sI)).
Proof.
  intros I. destruct (proj2 HES _ _ I) as (p0 & q0 & EK & HI). injection EK as <- <-. pose proof HI as (Hp & Hq & _).
  unfold off_side. rewrite (target_moved n Hn op p q ispin Hsp). cbn [bind].
  destruct (moved n op ispin p q) as [[p' q']|] eqn:HM.
  2:{ exists []. split; [reflexivity|]. intros. unfold paired, contribution. cbn [fst]. rewrite HM.
      match goal with |- denotes _ _ _ ?v => replace v with (rcx 0) by ring end. apply denotes_nil. }
  destruct (moved_spec n Hn op p q ispin p' q' Hp Hq HM) as (Hp' & Hq' & _).
  destruct (arrive_ok n Hn es HES p' q' Hp' Hq') as (sJ & EA & EJ). rewrite EA. cbn [bind].
  destruct (project_ok n Hn op ispin p q p' q' sI sJ Hsp HI HM EJ) as (pr & sg & EP & Hsg & HP). rewrite EP. cbn [bind].
  destruct (HP ipos Hi) as (vi & EVi & LVi & HVi). destruct (HP jpos Hj) as (vj & EVj & LVj & HVj). rewrite EVi. cbn [bind]. rewrite EVj. cbn [bind].
  destruct (Hop p' q' Hp' Hq') as (HS & mv & Emv & Hmv).
  assert (ROW : forall i, (i < nvals sI)%nat -> length (nth i (vsum vi vj) []) = dimn n p' q' /\
    forall a, (a < dimn n p' q')%nat -> nth a (nth i (vsum vi vj) []) 0 = sg * fp op p' q' sI i a).
  { intros i Hi'. destruct (HVi i Hi') as [L1 V1]. destruct (HVj i Hi') as [L2 V2]. 
    assert (L1' : @length R (nth i vi []) = dimn n p' q') by exact L1. assert (L2' : @length R (nth i vj []) = dimn n p' q') by exact L2.
    assert (L3 : @length (list R) vi = nvals sI) by exact LVi. assert (L4 : @length (list R) vj = nvals sI) by exact LVj.
    rewrite vsum_row by lia. split.
    - rewrite map_length, combine_length. etransitivity; [apply (f_equal2 Nat.min); [exact L1|exact L2]|apply Nat.min_id].
    - intros a Ha. rewrite nth_addrow by exact (eq_trans L1 (eq_sym L2)). etransitivity; [apply (f_equal2 Rplus); [exact (V1 a Ha)|exact (V2 a Ha)]|]. unfold fp, pair_excited. ring. }
  assert (ST : forall i, (i < nvals sI)%nat -> started n ispin es fp p' q' (nth i (vsum vi vj) [])).
  { intros i Hi'. exists op, p, q, sI, i, sg. repeat split; auto; apply ROW; auto. }
  destruct (lanczos_side_ok mvop tridiag eigh false k op (vsum vi vj) sI (exponents beta egs sI) sJ (dimn n p' q') (M p' q') mv (fun i a => fp op p' q' sI i a) HK HS) as (fs & EF & HF).
  - now rewrite EJ.
  - exact Hmv.
  - intros i Hi'. exists sg. split; [exact Hsg|]. apply ROW. exact Hi'.
  - intros i Hi'. pose proof (HKr p' q' _ mv (Nat.le_0_l _) (ST i Hi') Emv) as HE. split; [exact HE|].
    intros _ Er. rewrite Er in HE. destruct HE as [_ H0]. destruct (HNz p' q' _ (ST i Hi')) as (a & Ha & Hne). apply Hne. now apply H0.
  - rewrite EF. exists fs. split; [reflexivity|]. intros e eta Xi Xj Hz HXi HXj.
    set (z := zpoint e eta) in *.
    pose (XS := fun i a => Xi op [p; q] i a +c Xj op [p; q] i a).
    pose proof (HF e eta XS Hz) as HD. fold z in HD.
    replace (paired ipos jpos Xi Xj op ([p; q], sI)) with
      (csum (nvals sI) (fun i => rcx (nth i (exponents beta egs sI) 0) *c csum (dimn n p' q') (fun a => rcx (fp op p' q' sI i a) *c XS i a))).
    + apply HD. intros i Hi'. apply (solves_ext _ _ _ _ (fun a => rcx (exc n op ispin ipos p' q' sI i a) +c rcx (exc n op ispin jpos p' q' sI i a))).
      * intros a _. now rewrite <- rcx_add.
      * apply solves_add; [apply (HXi op p q sI i p' q')|apply (HXj op p q sI i p' q')]; auto.
    + unfold paired, contribution. cbn [fst snd]. rewrite HM. rewrite <- csum_scal_l, <- !csum_add. apply csum_ext. intros i Hi'.
      rewrite (exponents_nth beta egs) by exact Hi'. unfold XS, fp, pair_excited.
      pose proof (polarisation (dimn n p' q') (shifted (side op) (energy sI i) (M p' q')) z (Xi op [p; q] i) (Xj op [p; q] i) _ _ (fun a => Xi op [p; q] i a +c Xj op [p; q] i a)
        (shifted_symmetric _ _ _ _ HS) Hz (HXi op p q sI i p' q' I Hi' HM) (HXj op p q sI i p' q' I Hi' HM)
        (solves_add _ _ _ _ _ _ _ (HXi op p q sI i p' q' I Hi' HM) (HXj op p q sI i p' q' I Hi' HM))) as PO. cbn beta in PO.
      rewrite (csum_ext _ (fun a => rcx (_ + _) *c _) (fun a => (rcx (exc n op ispin ipos p' q' sI i a) +c rcx (exc n op ispin jpos p' q' sI i a)) *c (Xi op [p; q] i a +c Xj op [p; q] i a))).
      2:{ intros a _. now rewrite rcx_add. }
      match type of PO with (?S -c ?A -c ?B = ?C) => replace S with ((S -c A -c B) +c A +c B) by ring; rewrite PO end. ring.
Qed.

Lemma off_loop separate l fe fh : (forall x, In x l -> In x es) ->
  exists ge gh, foldM (off_step mvop tridiag eigh n k beta egs ipos jpos ispin separate es) (map fst l) (fe, fh) = Ok (fe ++ ge, fh ++ gh) /\
  forall e eta Xi Xj, im (zpoint e eta) <> 0 -> resolved n M ispin es ipos (zpoint e eta) Xi -> resolved n M ispin es jpos (zpoint e eta) Xj ->
    denotes ge e eta (csuml (map (fun op => csuml (map (paired ipos jpos Xi Xj op) l)) (ops_e separate))) /\
    (separate = true -> denotes gh e eta (csuml (map (fun op => csuml (map (paired ipos jpos Xi Xj op) l)) (ops_h separate)))).
Proof.
  revert fe fh. induction l as [|[key sI] l IH]; intros fe fh Hl.
  - exists [], []. cbn [map foldM]. rewrite !app_nil_r. split; [reflexivity|]. intros. split; intros; destruct separate; try discriminate;
      exists []; (split; [reflexivity|]); cbn [ops_e ops_h map csuml fold_right]; ring.
  - assert (I : In (key, sI) es) by (apply Hl; now left). destruct (proj2 HES _ _ I) as (p & q & -> & HI).
    destruct (off_side_ok OpCdg p q sI I) as (f1 & E1 & H1). destruct (off_side_ok OpC p q sI I) as (f2 & E2 & H2).
    cbn [map foldM fst]. unfold off_step at 1. unfold es_get. rewrite (es_find_in n es HES _ _ I). cbn [bind]. rewrite E1. cbn [bind]. rewrite E2. cbn [bind].
    destruct separate.
    + destruct (IH (fe ++ f1) (fh ++ f2)) as (ge & gh & E & H); [intros; apply Hl; now right|]. cbn [bind]. rewrite E. exists (f1 ++ ge), (f2 ++ gh).
      rewrite !app_assoc. split; [reflexivity|]. intros e eta Xi Xj Hz HXi HXj. destruct (H e eta Xi Xj Hz HXi HXj) as [A B]. specialize (B eq_refl). cbn [ops_e ops_h map csuml fold_right] in *.
      fold (csuml (map (paired ipos jpos Xi Xj OpCdg) l)) (csuml (map (paired ipos jpos Xi Xj OpC) l)) in *.
      split; [|intros _]; (match goal with |- denotes _ _ _ ?v => match v with (?a +c ?b) +c ?c => replace v with (a +c (b +c c)) by ring end end);
        apply denotes_app; auto.
    + destruct (IH (fe ++ f1 ++ f2) fh) as (ge & gh & E & H); [intros; apply Hl; now right|]. cbn [bind]. rewrite E. exists (f1 ++ f2 ++ ge), gh.
      rewrite !app_assoc. split; [reflexivity|]. intros e eta Xi Xj Hz HXi HXj. destruct (H e eta Xi Xj Hz HXi HXj) as [A _]. cbn [ops_e ops_h map csuml fold_right] in *.
      fold (csuml (map (paired ipos jpos Xi Xj OpCdg) l)) (csuml (map (paired ipos jpos Xi Xj OpC) l)) in *.
      split; [|discriminate].
      match goal with |- denotes _ _ _ ((?a +c ?b) +c ((?c +c ?d) +c ?z)) => replace ((a +c b) +c ((c +c d) +c z)) with ((a +c c) +c (b +c (d +c z))) by ring end.
      apply denotes_app; auto. apply denotes_app; auto.
Qed.

Definition pair_green (Xi Xj : fop -> qnums -> nat -> nat -> cx) (ops : list fop) : cx :=
  green n beta egs ispin es ipos Xi ops +c green n beta egs ispin es jpos Xj ops +c rcx 2 *c green n beta egs ispin es jpos Xi ops.
Lemma paired_sum Xi Xj ops : csuml (map (fun op => csuml (map (paired ipos jpos Xi Xj op) es)) ops) /c rcx (Zof beta egs es) = pair_green Xi Xj ops.
Proof.
  unfold pair_green, green, cxdiv.
  rewrite (csuml_ext _ (fun op => csuml (map (contribution n beta egs ispin ipos Xi op) es) +c csuml (map (contribution n beta egs ispin jpos Xj op) es) +c rcx 2 *c csuml (map (contribution n beta egs ispin jpos Xi op) es))).
  - rewrite !csuml_add, csuml_scal. ring.
  - intros op _. unfold paired. rewrite !csuml_add, csuml_scal. reflexivity.
Qed.
Lemma build_gf_offdiag_k repr separate : repr_of repr = Ok k -> exists ge gh, build_gf_offdiag mvop tridiag eigh n es beta ipos jpos ispin egs repr separate = Ok (ge, gh) /\
  forall e eta Xi Xj, im (zpoint e eta) <> 0 -> resolved n M ispin es ipos (zpoint e eta) Xi -> resolved n M ispin es jpos (zpoint e eta) Xj ->
    gl_call ge e eta = Ok (pair_green Xi Xj (ops_e separate)) /\ gl_call gh e eta = Ok (pair_green Xi Xj (ops_h separate)).
Proof.
  intros ER. unfold build_gf_offdiag. rewrite ER. cbn [bind]. assert (EP : pick ispin tt tt = Ok tt) by (destruct Hsp as [-> | ->]; reflexivity). rewrite EP. cbn [bind].
  destruct (off_loop separate es [] [] (fun x H => H)) as (ge & gh & E & H). rewrite E. cbn [bind app]. rewrite partition_Zof.
  eexists _, _. split; [reflexivity|]. intros e eta Xi Xj Hz HXi HXj. destruct (H e eta Xi Xj Hz HXi HXj) as [A B]. rewrite <- !paired_sum. split.
  - apply denotes_call. exact A.
  - destruct separate; apply denotes_call; auto.
Qed.
End Off.

(** ** Tables *)
Definition diag_entry (ops : list fop) (i : nat) (x : option gl_t) : Prop :=
  exists g, x = Some g /\ forall e eta X, im (zpoint e eta) <> 0 -> resolved n M ispin es i (zpoint e eta) X -> gl_call g e eta = Ok (green n beta egs ispin es i X ops).
Definition off_entry (ops : list fop) (i j : nat) (x : option gl_t) : Prop :=
  exists g, x = Some g /\ forall e eta Xi Xj, im (zpoint e eta) <> 0 -> resolved n M ispin es i (zpoint e eta) Xi -> resolved n M ispin es j (zpoint e eta) Xj ->
    gl_call g e eta = Ok (pair_green i j Xi Xj ops).
(** Diagonal entries below [d] and the entries (i, j) of the upper triangle with [done i j] are filled. *)
Definition filled (d : nat) (done : nat -> nat -> Prop) (ops : list fop) (t : gtab) : Prop :=
  square n t /\ (forall i, (i < d)%nat -> diag_entry ops i (tab_at t i i)) /\ (forall i j, (i < j < n)%nat -> done i j -> off_entry ops i j (tab_at t i j)) /\
  forall i j, (j < i)%nat -> tab_at t i j = None.

Lemma square_repeat {A} (x : A) m : square m (repeat (repeat x m) m).
Proof. split; [apply repeat_length|]. intros i Hi. rewrite (nth_indep _ [] (repeat x m)) by (now rewrite repeat_length). rewrite nth_repeat. apply repeat_length. Qed.
Lemma tab_at_empty i j : tab_at (repeat (repeat None n) n) i j = None.
Proof.
  unfold tab_at. destruct (Nat.lt_ge_cases i n) as [H|H].
  - rewrite (nth_indep _ [] (repeat None n)) by (now rewrite repeat_length). rewrite nth_repeat. apply nth_repeat.
  - rewrite (nth_overflow (repeat _ n)) by (rewrite repeat_length; lia). now destruct j.
Qed.
Lemma filled_diag d ops t g : (d < n)%nat -> filled d (fun _ _ => False) ops t -> diag_entry ops d (Some g) -> filled (S d) (fun _ _ => False) ops (set2 t d d (Some g)).
Proof.
  intros Hd (S & D & O & N) Hg. split; [now apply square_set2|]. unfold tab_at in *. split; [|split].
  - intros i Hi. rewrite (nth_set2 n) by auto. destruct (Nat.eqb_spec d i) as [->|]; [exact Hg|]. apply D. lia.
  - intros i j _ [].
  - intros i j Hij. rewrite (nth_set2 n) by auto. destruct (Nat.eqb_spec d i), (Nat.eqb_spec d j); try lia; cbn [andb]; now apply N.
Qed.
Lemma filled_off ops t g (done done' : nat -> nat -> Prop) i j : (i < j < n)%nat -> filled n done ops t -> off_entry ops i j (Some g) ->
  (forall a b, (a < b)%nat -> done' a b -> done a b \/ (a = i /\ b = j)) -> filled n done' ops (set2 t i j (Some g)).
Proof.
  intros Hij (S & D & O & N) Hg HD. split; [apply square_set2; auto; lia|]. unfold tab_at in *. split; [|split].
  - intros a Ha. rewrite (nth_set2 n) by (auto; lia). destruct (Nat.eqb_spec i a), (Nat.eqb_spec j a); try lia; cbn [andb]; now apply D.
  - intros a b Hab H'. rewrite (nth_set2 n) by (auto; lia). destruct (Nat.eqb_spec i a) as [->|]; cbn [andb].
    + destruct (Nat.eqb_spec j b) as [->|]; [exact Hg|]. apply O; auto. destruct (HD a b) as [?|[_ ?]]; auto; lia.
    + apply O; auto. destruct (HD a b) as [?|[? _]]; auto; lia.
  - intros a b Hab. rewrite (nth_set2 n) by (auto; lia). destruct (Nat.eqb_spec i a), (Nat.eqb_spec j b); try lia; cbn [andb]; now apply N.
Qed.
Lemma filled_weaken ops t d (done done' : nat -> nat -> Prop) : filled d done ops t -> (forall a b, (a < b < n)%nat -> done' a b -> done a b) -> filled d done' ops t.
Proof. intros (S & D & O & N) H. repeat split; auto; try apply S. Qed.

(** ** Evaluation *)
Lemma evaluate_ok t ops mem e eta X : filled n (fun _ _ => True) ops t -> square n mem -> im (zpoint e eta) <> 0 ->
  (forall i, (i < n)%nat -> resolved n M ispin es i (zpoint e eta) (X i)) ->
  exists G, gf2_evaluate t mem e eta = Ok G /\ square n G /\
    forall i j, (i < n)%nat -> (j < n)%nat -> nth j (nth i G []) (rcx 0) = green n beta egs ispin es (max i j) (X (min i j)) ops.
Proof.
  intros (S & D & O & N) Sm Hz HX. unfold gf2_evaluate. rewrite (proj1 S).
  pose (GR := fun i j => green n beta egs ispin es (max i j) (X (min i j)) ops).
  destruct (foldM_seq_inv (fun G i => do g <- ocall (tab_at t i i) e eta; Ok (set2 G i i g))
    (fun m G => square n G /\ forall i, (i < m)%nat -> (m <= n)%nat -> nth i (nth i G []) (rcx 0) = GR i i) n 0 mem) as (G & E & HG).
  - split; [exact Sm|]. intros; lia.
  - intros i G Hi (SG & HG). destruct (D i ltac:(lia)) as (g & Eg & Hg). rewrite Eg. cbn [ocall]. rewrite (Hg e eta (X i) Hz (HX i ltac:(lia))). cbn [bind].
    eexists. split; [reflexivity|]. split; [apply square_set2; auto; lia|]. intros a Ha Hn'. rewrite (nth_set2 n) by (auto; lia).
    destruct (Nat.eqb_spec i a) as [->|]; cbn [andb]; [unfold GR; now rewrite Nat.max_id, Nat.min_id|]. apply HG; lia.
  - rewrite E. cbn [bind]. destruct HG as (SG & HG). rewrite Nat.add_0_l in HG.
    pose (P := fun (done : nat -> nat -> Prop) G => square n G /\ (forall i, (i < n)%nat -> nth i (nth i G []) (rcx 0) = GR i i) /\
      forall a b, (a < b < n)%nat -> done a b -> nth b (nth a G []) (rcx 0) = GR a b /\ nth a (nth b G []) (rcx 0) = GR a b).
    destruct (foldM_seq_inv (fun G i => foldM (fun G j =>
        do g <- ocall (tab_at t i j) e eta;
        let x := half_of (cxsub (cxsub g (nth i (nth i G []) (rcx 0))) (nth j (nth j G []) (rcx 0))) in
        Ok (set2 (set2 G i j x) j i x)) (seq (Datatypes.S i) (length t - Datatypes.S i)) G)
      (fun m G => P (fun a _ => (a < m)%nat) G) n 0 G) as (G' & E' & (SG' & D' & O')).
    + split; [exact SG|]. split; [intros; apply HG; lia|]. intros; lia.
    + intros i G1 Hi HP. rewrite (proj1 S).
      destruct (foldM_seq_inv (fun G j =>
        do g <- ocall (tab_at t i j) e eta;
        let x := half_of (cxsub (cxsub g (nth i (nth i G []) (rcx 0))) (nth j (nth j G []) (rcx 0))) in
        Ok (set2 (set2 G i j x) j i x)) (fun m G => P (fun a b => (a < i)%nat \/ (a = i /\ (b < m)%nat)) G) (n - Datatypes.S i) (Datatypes.S i) G1) as (G2 & E2 & HP2).
      * destruct HP as (A & B & C). split; [exact A|]. split; [exact B|]. intros a b Hab [H|[-> H]]; [now apply C|lia].
      * intros j G3 Hj (A & B & C). destruct (O i j ltac:(lia) Logic.I) as (g & Eg & Hg). rewrite Eg. cbn [ocall].
        rewrite (Hg e eta (X i) (X j) Hz (HX i ltac:(lia)) (HX j ltac:(lia))). cbn [bind]. eexists. split; [reflexivity|].
        rewrite (B i) by lia. rewrite (B j) by lia.
        assert (EV : half_of (pair_green i j (X i) (X j) ops -c GR i i -c GR j j) = GR i j).
        { unfold half_of, pair_green, GR. rewrite !Nat.max_id, !Nat.min_id. rewrite Nat.max_r, Nat.min_l by lia.
          match goal with |- _ *c (?a +c ?b +c rcx 2 *c ?c -c ?a -c ?b) = _ => transitivity ((rcx (1 / 2) *c rcx 2) *c c); [ring|] end.
          rewrite <- rcx_mul. replace (1 / 2 * 2) with 1 by field. ring. }
        rewrite EV.
        assert (S1 : square n (set2 G3 i j (GR i j))) by (apply square_set2; auto; lia).
        split; [apply square_set2; auto; lia|]. split.
        -- intros a Ha. rewrite (nth_set2 n), (nth_set2 n) by (auto; lia).
           destruct (Nat.eqb_spec j a), (Nat.eqb_spec i a); try lia; cbn [andb]; now apply B.
        -- intros a b Hab H'. rewrite !(nth_set2 n) by (auto; lia).
           destruct (Nat.eqb_spec j a), (Nat.eqb_spec i b), (Nat.eqb_spec i a), (Nat.eqb_spec j b); try lia; cbn [andb]; subst; auto; apply C; auto; lia.
      * rewrite E2. exists G2. split; [reflexivity|]. destruct HP2 as (A & B & C). split; [exact A|]. split; [exact B|]. intros a b Hab Ha. apply C; auto. lia.
    + rewrite (proj1 S) in E'. exists G'. split; [exact E'|]. split; [exact SG'|]. intros i j Hi Hj. fold (GR i j).
      destruct (Nat.lt_trichotomy i j) as [H|[->|H]].
      * apply O'; lia.
      * now apply D'.
      * replace (GR i j) with (GR j i) by (unfold GR; now rewrite Nat.max_comm, Nat.min_comm). apply O'; lia.
Qed.
Lemma item_ok t ops i j e eta X : filled n (fun _ _ => True) ops t -> (i <= j < n)%nat -> im (zpoint e eta) <> 0 ->
  (forall i, (i < n)%nat -> resolved n M ispin es i (zpoint e eta) (X i)) ->
  gf2_item t i j e eta = Ok (green n beta egs ispin es j (X i) ops).
Proof.
  intros (S & D & O & N) Hij Hz HX. unfold gf2_item. destruct (Nat.eqb_spec i j) as [->|Ne].
  - destruct (D j ltac:(lia)) as (g & Eg & Hg). rewrite Eg. apply Hg; auto. apply HX. lia.
  - destruct (O i j ltac:(lia) Logic.I) as (g & Eg & Hg). destruct (D i ltac:(lia)) as (gi & Ei & Hi). destruct (D j ltac:(lia)) as (gj & Ej & Hj).
    rewrite Eg, Ei, Ej. cbn [ocall]. rewrite (Hg e eta (X i) (X j)), (Hi e eta (X i)), (Hj e eta (X j)) by (auto; apply HX; lia). cbn [bind].
    f_equal. unfold half_of, pair_green. match goal with |- _ *c (?a +c ?b +c rcx 2 *c ?c -c ?a -c ?b) = _ => transitivity ((rcx (1 / 2) *c rcx 2) *c c); [ring|] end.
    rewrite <- rcx_mul. replace (1 / 2 * 2) with 1 by field. ring.
Qed.
Lemma item_lower t ops i j e eta : filled n (fun _ _ => True) ops t -> (j < i)%nat -> gf2_item t i j e eta = Err TypeError.
Proof. intros (S & D & O & N) H. unfold gf2_item. destruct (Nat.eqb_spec i j); [lia|]. rewrite (N i j H). reflexivity. Qed.

Hypothesis Hsolve : solver n solve M.
Hypothesis Hset : settled n solve es.
Hypothesis HKd : forall i, (i < n)%nat -> krylov n mvop tridiag ispin es (fun op p' q' s k a => exc n op ispin i p' q' s k a) 11.
Hypothesis HKo : forall i j, (i < j < n)%nat -> krylov n mvop tridiag ispin es (pair_excited n ispin i j) 0 /\ never_zero n ispin es (pair_excited n ispin i j).

Lemma build_gf2_k repr separate : repr_of repr = Ok k -> exists te th,
  build_gf2_lanczos solve mvop tridiag eigh n es beta egs ispin repr separate = Ok (es, if separate then Gf2two te th else Gf2one te) /\
  filled n (fun _ _ => True) (ops_e separate) te /\ filled n (fun _ _ => True) (ops_h separate) th.
Proof.
  intros ER. unfold build_gf2_lanczos.
  match goal with |- context[foldM ?F (seq 0 n) (es, ?x, ?y)] =>
    destruct (foldM_seq_inv F (fun m a => fst (fst a) = es /\ filled m (fun _ _ => False) (ops_e separate) (snd (fst a)) /\ filled m (fun _ _ => False) (ops_h separate) (snd a)) n 0 (es, x, y))
      as ([[es1 te] th] & E & (E1 & F1 & F2)) end.
  - cbn [fst snd]. split; [reflexivity|].
    split; (split; [apply square_repeat|split; [intros; lia|split; [intros ? ? ? []|intros; apply tab_at_empty]]]).
  - intros i [[es1 te] th] Hi (E1 & F1 & F2). cbn [fst snd] in *. subst es1.
    destruct (build_gf_lanczos_k solve mvop tridiag eigh n M es beta egs ispin k Hn HES Hop Hsp HK i ltac:(lia) Hsolve Hset (HKd i ltac:(lia)) repr separate ER) as (ge & gh & EB & HB).
    rewrite EB. cbn [bind]. eexists. split; [reflexivity|]. cbn [fst snd]. split; [reflexivity|].
    split; apply filled_diag; auto; try lia; eexists; (split; [reflexivity|]); intros e eta X Hz HX; destruct (HB e eta X Hz HX); auto.
  - rewrite E. cbn [bind fst snd] in *. subst es1. rewrite Nat.add_0_l in F1, F2.
    pose (P := fun (done : nat -> nat -> Prop) (a : gtab * gtab) => filled n done (ops_e separate) (fst a) /\ filled n done (ops_h separate) (snd a)).
    match goal with |- context[foldM ?F (seq 0 n) (te, th)] =>
      destruct (foldM_seq_inv F (fun m a => P (fun a _ => (a < m)%nat) a) n 0 (te, th)) as ([te' th'] & E' & (G1 & G2)) end.
    + split; cbn [fst snd]; (eapply filled_weaken; [eassumption|]); intros; lia.
    + intros i [t1 t2] Hi HP.
      match goal with |- context[foldM ?F (seq (S i) _) (t1, t2)] =>
        destruct (foldM_seq_inv F (fun m a => P (fun a b => (a < i)%nat \/ (a = i /\ (b < m)%nat)) a) (n - S i) (S i) (t1, t2)) as (a2 & E2 & HP2) end.
      * destruct HP as (A & B). split; (eapply filled_weaken; [eassumption|]); intros a b Hab [?|[-> ?]]; lia.
      * intros j [u1 u2] Hj (A & B). cbn [fst snd] in *. destruct (HKo i j ltac:(lia)) as [K1 K2].
        destruct (build_gf_offdiag_k i j ltac:(lia) ltac:(lia) K1 K2 repr separate ER) as (ge & gh & EB & HB).
        rewrite EB. cbn [bind]. eexists. split; [reflexivity|]. split; cbn [fst snd]; (eapply filled_off; [lia|eassumption| |]).
        -- eexists; (split; [reflexivity|]); intros e eta Xi Xj Hz HXi HXj; destruct (HB e eta Xi Xj Hz HXi HXj); auto.
        -- intros a b Hab. cbn beta. lia.
        -- eexists; (split; [reflexivity|]); intros e eta Xi Xj Hz HXi HXj; destruct (HB e eta Xi Xj Hz HXi HXj); auto.
        -- intros a b Hab. cbn beta. lia.
      * rewrite E2. exists a2. split; [reflexivity|]. destruct HP2 as (A & B). split; (eapply filled_weaken; [eassumption|]); intros a b Hab Ha; cbn beta in *; lia.
    + rewrite E'. cbn [bind]. exists te', th'. split; [reflexivity|]. cbn [fst snd] in *.
      split; (eapply filled_weaken; [eassumption|]); intros; cbn beta; lia.
Qed.
End Pair.
