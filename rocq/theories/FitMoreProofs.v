(** The C twin of the fit objective; initial baths. *)
From Coq Require Import Reals List Arith ZArith Bool Lia Lra Psatz.
From Verif Require Import Base RBase RLin CBase MatvecModel EspaceModel EspaceProofs FitModel FitSpec FitProofs.
Import ListNotations.
Local Open Scope R_scope.

(** ** bath.c computes the same objective and gradient *)
Lemma c_delta_hyb m x z : c_delta1 m x z = hyb m (fun k => nth k x 0) (fun k => nth (m + k) x 0) z.
Proof.
  unfold c_delta1. rewrite fold_csum. replace (cxadd (rcx 0) _) with (csum m (fun j => cxdiv (rcx (nth (m + j) x 0 ^ 2)) (cxsub z (rcx (nth j x 0))))) by (apply cx_eq; simpl; ring).
  apply csum_ext. intros j Hj. f_equal. f_equal. ring.
Qed.
Lemma fold_left_ext {A B} (f g : A -> B -> A) l : (forall a b, In b l -> f a b = g a b) -> forall a, fold_left f l a = fold_left g l a.
Proof. induction l as [|b l IH]; intros H a; [reflexivity|]. cbn [fold_left]. rewrite H by now left. apply IH. intros; apply H; now right. Qed.
Lemma c_ddelta_eq m x z row : length x = (2 * m)%nat -> c_ddelta1 m x z row = ddelta1 x z row.
Proof.
  intros L. unfold c_ddelta1, ddelta1. rewrite (eks_length m x L). apply fold_left_ext. intros a j Hj. apply in_seq in Hj.
  rewrite (eks_nth m x L), (vks_nth m x L) by lia. reflexivity.
Qed.
Lemma c_chi2_eq m x z vals : length x = (2 * m)%nat -> length vals = length z -> c_chi2 m z vals x = chi2 z vals x.
Proof.
  intros L LV. rewrite (chi2_misfit m) by auto. unfold c_chi2, misfit. f_equal. rewrite fold_rsum', Rplus_0_l. apply rsum_ext. intros i Hi.
  rewrite pow2_sqrt by (unfold cxn2; nra). now rewrite c_delta_hyb.
Qed.
Lemma fold_modify_all n g : forall dx : list R, length dx = n ->
  let r := fold_left (fun dx k => modify dx k (fun y => y + g k)) (seq 0 n) dx in length r = n /\ forall k, (k < n)%nat -> nth k r 0 = nth k dx 0 + g k.
Proof.
  intros dx L.
  assert (G : forall q, (q <= n)%nat -> let r := fold_left (fun dx k => modify dx k (fun y => y + g k)) (seq 0 q) dx in length r = n /\ forall k, (k < n)%nat -> nth k r 0 = nth k dx 0 + if (k <? q)%nat then g k else 0).
  { induction q as [|q IH]; intros Hq; cbn zeta; [split; [exact L|intros k Hk; simpl; ring]|].
    destruct (IH ltac:(lia)) as [A B]. rewrite seq_S, fold_left_app. cbn [fold_left Nat.add]. split; [now rewrite modify_length|]. intros k Hk.
    rewrite nth_modify by lia. rewrite B by auto. destruct (Nat.eqb_spec q k) as [->|NE].
    - rewrite Nat.ltb_irrefl. destruct (Nat.ltb_spec k (S k)); [ring|lia].
    - destruct (Nat.ltb_spec k q); destruct (Nat.ltb_spec k (S q)); try lia; ring. }
  destruct (G n ltac:(lia)) as [A B]. split; [exact A|]. intros k Hk. rewrite B by auto. destruct (Nat.ltb_spec k n); [reflexivity|lia].
Qed.
Lemma fold_modify_outer n (g : nat -> nat -> R) M : forall dx : list R, length dx = n ->
  let r := fold_left (fun dx i => fold_left (fun dx k => modify dx k (fun y => y + g i k)) (seq 0 n) dx) (seq 0 M) dx in
  length r = n /\ forall k, (k < n)%nat -> nth k r 0 = nth k dx 0 + rsum M (fun i => g i k).
Proof.
  intros dx L. induction M as [|M IH]; cbn zeta; [split; [exact L|intros k Hk; unfold rsum, nsum; simpl; match goal with |- ?x = ?y => change (@eq R x y) end; ring]|].
  destruct IH as [A B]. rewrite seq_S, fold_left_app. cbn [fold_left Nat.add].
  destruct (fold_modify_all n (g M) _ A) as [C D]. split; [exact C|]. intros k Hk. rewrite D, B, rsum_S by auto. ring.
Qed.
Theorem c_dchi2_eq m x z vals mem : length x = (2 * m)%nat -> length vals = length z -> length mem = length z -> (0 < length z)%nat ->
  dchi2 z vals mem x = Ok (c_dchi2 m z vals mem x).
Proof.
  intros L LV LM POS. unfold dchi2. rewrite LV, Nat.eqb_refl. f_equal. unfold c_dchi2. set (n := length z) in *.
  destruct (fold_modify_outer (2 * m) (fun i k =>
     re (nth k (c_ddelta1 m x (nth i z (rcx 0)) (nth i mem [])) (rcx 0)) * re (cxsub (nth i vals (rcx 0)) (c_delta1 m x (nth i z (rcx 0)))) +
     im (nth k (c_ddelta1 m x (nth i z (rcx 0)) (nth i mem [])) (rcx 0)) * im (cxsub (nth i vals (rcx 0)) (c_delta1 m x (nth i z (rcx 0))))) n (repeat 0 (2 * m)) (repeat_length _ _)) as [A B].
  cbn zeta in *.
  apply (list_ext _ _ 0); [now rewrite !map_length, seq_length, A|]. rewrite map_length, seq_length. intros k Hk. rewrite L in Hk.
  rewrite (nth_map_lt _ _ _ _ 0%nat) by (rewrite seq_length; lia). rewrite seq_nth by lia. rewrite Nat.add_0_l.
  match goal with |- _ = nth k (map ?f ?l) 0 => rewrite (nth_map_lt f l k 0 0) by (rewrite A; exact Hk) end.
  rewrite B by exact Hk. rewrite nth_repeat, Rplus_0_l.
  assert (LC1 : length (combine vals (delta_fit x z)) = n) by (rewrite combine_length; unfold delta_fit; rewrite map_length; lia).
  assert (LC2 : length (combine z mem) = n) by (rewrite combine_length; lia).
  rewrite !(dotr_rsum _ _ n) by (rewrite !map_length; lia). rewrite <- rsum_add. f_equal. f_equal. apply rsum_ext. intros i Hi.
  rewrite !(nth_map_lt re _ _ _ (rcx 0)), !(nth_map_lt im _ _ _ (rcx 0)) by (rewrite map_length; lia).
  rewrite !(nth_map_lt (fun row => re (nth k row (rcx 0))) _ _ _ []), !(nth_map_lt (fun row => im (nth k row (rcx 0))) _ _ _ []) by (rewrite map_length; lia).
  rewrite !(nth_map_lt (fun q : cx * list cx => ddelta1 x (fst q) (snd q)) _ _ _ (rcx 0, [])) by lia. rewrite combine_nth by lia. cbn [fst snd].
  rewrite !(nth_map_lt (fun q : cx * cx => cxsub (fst q) (snd q)) _ _ _ (rcx 0, rcx 0)) by lia. rewrite combine_nth by (unfold delta_fit; rewrite map_length; lia). cbn [fst snd].
  unfold delta_fit. rewrite (nth_map_lt (delta1 x) _ _ _ (rcx 0)) by (unfold n in Hi; lia).
  rewrite (c_ddelta_eq m x _ _ L), (delta1_hyb m x L), c_delta_hyb. ring.
Qed.

(** Matsubara points are never levels. *)
Lemma matsubara_off nmats beta p : 0 < beta -> off_levels p (matsubara nmats beta).
Proof.
  intros HB i j Hi Hj E. unfold matsubara in *. rewrite map_length, seq_length in Hi.
  rewrite (nth_map_lt _ _ _ _ 0%nat) in E by (now rewrite seq_length). rewrite seq_nth in E by auto. apply (f_equal im) in E. cbn [im snd rcx] in E.
  pose proof (pos_INR (0 + i)). pose proof PI_RGT_0. assert (Q : 0 < (2 * INR (0 + i) + 1) * PI / beta) by (apply Rdiv_lt_0_compat; nra). lra.
Qed.

(** ** Initial baths *)
Lemma foldM_app {A B} (f : B -> A -> res B) l l' b : foldM f (l ++ l') b = do b <- foldM f l b; foldM f l' b.
Proof. revert b. induction l as [|a l IH]; intros b; [reflexivity|]. cbn [app foldM]. destruct (f b a); [apply IH|reflexivity]. Qed.

Section Loop.
Variable st : list (option R) -> nat -> R -> res (list (option R)).
Variables (nb L : nat).
Hypothesis ST : forall p i x, (i < nb)%nat -> length p = L -> st p i x = Ok (upd_tot p i (Some x)).
Hypothesis NL : (nb <= L)%nat.
Lemma pair_loop f g q : (2 * q + 1 < nb)%nat -> forall p, length p = L ->
  exists p', foldM (fun p i => do p <- st p i (f i); st p (nb - i - 1) (g i)) (seq 1 q) p = Ok p' /\ length p' = L /\
  forall j, nth j p' None = if (1 <=? j)%nat && (j <=? q)%nat then Some (f j) else if (nb - 1 - q <=? j)%nat && (j <=? nb - 2)%nat then Some (g (nb - 1 - j)%nat) else nth j p None.
Proof.
  intros Hq p LP. induction q as [|q IH].
  - exists p. split; [reflexivity|]. split; [exact LP|]. intros j. destruct (Nat.leb_spec 1 j), (Nat.leb_spec j 0); try lia; cbn [andb]; destruct (Nat.leb_spec (nb - 1 - 0) j), (Nat.leb_spec j (nb - 2)); try lia; reflexivity.
  - destruct (IH ltac:(lia)) as (p' & E & L' & V). rewrite seq_S, foldM_app, E. cbn [bind foldM Nat.add].
    rewrite ST by lia. cbn [bind]. rewrite ST by (rewrite ?upd_tot_length; lia). cbn [bind]. eexists. split; [reflexivity|]. split; [now rewrite !upd_tot_length|].
    intros j. rewrite nth_upd_tot by (rewrite upd_tot_length; lia). rewrite nth_upd_tot by lia. rewrite V.
    destruct (Nat.eqb_spec (nb - S q - 1) j) as [<-|N1].
    + destruct (Nat.leb_spec 1 (nb - S q - 1)), (Nat.leb_spec (nb - S q - 1) (S q)); try lia; cbn [andb].
      destruct (Nat.leb_spec (nb - 1 - S q) (nb - S q - 1)), (Nat.leb_spec (nb - S q - 1) (nb - 2)); try lia. cbn [andb]. do 2 f_equal. lia.
    + destruct (Nat.eqb_spec (S q) j) as [<-|N2].
      * destruct (Nat.leb_spec 1 (S q)), (Nat.leb_spec (S q) (S q)); try lia. reflexivity.
      * destruct (Nat.leb_spec 1 j); cbn [andb]; [destruct (Nat.leb_spec j (S q)), (Nat.leb_spec j q); try lia|]; cbn [andb]; try reflexivity;
        destruct (Nat.leb_spec (nb - 1 - S q) j), (Nat.leb_spec (nb - 1 - q) j); try lia; reflexivity.
Qed.
End Loop.

(** Levels written for [nb] sites. *)
Definition blevel (nb : nat) (B : R) (j : nat) : R :=
  let h := (nb / 2)%nat in
  if (nb =? 1)%nat then B
  else if Nat.odd nb then - B + INR j * (B / INR h)
  else if (j =? 0)%nat then - B else if (j =? nb - 1)%nat then B
  else if (j =? h - 1)%nat then - (1 / 10) else if (j =? h)%nat then 1 / 10
  else if (j <? h)%nat then - B + INR j * (B / INR (Nat.max (h - 1) 1)) else B - INR (nb - 1 - j) * (B / INR (Nat.max (h - 1) 1)).

Definition coup (nb : nat) : R := Rmax (1 / 10) (1 / sqrt (INR nb)).

Lemma ekset_ok nb L p i x : (nb <= L)%nat -> (i < nb)%nat -> length p = L -> ekset nb p i x = Ok (upd_tot p i (Some x)).
Proof. intros H Hi LP. unfold ekset. destruct (Nat.ltb_spec i nb); [|lia]. apply pyset_ok. lia. Qed.
Lemma fill_nth nb p x j : (j < length p)%nat -> nth j (fill_from nb p x) None = if (j <? nb)%nat then nth j p None else Some x.
Proof.
  intros Hj. unfold fill_from. destruct (Nat.ltb_spec j nb) as [Lt|Ge].
  - rewrite app_nth1 by (rewrite firstn_length; lia). now apply nth_firstn'.
  - rewrite app_nth2 by (rewrite firstn_length; lia). rewrite firstn_length. replace (Nat.min nb (length p)) with nb by lia.
    rewrite (nth_map_lt _ _ _ _ None) by (rewrite skipn_length; lia). reflexivity.
Qed.
Lemma fill_length nb p x : length (fill_from nb p x) = length p.
Proof. unfold fill_from. rewrite app_length, map_length, firstn_length, skipn_length. lia. Qed.

Lemma even_half nb : Nat.even nb = true -> nb = (2 * (nb / 2))%nat.
Proof. intros E. apply Nat.even_spec in E. destruct E as [q ->]. rewrite (Nat.mul_comm 2 q), Nat.div_mul by lia. lia. Qed.
Lemma odd_half nb : Nat.odd nb = true -> nb = (2 * (nb / 2) + 1)%nat.
Proof.
  intros E. apply Nat.odd_spec in E. destruct E as [q ->]. replace ((2 * q + 1) / 2)%nat with q; [lia|].
  rewrite (Nat.mul_comm 2 q), Nat.div_add_l by lia. simpl. lia.
Qed.
Lemma odd_levels h B j : (1 <= h)%nat -> (j <= 2 * h)%nat -> B - INR (2 * h - j) * (B / INR h) = - B + INR j * (B / INR h).
Proof.
  intros Hh Hj. rewrite minus_INR by lia. rewrite mult_INR. replace (INR 2) with 2 by (simpl; ring). assert (INR h <> 0) by (apply not_0_INR; lia). field. auto.
Qed.

(** Shape shared by both initialisers, starting from filled couplings. *)
Lemma levels_ok (st : list (option R) -> nat -> R -> res (list (option R))) nb L B p c :
  (forall p i x, (i < nb)%nat -> length p = L -> st p i x = Ok (upd_tot p i (Some x))) -> (2 <= nb)%nat -> (nb <= L)%nat -> length p = L ->
  (forall j, (nb <= j < L)%nat -> nth j p None = Some c) ->
  exists p', (do p <- st p 0%nat (- B); do p <- st p (nb - 1)%nat B;
    let nhalf := (nb / 2)%nat in
    do p <- (if Nat.even nb && (4 <=? nb)%nat then
      let de := B / INR (Nat.max (nhalf - 1) 1) in
      do p <- st p (nhalf - 1)%nat (- (1 / 10)); do p <- st p nhalf (1 / 10);
      foldM (fun p i => do p <- st p i (- B + INR i * de); st p (nb - i - 1)%nat (B - INR i * de)) (seq 1 (nhalf - 2)) p
      else Ok p);
    if Nat.odd nb && (3 <=? nb)%nat then
      let de := B / INR nhalf in
      do p <- st p nhalf 0;
      foldM (fun p i => do p <- st p i (- B + INR i * de); st p (nb - i - 1)%nat (B - INR i * de)) (seq 1 (nhalf - 1)) p
    else Ok p) = Ok p' /\ length p' = L /\
  forall j, (j < L)%nat -> nth j p' None = Some (if (j <? nb)%nat then blevel nb B j else c).
Proof.
  intros ST H2 NL LP C. rewrite ST by lia. cbn [bind]. rewrite ST by (rewrite ?upd_tot_length; lia). cbn [bind]. cbv zeta. set (h := (nb / 2)%nat).
  set (p1 := upd_tot (upd_tot p 0 (Some (- B))) (nb - 1) (Some B)).
  assert (L1 : length p1 = L) by (unfold p1; now rewrite !upd_tot_length).
  assert (V1 : forall j, nth j p1 None = if (j =? 0)%nat then Some (- B) else if (j =? nb - 1)%nat then Some B else nth j p None).
  { intros j. unfold p1. rewrite nth_upd_tot by (rewrite upd_tot_length; lia). rewrite nth_upd_tot by lia. rewrite (Nat.eqb_sym j 0), (Nat.eqb_sym j (nb - 1)).
    destruct (Nat.eqb_spec (nb - 1) j), (Nat.eqb_spec 0 j); try lia; reflexivity. }
  destruct (Nat.even nb) eqn:EV.
  - assert (OD : Nat.odd nb = false) by (rewrite <- Nat.negb_even, EV; reflexivity). rewrite OD. cbn [andb].
    pose proof (even_half nb EV) as HH. fold h in HH. destruct (Nat.leb_spec 4 nb) as [H4|H4]; cbn [andb].
    + rewrite ST by lia. cbn [bind]. rewrite ST by (rewrite ?upd_tot_length; lia). cbn [bind].
      set (p2 := upd_tot (upd_tot p1 (h - 1) (Some (- (1 / 10)))) h (Some (1 / 10))). assert (L2 : length p2 = L) by (unfold p2; now rewrite !upd_tot_length).
      destruct (pair_loop st nb L ST NL (fun i => - B + INR i * (B / INR (Nat.max (h - 1) 1))) (fun i => B - INR i * (B / INR (Nat.max (h - 1) 1))) (h - 2) ltac:(lia) p2 L2) as (p3 & E & L3 & V3).
      rewrite E. cbn [bind]. exists p3. split; [reflexivity|]. split; [exact L3|]. intros j Hj. rewrite V3. unfold p2. rewrite nth_upd_tot by (rewrite upd_tot_length; lia). rewrite nth_upd_tot by lia. rewrite V1.
      unfold blevel. fold h. rewrite OD. destruct (Nat.eqb_spec nb 1); [lia|].
      destruct (Nat.ltb_spec j nb) as [JL|JG].
      * destruct (Nat.eqb_spec j 0) as [->|N0].
        { destruct (Nat.leb_spec 1 0); [lia|]. cbn [andb]. destruct (Nat.leb_spec (nb - 1 - (h - 2)) 0); [lia|]. cbn [andb]. destruct (Nat.eqb_spec h 0); [lia|]. destruct (Nat.eqb_spec (h - 1) 0); [lia|]. reflexivity. }
        destruct (Nat.eqb_spec j (nb - 1)) as [->|N1].
        { destruct (Nat.leb_spec (nb - 1) (h - 2)); [lia|]. rewrite andb_false_r. destruct (Nat.leb_spec (nb - 1) (nb - 2)); [lia|]. rewrite andb_false_r.
          destruct (Nat.eqb_spec h (nb - 1)); [lia|]. destruct (Nat.eqb_spec (h - 1) (nb - 1)); [lia|]. reflexivity. }
        destruct (Nat.eqb_spec j (h - 1)) as [->|N2].
        { destruct (Nat.leb_spec (h - 1) (h - 2)); [lia|]. rewrite andb_false_r. destruct (Nat.leb_spec (nb - 1 - (h - 2)) (h - 1)); [lia|]. cbn [andb].
          destruct (Nat.eqb_spec h (h - 1)); [lia|]. rewrite Nat.eqb_refl. reflexivity. }
        destruct (Nat.eqb_spec j h) as [->|N3].
        { destruct (Nat.leb_spec h (h - 2)); [lia|]. rewrite andb_false_r. destruct (Nat.leb_spec (nb - 1 - (h - 2)) h); [lia|]. cbn [andb]. rewrite Nat.eqb_refl. reflexivity. }
        destruct (Nat.ltb_spec j h).
        { destruct (Nat.leb_spec 1 j); [|lia]. destruct (Nat.leb_spec j (h - 2)); [|lia]. reflexivity. }
        { destruct (Nat.leb_spec j (h - 2)); [lia|]. rewrite andb_false_r. destruct (Nat.leb_spec (nb - 1 - (h - 2)) j); [|lia]. destruct (Nat.leb_spec j (nb - 2)); [|lia]. reflexivity. }
      * destruct (Nat.leb_spec j (h - 2)); [lia|]. rewrite andb_false_r. destruct (Nat.leb_spec j (nb - 2)); [lia|]. rewrite andb_false_r.
        destruct (Nat.eqb_spec h j); [lia|]. destruct (Nat.eqb_spec (h - 1) j); [lia|]. destruct (Nat.eqb_spec j 0); [lia|]. destruct (Nat.eqb_spec j (nb - 1)); [lia|]. apply C. lia.
    + cbn [bind]. exists p1. split; [reflexivity|]. split; [exact L1|]. assert (nb = 2%nat) by lia. assert (h = 1%nat) by lia. intros j Hj. rewrite V1. unfold blevel. fold h. rewrite OD.
      destruct (Nat.eqb_spec nb 1); [lia|]. destruct (Nat.ltb_spec j nb) as [JL|JG].
      * destruct (Nat.eqb_spec j 0); [reflexivity|]. destruct (Nat.eqb_spec j (nb - 1)); [reflexivity|lia].
      * destruct (Nat.eqb_spec j 0); [lia|]. destruct (Nat.eqb_spec j (nb - 1)); [lia|]. apply C. lia.
  - assert (OD : Nat.odd nb = true) by (rewrite <- Nat.negb_even, EV; reflexivity). rewrite OD. cbn [andb bind].
    pose proof (odd_half nb OD) as HH. fold h in HH. destruct (Nat.leb_spec 3 nb) as [H3|H3]; [|lia].
    rewrite ST by lia. cbn [bind]. set (p2 := upd_tot p1 h (Some 0)). assert (L2 : length p2 = L) by (unfold p2; now rewrite upd_tot_length).
    destruct (pair_loop st nb L ST NL (fun i => - B + INR i * (B / INR h)) (fun i => B - INR i * (B / INR h)) (h - 1) ltac:(lia) p2 L2) as (p3 & E & L3 & V3).
    rewrite E. exists p3. split; [reflexivity|]. split; [exact L3|]. intros j Hj. rewrite V3. unfold p2. rewrite nth_upd_tot by lia. rewrite V1.
    unfold blevel. fold h. rewrite OD. destruct (Nat.eqb_spec nb 1); [lia|]. assert (HN : INR h <> 0) by (apply not_0_INR; lia).
    destruct (Nat.ltb_spec j nb) as [JL|JG].
    + destruct (Nat.eqb_spec j 0) as [->|N0].
      { destruct (Nat.leb_spec 1 0); [lia|]. cbn [andb]. destruct (Nat.leb_spec (nb - 1 - (h - 1)) 0); [lia|]. cbn [andb]. destruct (Nat.eqb_spec h 0); [lia|]. f_equal. simpl. ring. }
      destruct (Nat.eqb_spec j (nb - 1)) as [->|N1].
      { destruct (Nat.leb_spec (nb - 1) (h - 1)); [lia|]. rewrite andb_false_r. destruct (Nat.leb_spec (nb - 1) (nb - 2)); [lia|]. rewrite andb_false_r.
        destruct (Nat.eqb_spec h (nb - 1)); [lia|]. f_equal. rewrite <- (odd_levels h) by lia. replace (2 * h - (nb - 1))%nat with 0%nat by lia. simpl. ring. }
      destruct (Nat.eqb_spec h j) as [<-|N2].
      { destruct (Nat.leb_spec h (h - 1)); [lia|]. rewrite andb_false_r. destruct (Nat.leb_spec (nb - 1 - (h - 1)) h); [lia|]. cbn [andb]. f_equal. field. exact HN. }
      destruct (Nat.leb_spec 1 j); [|lia]. destruct (Nat.leb_spec j (h - 1)); cbn [andb]; [reflexivity|].
      destruct (Nat.leb_spec (nb - 1 - (h - 1)) j); [|lia]. destruct (Nat.leb_spec j (nb - 2)); [|lia]. cbn [andb]. f_equal. rewrite <- (odd_levels h) by lia. do 3 f_equal. lia.
    + destruct (Nat.leb_spec j (h - 1)); [lia|]. rewrite andb_false_r. destruct (Nat.leb_spec j (nb - 2)); [lia|]. rewrite andb_false_r.
      destruct (Nat.eqb_spec h j); [lia|]. destruct (Nat.eqb_spec j 0); [lia|]. destruct (Nat.eqb_spec j (nb - 1)); [lia|]. apply C. lia.
Qed.

Lemma some_list (p : list (option R)) (f : nat -> R) : (forall j, (j < length p)%nat -> nth j p None = Some (f j)) -> p = map Some (map f (seq 0 (length p))).
Proof.
  intros H. apply (list_ext _ _ None); [now rewrite !map_length, seq_length|]. intros j Hj. rewrite H by auto.
  rewrite (nth_map_lt Some _ _ _ 0) by (now rewrite map_length, seq_length). rewrite (nth_map_lt f _ _ _ 0%nat) by (now rewrite seq_length). now rewrite seq_nth.
Qed.

Theorem init_levels_ok nb B p : (1 <= nb)%nat -> (nb <= length p)%nat ->
  exists x, init_levels nb B p = Ok (map Some x) /\ length x = length p /\
  forall j, (j < length p)%nat -> nth j x 0 = if (j <? nb)%nat then blevel nb B j else coup nb.
Proof.
  intros H1 HL.
  assert (FIN : forall p', length p' = length p -> (forall j, (j < length p)%nat -> nth j p' None = Some (if (j <? nb)%nat then blevel nb B j else coup nb)) ->
    exists x, p' = map Some x /\ length x = length p /\ forall j, (j < length p)%nat -> nth j x 0 = if (j <? nb)%nat then blevel nb B j else coup nb).
  { intros p' L' V. exists (map (fun j => if (j <? nb)%nat then blevel nb B j else coup nb) (seq 0 (length p))). split; [|split].
    - rewrite <- L' at 1. apply some_list. intros j Hj. apply V. lia.
    - now rewrite map_length, seq_length.
    - intros j Hj. rewrite (nth_map_lt _ _ _ _ 0%nat) by (now rewrite seq_length). now rewrite seq_nth. }
  unfold init_levels. set (p0 := fill_from nb p _). assert (L0 : length p0 = length p) by apply fill_length.
  assert (C0 : forall j, (nb <= j < length p)%nat -> nth j p0 None = Some (coup nb)).
  { intros j Hj. unfold p0. rewrite fill_nth by lia. destruct (Nat.ltb_spec j nb); [lia|reflexivity]. }
  destruct (Nat.eqb_spec nb 0); [lia|].
  destruct (Nat.eq_dec nb 1) as [->|N1].
  - rewrite (ekset_ok 1 (length p)) by lia. cbn [bind]. rewrite (ekset_ok 1 (length p)) by (rewrite ?upd_tot_length; lia). cbn [bind Nat.even Nat.odd andb negb Nat.leb].
    destruct (FIN (upd_tot (upd_tot p0 0 (Some (- B))) (1 - 1) (Some B))) as (x & -> & Q).
    + now rewrite !upd_tot_length.
    + intros j Hj. rewrite nth_upd_tot by (rewrite upd_tot_length; lia). rewrite nth_upd_tot by lia. destruct j as [|j]; [reflexivity|].
      cbn [Nat.sub Nat.eqb]. rewrite C0 by lia. reflexivity.
    + exists x. split; [reflexivity|exact Q].
  - destruct (levels_ok (ekset nb) nb (length p) B p0 (coup nb)) as (p' & E & L' & V); try lia; auto.
    { intros q i x Hi Lq. now apply (ekset_ok nb (length p)). }
    destruct (FIN p' L' V) as (x & -> & Q). exists x. split; [exact E|exact Q].
Qed.

Theorem c_init_ok nb p : (1 <= nb)%nat -> nb <> 3%nat -> length p = (2 * nb)%nat ->
  exists x, c_init_bath nb p = Ok (map Some x) /\ init_levels nb 2 p = Ok (map Some x).
Proof.
  intros H1 N3 LP. destruct (init_levels_ok nb 2 p H1 ltac:(lia)) as (x & E & LX & V). exists x. split; [|exact E].
  unfold c_init_bath.
  assert (CS : forall q i y, length q = (2 * nb)%nat -> (i < 2 * nb)%nat -> cset q i y = Ok (upd_tot q i (Some y))).
  { intros q i y Lq Hi. unfold cset. rewrite upd_upd_tot by lia. reflexivity. }
  assert (FILL : forall k, (k <= nb)%nat -> exists q, foldM (fun x j => cset x (nb + j) (Rmax (1 / 10) (1 / sqrt (INR nb)))) (seq 0 k) p = Ok q /\ length q = (2 * nb)%nat /\
     forall j, nth j q None = if (nb <=? j)%nat && (j <? nb + k)%nat then Some (coup nb) else nth j p None).
  { induction k as [|k IH]; intros Hk; [exists p; split; [reflexivity|]; split; [exact LP|]; intros j; destruct (Nat.leb_spec nb j), (Nat.ltb_spec j (nb + 0)); try lia; reflexivity|].
    destruct (IH ltac:(lia)) as (q & Eq & Lq & Vq). rewrite seq_S, foldM_app, Eq. cbn [bind foldM Nat.add]. rewrite CS by lia. cbn [bind]. eexists. split; [reflexivity|].
    split; [now rewrite upd_tot_length|]. intros j. rewrite nth_upd_tot by lia. rewrite Vq. fold (coup nb).
    destruct (Nat.eqb_spec (nb + k) j) as [<-|NE]; [destruct (Nat.leb_spec nb (nb + k)), (Nat.ltb_spec (nb + k) (nb + S k)); try lia; reflexivity|].
    destruct (Nat.leb_spec nb j), (Nat.ltb_spec j (nb + k)), (Nat.ltb_spec j (nb + S k)); try lia; reflexivity. }
  destruct (FILL nb ltac:(lia)) as (q & -> & Lq & Vq). cbn [bind]. clear FILL.
  destruct (Nat.eqb_spec nb 0); [lia|].
  assert (FIN : forall p', length p' = (2 * nb)%nat -> (forall j, (j < 2 * nb)%nat -> nth j p' None = Some (if (j <? nb)%nat then blevel nb 2 j else coup nb)) -> p' = map Some x).
  { intros p' L' V'. apply (list_ext _ _ None); [rewrite map_length; lia|]. intros j Hj. rewrite V' by lia.
    rewrite (nth_map_lt Some _ _ _ 0) by lia. rewrite V by lia. reflexivity. }
  assert (C0 : forall j, (nb <= j < 2 * nb)%nat -> nth j q None = Some (coup nb)).
  { intros j Hj. rewrite Vq. destruct (Nat.leb_spec nb j), (Nat.ltb_spec j (nb + nb)); try lia; reflexivity. }
  destruct (Nat.eq_dec nb 1) as [N1|N1].
  - subst nb. rewrite CS by lia. cbn [bind]. rewrite CS by (rewrite ?upd_tot_length; lia). cbn [bind Nat.even Nat.odd andb negb Nat.leb Nat.ltb].
    f_equal. apply FIN; [now rewrite !upd_tot_length|]. intros j Hj. rewrite nth_upd_tot by (rewrite upd_tot_length; lia). rewrite nth_upd_tot by lia.
    destruct j as [|j]; [reflexivity|]. cbn [Nat.sub Nat.eqb]. rewrite C0 by lia. reflexivity.
  - destruct (levels_ok cset nb (2 * nb) 2 q (coup nb)) as (p' & E' & L' & V'); try lia; auto.
    { intros r i y Hi Lr. apply CS; lia. }
    rewrite <- (FIN p' L' V'). rewrite <- E'. rewrite CS by lia. cbn [bind]. rewrite CS by (rewrite ?upd_tot_length; lia). cbn [bind].
    rewrite <- (Nat.negb_even nb). destruct (Nat.even nb); cbn [negb andb].
    + destruct (4 <=? nb)%nat; cbn [bind]; [|reflexivity].
      match goal with |- ?a = bind ?b _ => change a with b; destruct b; reflexivity end.
    + cbn [bind]. destruct (Nat.ltb_spec 3 nb), (Nat.leb_spec 3 nb); try lia; reflexivity.
Qed.
(** Three levels: the C code leaves the middle one as it finds it. *)
Theorem c_init_three p : length p = 6%nat -> exists x, c_init_bath 3 p = Ok x /\ nth 1 x None = nth 1 p None.
Proof.
  intros L. do 6 (destruct p as [|? p]; [discriminate|]). destruct p; [|discriminate]. eexists. split; reflexivity.
Qed.

(** ** Properties of the levels *)
Lemma blevel_sym nb B k : (2 <= nb)%nat -> (k < nb)%nat -> blevel nb B k = - blevel nb B (nb - 1 - k).
Proof.
  intros H Hk. unfold blevel. destruct (Nat.eqb_spec nb 1); [lia|]. destruct (Nat.odd nb) eqn:OD.
  - pose proof (odd_half nb OD) as HH. set (h := (nb / 2)%nat) in *. replace (nb - 1 - k)%nat with (2 * h - k)%nat by lia.
    assert (INR h <> 0) by (apply not_0_INR; lia). rewrite minus_INR, mult_INR by lia. replace (INR 2) with 2 by (simpl; ring). field. auto.
  - assert (EV : Nat.even nb = true) by (rewrite <- Nat.negb_odd, OD; reflexivity). pose proof (even_half nb EV) as HH. set (h := (nb / 2)%nat) in *.
    destruct (Nat.eqb_spec k 0) as [->|N0].
    { destruct (Nat.eqb_spec (nb - 1 - 0) 0); [lia|]. destruct (Nat.eqb_spec (nb - 1 - 0) (nb - 1)); [ring|lia]. }
    destruct (Nat.eqb_spec k (nb - 1)) as [->|N1].
    { destruct (Nat.eqb_spec (nb - 1 - (nb - 1)) 0); [ring|lia]. }
    destruct (Nat.eqb_spec (nb - 1 - k) 0); [lia|]. destruct (Nat.eqb_spec (nb - 1 - k) (nb - 1)); [lia|].
    destruct (Nat.eqb_spec k (h - 1)) as [->|N2].
    { destruct (Nat.eqb_spec (nb - 1 - (h - 1)) (h - 1)); [lia|]. destruct (Nat.eqb_spec (nb - 1 - (h - 1)) h); [ring|lia]. }
    destruct (Nat.eqb_spec k h) as [->|N3].
    { destruct (Nat.eqb_spec (nb - 1 - h) (h - 1)); [ring|lia]. }
    destruct (Nat.eqb_spec (nb - 1 - k) (h - 1)); [lia|]. destruct (Nat.eqb_spec (nb - 1 - k) h); [lia|].
    destruct (Nat.ltb_spec k h), (Nat.ltb_spec (nb - 1 - k) h); try lia.
    + replace (nb - 1 - (nb - 1 - k))%nat with k by lia. ring.
    + ring.
Qed.

Lemma blevel_even_sorted nb B : Nat.even nb = true -> (4 <= nb)%nat -> (strictly_increasing nb (blevel nb B) <-> 1 / 10 * INR (nb / 2 - 1) < B).
Proof.
  intros EV H4. pose proof (even_half nb EV) as HH. set (h := (nb / 2)%nat) in *. assert (Hh : (2 <= h)%nat) by lia.
  assert (OD : Nat.odd nb = false) by (rewrite <- Nat.negb_even, EV; reflexivity).
  assert (HP : 0 < INR (h - 1)) by (apply lt_0_INR; lia).
  assert (MX : Nat.max (h - 1) 1 = (h - 1)%nat) by lia.
  assert (LOW : forall k, (k < h - 1)%nat -> blevel nb B k = - B + INR k * (B / INR (h - 1))).
  { intros k Hk. unfold blevel. fold h. rewrite OD, MX. destruct (Nat.eqb_spec nb 1); [lia|]. destruct (Nat.eqb_spec k 0) as [->|]; [simpl; ring|].
    destruct (Nat.eqb_spec k (nb - 1)); [lia|]. destruct (Nat.eqb_spec k (h - 1)); [lia|]. destruct (Nat.eqb_spec k h); [lia|]. destruct (Nat.ltb_spec k h); [reflexivity|lia]. }
  assert (M1 : blevel nb B (h - 1) = - (1 / 10)).
  { unfold blevel. fold h. rewrite OD. destruct (Nat.eqb_spec nb 1); [lia|]. destruct (Nat.eqb_spec (h - 1) 0); [lia|]. destruct (Nat.eqb_spec (h - 1) (nb - 1)); [lia|]. now rewrite Nat.eqb_refl. }
  assert (KEY : blevel nb B (h - 2) < blevel nb B (h - 1) <-> 1 / 10 * INR (h - 1) < B).
  { rewrite M1, LOW by lia. replace (INR (h - 2)) with (INR (h - 1) - 1) by (replace (h - 1)%nat with (S (h - 2)) by lia; rewrite S_INR; ring).
    replace (- B + (INR (h - 1) - 1) * (B / INR (h - 1))) with (- (B / INR (h - 1))) by (field; lra).
    split; intros Q.
    - apply Ropp_lt_cancel in Q. apply (Rmult_lt_compat_r (INR (h - 1))) in Q; [|exact HP]. replace (B / INR (h - 1) * INR (h - 1)) with B in Q by (field; lra). lra.
    - apply Ropp_lt_contravar. apply (Rmult_lt_reg_r (INR (h - 1))); [exact HP|]. replace (B / INR (h - 1) * INR (h - 1)) with B by (field; lra). lra. }
  split.
  - intros S. apply KEY. specialize (S (h - 2)%nat ltac:(lia)). replace (Datatypes.S (h - 2)) with (h - 1)%nat in S by lia. exact S.
  - intros Q.
    assert (BP : 0 < B) by nra. assert (DP : 0 < B / INR (h - 1)) by (now apply Rdiv_lt_0_compat).
    assert (HALF : forall k, (S k < h)%nat -> blevel nb B k < blevel nb B (S k)).
    { intros k Hk. destruct (Nat.eq_dec (S k) (h - 1)) as [E|NE].
      - rewrite E. replace k with (h - 2)%nat by lia. now apply KEY.
      - rewrite !LOW by lia. rewrite S_INR. lra. }
    intros k Hk. destruct (lt_dec (S k) h) as [Lt|Ge]; [now apply HALF|].
    destruct (Nat.eq_dec k (h - 1)) as [->|NE].
    + rewrite M1. rewrite (blevel_sym nb B (S (h - 1))) by lia. replace (nb - 1 - S (h - 1))%nat with (h - 1)%nat by lia. rewrite M1. lra.
    + rewrite (blevel_sym nb B k), (blevel_sym nb B (S k)) by lia. apply Ropp_lt_contravar.
      replace (nb - 1 - k)%nat with (S (nb - 1 - S k)) by lia. apply HALF. lia.
Qed.
Lemma blevel_odd_sorted nb B : Nat.odd nb = true -> (3 <= nb)%nat -> (strictly_increasing nb (blevel nb B) <-> 0 < B).
Proof.
  intros OD H3. pose proof (odd_half nb OD) as HH. set (h := (nb / 2)%nat) in *. assert (HP : 0 < INR h) by (apply lt_0_INR; lia).
  assert (F : forall k, blevel nb B k = - B + INR k * (B / INR h)).
  { intros k. unfold blevel. fold h. rewrite OD. destruct (Nat.eqb_spec nb 1); [lia|]. reflexivity. }
  split.
  - intros S. specialize (S 0%nat ltac:(lia)). rewrite !F in S. simpl in S. assert (Q : 0 < B / INR h) by lra.
    apply (Rmult_lt_compat_r (INR h)) in Q; [|exact HP]. replace (B / INR h * INR h) with B in Q by (field; lra). lra.
  - intros P k Hk. rewrite !F, S_INR. assert (0 < B / INR h) by (now apply Rdiv_lt_0_compat). lra.
Qed.

(** ** Packaged *)
Lemma coup_ge nb : 1 / 10 <= coup nb.
Proof. apply Rmax_l. Qed.
Lemma gib_new nb B : (1 <= nb)%nat -> exists x, get_initial_bath None (Some nb) B = Ok (map Some x) /\ length x = (2 * nb)%nat /\
  (forall k, (k < nb)%nat -> nth k x 0 = blevel nb B k) /\ (forall k, (k < nb)%nat -> nth (nb + k) x 0 = coup nb).
Proof.
  intros H. destruct (init_levels_ok nb B (repeat None (2 * nb)) H ltac:(rewrite repeat_length; lia)) as (x & E & L & V). rewrite repeat_length in *.
  exists x. split; [exact E|]. split; [exact L|]. split; intros k Hk; rewrite V by lia.
  - destruct (Nat.ltb_spec k nb); [reflexivity|lia].
  - destruct (Nat.ltb_spec (nb + k) nb); [lia|reflexivity].
Qed.
Lemma blevel_first nb B : (2 <= nb)%nat -> blevel nb B 0 = - B.
Proof. intros H. unfold blevel. destruct (Nat.eqb_spec nb 1); [lia|]. destruct (Nat.odd nb); [simpl; ring|reflexivity]. Qed.

Theorem initial_bath_ok (nb : nat) (B : R) : (1 <= nb)%nat ->
  exists p x, get_initial_bath None (Some nb) B = Ok p /\ written p x /\ length x = (2 * nb)%nat /\
  (forall k, (k < nb)%nat -> nth (nb + k) x 0 = Rmax (1 / 10) (1 / sqrt (INR nb)) /\ 1 / 10 <= nth (nb + k) x 0) /\
  (nb = 1%nat -> nth 0 x 0 = B) /\
  ((2 <= nb)%nat -> nth 0 x 0 = - B /\ nth (nb - 1) x 0 = B /\ forall k, (k < nb)%nat -> nth k x 0 = - nth (nb - 1 - k) x 0) /\
  (Nat.odd nb = true -> (3 <= nb)%nat -> forall k, (k < nb)%nat -> nth k x 0 = - B + INR k * (B / INR (nb / 2))) /\
  (Nat.even nb = true -> (4 <= nb)%nat -> nth (nb / 2 - 1) x 0 = - (1 / 10) /\ nth (nb / 2) x 0 = 1 / 10 /\
     forall k, (k < nb / 2 - 1)%nat -> nth k x 0 = - B + INR k * (B / INR (nb / 2 - 1))).
Proof.
  intros H. destruct (gib_new nb B H) as (x & E & L & V & C). exists (map Some x), x. split; [exact E|]. split; [reflexivity|]. split; [exact L|].
  split; [intros k Hk; rewrite C by auto; split; [reflexivity|apply coup_ge]|]. split; [|split; [|split]].
  - intros ->. rewrite V by lia. reflexivity.
  - intros H2. rewrite !V by lia. split; [now apply blevel_first|]. split.
    + rewrite blevel_sym by lia. replace (nb - 1 - (nb - 1))%nat with 0%nat by lia. rewrite blevel_first by auto. ring.
    + intros k Hk. rewrite !V by lia. apply blevel_sym; lia.
  - intros OD H3 k Hk. rewrite V by auto. unfold blevel. rewrite OD. destruct (Nat.eqb_spec nb 1); [lia|reflexivity].
  - intros EV H4. pose proof (even_half nb EV) as HH. set (h := (nb / 2)%nat) in *. rewrite !V by lia.
    assert (OD : Nat.odd nb = false) by (rewrite <- Nat.negb_even, EV; reflexivity). unfold blevel. fold h. rewrite OD.
    destruct (Nat.eqb_spec nb 1); [lia|]. split; [|split].
    + destruct (Nat.eqb_spec (h - 1) 0); [lia|]. destruct (Nat.eqb_spec (h - 1) (nb - 1)); [lia|]. now rewrite Nat.eqb_refl.
    + destruct (Nat.eqb_spec h 0); [lia|]. destruct (Nat.eqb_spec h (nb - 1)); [lia|]. destruct (Nat.eqb_spec h (h - 1)); [lia|]. now rewrite Nat.eqb_refl.
    + intros k Hk. rewrite V by lia. unfold blevel. fold h. rewrite OD. destruct (Nat.eqb_spec nb 1); [lia|]. replace (Nat.max (h - 1) 1) with (h - 1)%nat by lia.
      destruct (Nat.eqb_spec k 0) as [->|]; [simpl; ring|].
      destruct (Nat.eqb_spec k (nb - 1)); [lia|]. destruct (Nat.eqb_spec k (h - 1)); [lia|]. destruct (Nat.eqb_spec k h); [lia|]. destruct (Nat.ltb_spec k h); [reflexivity|lia].
Qed.

Lemma map_Some_inj (x y : list R) : map Some x = map Some y -> x = y.
Proof. revert y. induction x as [|a x IH]; intros [|b y] E; try discriminate; [reflexivity|]. cbn in E. injection E as -> E. f_equal. now apply IH. Qed.
Lemma si_ext m e f : (forall k, (k < m)%nat -> e k = f k) -> strictly_increasing m e <-> strictly_increasing m f.
Proof. intros H. split; intros S k Hk; [rewrite <- !H by lia|rewrite !H by lia]; now apply S. Qed.
Theorem initial_bath_order (nb : nat) (B : R) (p : list (option R)) (x : list R) : (3 <= nb)%nat ->
  get_initial_bath None (Some nb) B = Ok p -> written p x ->
  (Nat.odd nb = true -> (strictly_increasing nb (fun k => nth k x 0) <-> 0 < B)) /\
  (Nat.even nb = true -> (strictly_increasing nb (fun k => nth k x 0) <-> 1 / 10 * INR (nb / 2 - 1) < B)).
Proof.
  intros H E W. destruct (gib_new nb B ltac:(lia)) as (y & E' & L & V & _). rewrite E' in E. injection E as E. unfold written in W. rewrite W in E. apply map_Some_inj in E. subst y.
  rewrite (si_ext nb _ (blevel nb B) V). split; intros Q; [now apply blevel_odd_sorted|apply blevel_even_sorted; auto].
  assert (nb <> 3%nat) by (intros ->; discriminate). lia.
Qed.
Theorem initial_bath_unsorted : exists p x, get_initial_bath None (Some 42%nat) 2 = Ok p /\ written p x /\ ~ strictly_increasing 42 (fun k => nth k x 0).
Proof.
  destruct (gib_new 42 2 ltac:(lia)) as (x & E & _). exists (map Some x), x. split; [exact E|]. split; [reflexivity|]. intros S.
  apply (initial_bath_order 42 2 _ x ltac:(lia) E eq_refl) in S; [|reflexivity]. change (42 / 2 - 1)%nat with 20%nat in S. replace (INR 20) with 20 in S by (simpl; ring). lra.
Qed.
Lemma init_levels_same nb B p q : (1 <= nb)%nat -> length p = (2 * nb)%nat -> length q = (2 * nb)%nat -> init_levels nb B p = init_levels nb B q.
Proof.
  intros H LP LQ. destruct (init_levels_ok nb B p H ltac:(lia)) as (x & -> & LX & VX). destruct (init_levels_ok nb B q H ltac:(lia)) as (y & -> & LY & VY).
  do 2 f_equal. apply (list_ext _ _ 0); [lia|]. intros j Hj. rewrite VX, VY by lia. reflexivity.
Qed.
Theorem initial_bath_given (nb : nat) (B : R) (p : list (option R)) : (1 <= nb)%nat -> length p = (2 * nb)%nat ->
  get_initial_bath (Some p) None B = get_initial_bath None (Some nb) B.
Proof.
  intros H L. unfold get_initial_bath. rewrite L. replace (2 * nb / 2)%nat with nb by (now rewrite Nat.mul_comm, Nat.div_mul by lia).
  apply init_levels_same; auto. now rewrite repeat_length.
Qed.
Theorem initial_bath_errors (nb : nat) (B : R) (p : list (option R)) :
  get_initial_bath None None B = Err TypeError /\ get_initial_bath (Some p) (Some nb) B = Err ValueError /\
  get_initial_bath None (Some 0%nat) B = Err IndexError.
Proof. repeat split. Qed.
Theorem c_init_python (nb : nat) (p : list (option R)) : (1 <= nb)%nat -> nb <> 3%nat -> length p = (2 * nb)%nat ->
  c_init_bath nb p = get_initial_bath None (Some nb) 2.
Proof.
  intros H N L. destruct (c_init_ok nb p H N L) as (x & -> & E). unfold get_initial_bath. rewrite <- E. apply init_levels_same; auto. now rewrite repeat_length.
Qed.
Theorem chi2_is_misfit (m : nat) (p : list R) (z vals : list cx) : length p = (2 * m)%nat -> length vals = length z ->
  chi2 z vals p = misfit (length z) m (fun i => nth i z (rcx 0)) (fun i => nth i vals (rcx 0)) (fun k => nth k p 0) (fun k => nth (m + k) p 0).
Proof. intros L LV. now apply chi2_misfit. Qed.
Theorem c_twin (m : nat) (x : list R) (z vals : list cx) (mem : list (list cx)) :
  length x = (2 * m)%nat -> length vals = length z -> length mem = length z -> (0 < length z)%nat ->
  c_chi2 m z vals x = chi2 z vals x /\ dchi2 z vals mem x = Ok (c_dchi2 m z vals mem x).
Proof. intros L LV LM P. split; [now apply c_chi2_eq|now apply c_dchi2_eq]. Qed.
