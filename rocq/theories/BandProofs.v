(** The band Lanczos method builds the matrix of the operator in an orthonormal basis. *)
From Coq Require Import List Arith ZArith Bool Lia Ring Field.
From Verif Require Import Base LanczosModel LanczosSpec LanczosProofs LanczosOrthoProofs BandModel BandSpec BandLoopProofs.
Import ListNotations.

Lemma NoDup_snoc {A} (l : list A) x : NoDup l -> ~ In x l -> NoDup (l ++ [x]).
Proof.
  intros ND NI. induction ND as [|y l Hy ND IH]; cbn [app]; constructor; auto using NoDup_nil.
  - intros H. apply in_app_or in H. destruct H as [H|[<-|[]]]; [auto|]. apply NI. now left.
  - apply IH. intros H. apply NI. now right.
Qed.

Section Band.
Variable K : CField.
Local Open Scope cr_scope.
Add Field Kfield : (fth K).
Notation nthK i x := (nth i x (c0 K)).

Lemma ent_snoc (V : list (list K)) v m i : (m < length V)%nat -> ent (V ++ [v]) m i = ent V m i.
Proof. intros H. unfold ent. now rewrite app_nth1. Qed.
Lemma ent_last (V : list (list K)) v i : ent (V ++ [v]) (length V) i = nthK i v.
Proof. unfold ent. rewrite app_nth2, Nat.sub_diag by lia. reflexivity. Qed.
Lemma comb_snoc (V : list (list K)) v c i : comb (V ++ [v]) c i = comb V c i + c (length V) * nthK i v.
Proof.
  unfold comb. rewrite app_length. cbn [length]. rewrite Nat.add_1_r, nsum_S, ent_last. f_equal. apply nsum_ext. intros m Hm. now rewrite ent_snoc.
Qed.
Lemma comb_ext (V : list (list K)) c c' i : (forall m, (m < length V)%nat -> c m = c' m) -> comb V c i = comb V c' i.
Proof. intros H. apply nsum_ext. intros m Hm. now rewrite H. Qed.
Lemma ip_sum d (x z : list K) (f g : nat -> K) : (forall i, (i < d)%nat -> nthK i z = f i + g i) -> ip d x z = nsum d (fun i => nthK i x * f i) + nsum d (fun i => nthK i x * g i).
Proof. intros H. unfold ip. rewrite <- nsum_add. apply nsum_ext. intros i Hi. rewrite H by auto. ring. Qed.
Lemma nsum_comb d (x : list K) (V : list (list K)) c : nsum d (fun i => nthK i x * comb V c i) = nsum (length V) (fun m => c m * ip d x (nth m V [])).
Proof.
  unfold comb, ip. rewrite (nsum_ext _ d _ (fun i => nsum (length V) (fun m => c m * (nthK i x * ent V m i)))).
  - rewrite nsum_swap. apply nsum_ext. intros m _. now rewrite nsum_scal_l.
  - intros i _. rewrite <- nsum_scal_l. apply nsum_ext. intros. ring.
Qed.
(** Against a vector orthogonal to V a combination of V vanishes. *)
Lemma nsum_comb_perp d (x : list K) (V : list (list K)) c : (forall m, (m < length V)%nat -> ip d x (nth m V []) = 0) -> nsum d (fun i => nthK i x * comb V c i) = 0.
Proof. intros H. rewrite nsum_comb. apply nsum_0. intros m Hm. rewrite H by auto. ring. Qed.
Lemma nsum_comb_on d (V : list (list K)) c l : orthonormal_rows d V -> (l < length V)%nat -> nsum d (fun i => nthK i (nth l V []) * comb V c i) = c l.
Proof.
  intros [_ ON] Hl. rewrite nsum_comb. rewrite (nsum_single _ _ _ l Hl).
  - rewrite ON, Nat.eqb_refl by auto. ring.
  - intros m Hm Hne. rewrite ON by auto. destruct (Nat.eqb_spec l m); [congruence|ring].
Qed.

Variables (sq : K -> K) (d : nat) (mv : list K -> res (list K)) (tiny : K -> bool) (maxn : nat) (phi0 : list (list K)).
Hypothesis Hmv : symmetric_op d mv.
Hypothesis Hsq : forall x : list K, length x = d -> sq (ip d x x) * sq (ip d x x) = ip d x x.
Hypothesis Ht : tiny 0 = true.
Hypothesis Hphi : forall x, In x phi0 -> length x = d.
Let L := length phi0.

Definition Av (x : list K) : list K := match mv x with Ok y => y | Err _ => [] end.
Lemma Av_ok x : length x = d -> mv x = Ok (Av x) /\ length (Av x) = d.
Proof. intros H. unfold Av. destruct (proj1 Hmv x H) as (y & -> & Ly). auto. Qed.
Lemma Av_sym x y : length x = d -> length y = d -> ip d x (Av y) = ip d (Av x) y.
Proof. intros Hx Hy. symmetry. apply (proj2 Hmv x y); auto; now apply Av_ok. Qed.

(** Column [j]: the starting vectors first, then the images of the basis vectors. *)
Definition target (V : list (list K)) (j : nat) : list K := if (j <? L)%nat then nth j phi0 [] else Av (nth (j - L) V []).
Definition wrap (j : nat) : nat := if (j <? L)%nat then (maxn - L + j)%nat else (j - L)%nat.

Definition dropped (T : nat -> nat -> K) (V : list (list K)) (j : nat) (r : list K) : Prop :=
  length r = d /\ tiny (sq (ip d r r)) = true /\
  forall i, (i < d)%nat -> nthK i (target V j) = comb V (fun m => T m (wrap j)) i + (if (j <? L)%nat then nthK i r else nthK i r - comb V (fun m => ip d (nth m V []) r) i).
Definition consumed (T : nat -> nat -> K) (V : list (list K)) (j : nat) : Prop :=
  forall i, (i < d)%nat -> nthK i (target V j) = comb V (fun m => T m (wrap j)) i.

Record inv (n Lc : nat) (T : nat -> nat -> K) (Is : list nat) (vk vl vd V : list (list K)) : Prop := mkinv {
  i_len : length V = n;
  i_on : orthonormal_rows d V;
  i_vk : length vk = Lc;
  i_vkd : forall x, In x vk -> length x = d;
  i_Lc : (Lc <= L)%nat;
  i_max : (n + L <= maxn)%nat;
  i_perp : forall c m, (c < Lc)%nat -> (m < n)%nat -> ip d (nth m V []) (nth c vk []) = 0;
  i_vl : vl = skipn (n - Lc) V;
  i_vd : vd = map (fun k => nth k V []) Is;
  i_Is : forall k, In k Is -> (k + Lc < n)%nat;
  i_nd : NoDup Is;
  i_rows : forall a b, (n <= a)%nat -> T a b = 0;
  i_cols : forall a b, (a < n)%nat -> (n <= b)%nat -> (b < maxn - L)%nat -> T a b = 0;
  i_sym : forall a b, (a < n)%nat -> (b < n)%nat -> T a b = T b a;
  i_open : forall c i, (c < Lc)%nat -> (i < d)%nat -> nthK i (target V (L + n - Lc + c)) = comb V (fun m => T m (wrap (L + n - Lc + c))) i + ent vk c i;
  i_done : forall j, (j + Lc < L + n)%nat -> (exists r, dropped T V j r /\ ((j < L)%nat \/ In (j - L)%nat Is)) \/ (consumed T V j /\ ((j < L)%nat \/ ~ In (j - L)%nat Is))
}.

Lemma inv_init : (L <= maxn)%nat -> inv 0 L (fun _ _ => 0) [] phi0 [] [] [].
Proof.
  assert (O0 : orthonormal_rows (K := K) d []) by (split; [intros v []|simpl; intros; lia]).
  intros HM. constructor; auto; try (intros; simpl in *; lia); try (intros; contradiction); try (now constructor).
  intros c i Hc Hi. replace (L + 0 - L + c)%nat with c by lia. unfold target, comb, ent. cbn [length]. rewrite nsum_0 by (intros; lia).
  destruct (Nat.ltb_spec c L); [ring|lia].
Qed.

Lemma skipn_tl {A} (l : list A) k : tl (skipn k l) = skipn (S k) l.
Proof. revert k. induction l as [|x l IH]; intros [|k]; try reflexivity. cbn [skipn]. apply IH. Qed.
Lemma skipn_nth {A} (l : list A) k (x0 : A) : (k < length l)%nat -> skipn k l = nth k l x0 :: skipn (S k) l.
Proof. revert k. induction l as [|x l IH]; intros [|k] H; cbn [length] in H; try lia; [reflexivity|]. cbn [nth]. change (skipn (S k) (x :: l)) with (skipn k l). rewrite IH by lia. reflexivity. Qed.

Lemma nth_skip {A} (l : list A) k c (x0 : A) : nth c (skipn k l) x0 = nth (k + c) l x0.
Proof. revert k. induction l as [|x l IH]; intros [|k]; cbn [skipn Nat.add nth]; auto; destruct c; reflexivity. Qed.

(** ** Deflation *)
Lemma defl_vl n Lc T Is v vk vl vd V : inv n Lc T Is (v :: vk) vl vd V ->
  (if Lc <=? n then match vl with u :: _ => Ok (Is ++ [n - Lc]%nat, vd ++ [u]) | [] => Err IndexError end else Ok (Is, vd)) =
  Ok (if Lc <=? n then Is ++ [n - Lc]%nat else Is, if Lc <=? n then vd ++ [nth (n - Lc) V []] else vd).
Proof.
  intros H. pose proof (i_vk _ _ _ _ _ _ _ _ H) as HL. cbn [length] in HL. destruct (Nat.leb_spec Lc n) as [Hn|Hn]; [|reflexivity].
  rewrite (i_vl _ _ _ _ _ _ _ _ H), (skipn_nth V (n - Lc) []) by (rewrite (i_len _ _ _ _ _ _ _ _ H); lia). reflexivity.
Qed.
Lemma inv_defl n Lc T Is v vk vl vd V : inv n Lc T Is (v :: vk) vl vd V -> tiny (sq (ip d v v)) = true ->
  inv n (Lc - 1) T (if Lc <=? n then Is ++ [n - Lc]%nat else Is) vk (if Lc - 1 <? length vl then tl vl else vl) (if Lc <=? n then vd ++ [nth (n - Lc) V []] else vd) V.
Proof.
  intros H Hv. destruct H as [Hlen Hon Hvk Hvkd HLc Hmax Hperp Hvl Hvd HIs Hnd Hrows Hcols Hsym Hopen Hdone]. cbn [length] in Hvk.
  constructor; auto; try lia.
  - auto using in_cons.
  - intros c m Hc Hm. exact (Hperp (S c) m ltac:(lia) Hm).
  - rewrite Hvl, skipn_length, Hlen. destruct (Nat.ltb_spec (Lc - 1) (n - (n - Lc))).
    + rewrite skipn_tl. f_equal. lia.
    + replace (n - Lc)%nat with O by lia. now replace (n - (Lc - 1))%nat with O by lia.
  - rewrite Hvd. destruct (Lc <=? n); [|reflexivity]. now rewrite map_app.
  - intros k Hk. destruct (Nat.leb_spec Lc n); [|specialize (HIs k Hk); lia]. apply in_app_or in Hk. destruct Hk as [Hk|[<-|[]]]; [specialize (HIs k Hk); lia|lia].
  - destruct (Nat.leb_spec Lc n); [|exact Hnd]. apply NoDup_snoc; [exact Hnd|]. intros Hk. specialize (HIs _ Hk). lia.
  - intros c i Hc Hi. specialize (Hopen (S c) i ltac:(lia) Hi). replace (L + n - (Lc - 1) + c)%nat with (L + n - Lc + S c)%nat by lia. exact Hopen.
  - intros j Hj.
    assert (IN : forall k, In k (if Lc <=? n then Is ++ [n - Lc]%nat else Is) <-> In k Is \/ (Lc <= n)%nat /\ k = (n - Lc)%nat).
    { intros k. destruct (Nat.leb_spec Lc n); [rewrite in_app_iff; cbn [In]|]; intuition lia. }
    destruct (Nat.eq_dec j (L + n - Lc)) as [->|Hne].
    + left. exists v. split.
      * split; [apply Hvkd, in_eq|]. split; [exact Hv|]. intros i Hi. specialize (Hopen O i ltac:(lia) Hi). rewrite Nat.add_0_r in Hopen. rewrite Hopen. f_equal.
        unfold ent. cbn [nth]. destruct (Nat.ltb_spec (L + n - Lc) L); [reflexivity|]. unfold comb. rewrite nsum_0; [ring|].
        intros m Hm. specialize (Hperp O m ltac:(lia) ltac:(lia)). cbn [nth] in Hperp. rewrite Hperp. ring.
      * destruct (Nat.lt_ge_cases (L + n - Lc) L); [now left|]. right. apply IN. right. lia.
    + destruct (Hdone j ltac:(lia)) as [(r & D & Q)|[C Q]].
      * left. exists r. split; [exact D|]. destruct Q as [Q|Q]; [now left|]. right. apply IN. now left.
      * right. split; [exact C|]. destruct Q as [Q|Q]; [now left|]. destruct (Nat.lt_ge_cases j L); [now left|]. right. intros F. apply IN in F. destruct F as [F|F]; [auto|lia].
Qed.

(** ** A new basis vector *)
Lemma wrap_inj n j j' : (n + L <= maxn)%nat -> (j < L + n)%nat -> (j' < L + n)%nat -> wrap j = wrap j' -> j = j'.
Proof. intros H Hj Hj'. unfold wrap. destruct (Nat.ltb_spec j L), (Nat.ltb_spec j' L); lia. Qed.
Lemma col_wrap n Lc k : (S n + L <= maxn)%nat -> (Lc <= L)%nat -> (n <= k)%nat -> (k < n + Lc)%nat -> col maxn (Z.of_nat k - Z.of_nat Lc) = Ok (wrap (L + k - Lc)).
Proof.
  intros HM HL Hk Hk'. unfold col, wrap.
  destruct (Z.leb_spec 0 (Z.of_nat k - Z.of_nat Lc)) as [A|A]; cbn [andb].
  - destruct (Z.ltb_spec (Z.of_nat k - Z.of_nat Lc) (Z.of_nat maxn)); [|lia]. destruct (Nat.ltb_spec (L + k - Lc) L); [lia|]. f_equal. lia.
  - destruct (Z.ltb_spec (Z.of_nat k - Z.of_nat Lc) 0); [|lia]. destruct (Z.leb_spec (- Z.of_nat maxn) (Z.of_nat k - Z.of_nat Lc)); [|lia]. cbn [andb].
    destruct (Nat.ltb_spec (L + k - Lc) L); [|lia]. f_equal. lia.
Qed.
Lemma NoDup_map_in {A B} (f : A -> B) l : (forall x y, In x l -> In y l -> f x = f y -> x = y) -> NoDup l -> NoDup (map f l).
Proof.
  intros H ND. induction ND as [|x l Hx ND IH]; cbn [map]; constructor.
  - intros F. apply in_map_iff in F. destruct F as (y & E & Hy). apply Hx. rewrite (H x y); auto using in_eq, in_cons.
  - apply IH. auto using in_cons.
Qed.

Section Step.
Variables (n Lc : nat) (T : nat -> nat -> K) (Is : list nat) (v : list K) (vk vl vd V : list (list K)).
Hypothesis H : inv n Lc T Is (v :: vk) vl vd V.
Hypothesis HM : (S n + L <= maxn)%nat.
Let b := sq (ip d v v).
Hypothesis Hb : tiny b = false.
Let v' := map (fun t => t / b) v.
Let w0 := Av v'.
Let V' := V ++ [v'].

Lemma b_nz : b <> 0.
Proof. intros E. rewrite E in Hb. congruence. Qed.
Lemma Lv : length v = d.
Proof. apply (i_vkd _ _ _ _ _ _ _ _ H), in_eq. Qed.
Lemma Lv' : length v' = d.
Proof. unfold v'. rewrite map_length. apply Lv. Qed.
Lemma v'_nth i : nthK i v = b * nthK i v'.
Proof.
  pose proof b_nz as NZ. assert (E : nthK i v' = nthK i v / b); [|rewrite E; field; exact NZ].
  unfold v'. transitivity (nth i (map (fun t => t / b) v) (0 / b)); [f_equal; field; exact NZ|]. exact (map_nth (fun t => t / b) v 0 i).
Qed.
Lemma ip_v (x : list K) : ip d x v = b * ip d x v'.
Proof. unfold ip. rewrite <- nsum_scal_l. apply nsum_ext. intros i _. rewrite v'_nth. ring. Qed.
Lemma v'_norm : ip d v' v' = 1.
Proof.
  assert (E : b * b * ip d v' v' = b * b * 1).
  { transitivity (ip d v v); [rewrite (ip_v v), (ip_comm K d v v'), (ip_v v'); ring|]. unfold b. rewrite Hsq by apply Lv. ring. }
  pose proof b_nz as NZ. assert (G : forall x y : K, b * b * x = b * b * y -> x = y).
  { intros x y Q. replace x with (b * b * x / (b * b)) by (field; auto). rewrite Q. field; auto. }
  exact (G _ _ E).
Qed.
Lemma v'_perp m : (m < n)%nat -> ip d (nth m V []) v' = 0.
Proof.
  intros Hm. pose proof (i_perp _ _ _ _ _ _ _ _ H O m) as P. pose proof (i_vk _ _ _ _ _ _ _ _ H) as LK. cbn [length] in LK. specialize (P ltac:(lia) Hm). cbn [nth] in P.
  rewrite ip_v in P. replace (ip d (nth m V []) v') with (b * ip d (nth m V []) v' / b) by (field; apply b_nz). rewrite P. field. apply b_nz.
Qed.
Lemma len_V : length V = n.
Proof. exact (i_len _ _ _ _ _ _ _ _ H). Qed.
Lemma Vd m : (m < n)%nat -> length (nth m V []) = d.
Proof. intros Hm. apply (proj1 (i_on _ _ _ _ _ _ _ _ H)), nth_In. rewrite len_V. exact Hm. Qed.
Lemma V'_old m : (m < n)%nat -> nth m V' [] = nth m V [].
Proof. intros Hm. unfold V'. apply app_nth1. rewrite len_V. exact Hm. Qed.
Lemma V'_new : nth n V' [] = v'.
Proof. unfold V'. rewrite app_nth2, len_V, Nat.sub_diag by (rewrite len_V; lia). reflexivity. Qed.
Lemma V'_on : orthonormal_rows d V'.
Proof.
  split.
  - intros x Hx. apply in_app_or in Hx. destruct Hx as [Hx|[<-|[]]]; [now apply (proj1 (i_on _ _ _ _ _ _ _ _ H))|apply Lv'].
  - unfold V' at 1 2. rewrite app_length, len_V. cbn [length]. intros i j Hi Hj.
    destruct (Nat.eq_dec i n) as [->|Ni], (Nat.eq_dec j n) as [->|Nj]; rewrite ?V'_new, ?V'_old by lia.
    + rewrite Nat.eqb_refl. apply v'_norm.
    + rewrite ip_comm, v'_perp by lia. destruct (Nat.eqb_spec n j); [lia|reflexivity].
    + rewrite v'_perp by lia. destruct (Nat.eqb_spec i n); [lia|reflexivity].
    + apply (proj2 (i_on _ _ _ _ _ _ _ _ H)); rewrite len_V; lia.
Qed.

Lemma Lc_vk : Lc = S (length vk).
Proof. pose proof (i_vk _ _ _ _ _ _ _ _ H) as LK. cbn [length] in LK. lia. Qed.
Lemma isb_lt k : existsb (Nat.eqb k) Is = true -> (k + Lc < n)%nat.
Proof. intros E. apply existsb_exists in E. destruct E as (x & Hx & E). apply Nat.eqb_eq in E. subst x. now apply (i_Is _ _ _ _ _ _ _ _ H). Qed.
Lemma isb_in k : existsb (Nat.eqb k) Is = true <-> In k Is.
Proof. split; intros E; [apply existsb_exists in E; destruct E as (x & Hx & E); apply Nat.eqb_eq in E; now subst x|apply existsb_exists; exists k; split; [exact E|apply Nat.eqb_refl]]. Qed.

(** Overlaps of the candidates with the new vector. *)
Definition acoef (c : nat) : K := ip d v' (nth c (v :: vk) []).
Lemma acoef_0 : acoef 0 = b.
Proof. unfold acoef. cbn [nth]. rewrite ip_v, v'_norm. ring. Qed.

Definition jj (c : nat) : nat := (L + n - Lc + c)%nat.
Lemma next_ok : exists T1 vk1, next_loop K maxn n Lc v' (seq (S n) (Lc - 1)) (put K T n (wrap (L + n - Lc)) b) vk = Ok (T1, vk1) /\
  length vk1 = length vk /\ (forall x, In x vk1 -> length x = d) /\
  (forall c i, (c < length vk)%nat -> ent vk1 c i = ent vk c i - acoef (S c) * nthK i v') /\
  (forall c, (c < Lc)%nat -> T1 n (wrap (jj c)) = acoef c) /\
  (forall x y, x <> n \/ (forall c, (c < Lc)%nat -> y <> wrap (jj c)) -> T1 x y = T x y).
Proof.
  pose proof Lc_vk as LK. pose proof (i_Lc _ _ _ _ _ _ _ _ H) as HLc.
  destruct (next_loop_spec K d maxn n Lc v' (fun k => wrap (L + k - Lc)) Lv' (seq (S n) (Lc - 1)) vk (put K T n (wrap (L + n - Lc)) b)) as (T1 & vk1 & E & L1 & D1 & X1 & C1 & O1).
  - rewrite seq_length. lia.
  - intros x Hx. apply (i_vkd _ _ _ _ _ _ _ _ H). now right.
  - intros k Hk. apply in_seq in Hk. apply (col_wrap n); lia.
  - apply NoDup_map_in; [|apply seq_NoDup]. intros x y Hx Hy Q. apply in_seq in Hx, Hy. apply (wrap_inj n) in Q; lia.
  - rewrite seq_length in X1, C1.
    assert (W0 : forall c, (S c < Lc)%nat -> wrap (jj (S c)) = wrap (L + nth c (seq (S n) (Lc - 1)) O - Lc)).
    { intros c Hc. rewrite seq_nth by lia. f_equal. unfold jj. lia. }
    exists T1, vk1. split; [exact E|]. split; [exact L1|]. split; [exact D1|]. split; [intros c i Hc; apply X1; lia|]. split.
    + intros [|c] Hc.
      * rewrite O1.
        -- unfold put. replace (jj 0) with (L + n - Lc)%nat by (unfold jj; lia). rewrite !Nat.eqb_refl. cbn [andb]. symmetry. exact acoef_0.
        -- right. intros F. apply in_map_iff in F. destruct F as (k & Q & Hk). apply in_seq in Hk. apply (wrap_inj n) in Q; unfold jj in *; lia.
      * rewrite (W0 c Hc). apply C1. lia.
    + intros x y Q. rewrite O1.
      * unfold put. destruct (Nat.eqb_spec x n); [|reflexivity]. destruct (Nat.eqb_spec y (wrap (L + n - Lc))) as [->|]; [|reflexivity].
        destruct Q as [Q|Q]; [congruence|]. exfalso. apply (Q O); [lia|]. f_equal. unfold jj. lia.
      * destruct Q as [Q|Q]; [now left|]. right. intros F. apply in_map_iff in F. destruct F as (k & <- & Hk). apply in_seq in Hk. apply (Q (k - n)%nat); [lia|]. f_equal. unfold jj. lia.
Qed.

Section Rows.
Variables (T1 : nat -> nat -> K) (vk1 : list (list K)).
Hypothesis L1 : length vk1 = length vk. Hypothesis D1 : forall x, In x vk1 -> length x = d.
Hypothesis X1 : forall c i, (c < length vk)%nat -> ent vk1 c i = ent vk c i - acoef (S c) * nthK i v'.
Hypothesis C1 : forall c, (c < Lc)%nat -> T1 n (wrap (jj c)) = acoef c.
Hypothesis O1 : forall x y, x <> n \/ (forall c, (c < Lc)%nat -> y <> wrap (jj c)) -> T1 x y = T x y.

(** The new column. *)
Definition colC (m : nat) : K :=
  if (m =? n)%nat then ip d v' w0 else if (n - Lc <=? m)%nat then T1 n m else if existsb (Nat.eqb m) Is then ip d (nth m V []) w0 else 0.

Lemma Lw0 : length w0 = d.
Proof. apply Av_ok, Lv'. Qed.
Lemma band_acoef m : (m < n)%nat -> (n - Lc <= m)%nat -> T1 n m = acoef (m + Lc - n) /\ (m + Lc - n < Lc)%nat /\ jj (m + Lc - n) = (L + m)%nat.
Proof.
  intros Hm Hb'. pose proof (i_Lc _ _ _ _ _ _ _ _ H). assert (Q : (m + Lc - n < Lc)%nat) by lia. assert (J : jj (m + Lc - n) = (L + m)%nat) by (unfold jj; lia).
  split; [|auto]. rewrite <- (C1 _ Q), J. unfold wrap. destruct (Nat.ltb_spec (L + m) L); [lia|]. f_equal. lia.
Qed.
Lemma target_V m : target V (L + m) = Av (nth m V []).
Proof. unfold target. destruct (Nat.ltb_spec (L + m) L); [lia|]. do 2 f_equal. lia. Qed.
Lemma perp_comb c : nsum d (fun i => nthK i v' * comb V c i) = 0.
Proof. apply nsum_comb_perp. rewrite len_V. intros m Hm. rewrite ip_comm. now apply v'_perp. Qed.
Lemma col_ip m : (m < n)%nat -> ip d (nth m V []) w0 = colC m.
Proof.
  intros Hm. unfold colC. destruct (Nat.eqb_spec m n); [lia|]. destruct (Nat.leb_spec (n - Lc) m) as [B|B].
  - destruct (band_acoef m Hm B) as (-> & Q & J). unfold w0. rewrite Av_sym by (auto using Vd, Lv'). rewrite ip_comm, <- target_V, <- J.
    rewrite (ip_sum d v' _ (comb V (fun l => T l (wrap (jj (m + Lc - n))))) (fun i => ent (v :: vk) (m + Lc - n) i)) by (intros i Hi; now apply (i_open _ _ _ _ _ _ _ _ H)).
    rewrite perp_comb. unfold acoef, ip, ent. ring.
  - destruct (existsb (Nat.eqb m) Is) eqn:E; [reflexivity|]. unfold w0. rewrite Av_sym by (auto using Vd, Lv'). rewrite ip_comm, <- target_V.
    destruct (i_done _ _ _ _ _ _ _ _ H (L + m)%nat ltac:(lia)) as [(r & _ & [Q|Q])|[C _]]; [lia| |].
    + exfalso. replace (L + m - L)%nat with m in Q by lia. apply isb_in in Q. congruence.
    + unfold ip. rewrite (nsum_ext _ d _ (fun i => nthK i v' * comb V (fun l => T l (wrap (L + m))) i)) by (intros i Hi; now rewrite C). apply perp_comb.
Qed.
Lemma colC_n : colC n = ip d v' w0.
Proof. unfold colC. now rewrite Nat.eqb_refl. Qed.

Lemma comb_colC i : comb V colC i =
  nsum (n - (n - Lc)) (fun c => T1 n (n - Lc + c)%nat * ent (skipn (n - Lc) V) c i) + nsum (length Is) (fun c => ip d (nth (nth c Is O) V []) w0 * ent V (nth c Is O) i).
Proof.
  rewrite (bsum_indicator K n (fun k => ip d (nth k V []) w0 * ent V k i) Is (i_nd _ _ _ _ _ _ _ _ H)) by (intros k Hk; pose proof (i_Is _ _ _ _ _ _ _ _ H k Hk); lia).
  assert (A : nsum (n - (n - Lc)) (fun c => T1 n (n - Lc + c)%nat * ent (skipn (n - Lc) V) c i) = nsum n (fun m => if (n - Lc <=? m)%nat then T1 n m * ent V m i else 0)).
  { transitivity (nsum ((n - Lc) + (n - (n - Lc)))%nat (fun m => if (n - Lc <=? m)%nat then T1 n m * ent V m i else 0)); [|f_equal; lia]. rewrite nsum_split. rewrite (nsum_0 _ (n - Lc)).
    - rewrite (nsum_ext _ _ _ (fun c => if (n - Lc <=? n - Lc + c)%nat then T1 n (n - Lc + c)%nat * ent V (n - Lc + c) i else 0)); [ring|].
      intros c Hc. destruct (Nat.leb_spec (n - Lc) (n - Lc + c)); [|lia]. unfold ent. rewrite nth_skip. reflexivity.
    - intros m Hm. destruct (Nat.leb_spec (n - Lc) m); [lia|reflexivity]. }
  rewrite A, <- nsum_add. unfold comb. rewrite len_V. apply nsum_ext. intros m Hm. unfold colC. destruct (Nat.eqb_spec m n); [lia|].
  destruct (Nat.leb_spec (n - Lc) m) as [B|B]; destruct (existsb (Nat.eqb m) Is) eqn:E; try ring. apply isb_lt in E. lia.
Qed.

Lemma prev_defl_ok : exists T2 w1 T3 w2 w3, prev_loop K n (seq (n - Lc) (n - (n - Lc))) vl T1 w0 = Ok (T2, w1) /\ defl_loop K n Is vd T2 w1 = Ok (T3, w2) /\
  dot K v' w2 = Ok (ip d v' w0) /\ vsub K w2 (ip d v' w0) v' = Ok w3 /\ length w3 = d /\
  (forall i, nthK i w3 = nthK i w0 - comb V' colC i) /\
  let T5 := mirror K n Is (put K T3 n n (ip d v' w0)) in
  (forall m, (m <= n)%nat -> T5 m n = colC m) /\
  (forall m y, (m < n)%nat -> y <> n -> T5 m y = T m y) /\
  (forall y, y <> n -> T5 n y = if existsb (Nat.eqb y) Is then colC y else T1 n y) /\
  (forall x y, (n < x)%nat -> T5 x y = 0).
Proof.
  pose proof (i_vl _ _ _ _ _ _ _ _ H) as EL. pose proof (i_vd _ _ _ _ _ _ _ _ H) as ED. pose proof (proj2 (i_on _ _ _ _ _ _ _ _ H)) as ON. rewrite len_V in ON.
  destruct (prev_loop_spec K d n (n - (n - Lc)) (n - Lc) vl T1 w0) as (T2 & w1 & E2 & L2 & N2 & P2); auto using Lw0; try lia.
  { rewrite EL, skipn_length, len_V. lia. }
  { intros x Hx. apply (proj1 (i_on _ _ _ _ _ _ _ _ H)). rewrite EL in Hx. rewrite <- (firstn_skipn (n - Lc) V). apply in_or_app. now right. }
  rewrite EL in N2.
  assert (NV : forall c, (c < length Is)%nat -> nth c vd [] = nth (nth c Is O) V []).
  { intros c Hc. rewrite ED. rewrite (nth_indep _ [] (nth O V [])) by (rewrite map_length; exact Hc). rewrite (map_nth (fun k => nth k V []) Is O c). reflexivity. }
  assert (IK : forall c, (c < length Is)%nat -> (nth c Is O + Lc < n)%nat) by (intros c Hc; apply (i_Is _ _ _ _ _ _ _ _ H), nth_In, Hc).
  assert (LD : length vd = length Is) by (rewrite ED; apply map_length).
  destruct (defl_loop_spec K d n Is vd T2 w1) as (T3 & w2 & E3 & L3 & N3 & C3 & O3); auto.
  { intros x Hx. apply (In_nth _ _ []) in Hx. destruct Hx as (c & Hc & <-). rewrite LD in Hc. rewrite NV by auto. apply Vd. specialize (IK c Hc). lia. }
  { exact (i_nd _ _ _ _ _ _ _ _ H). }
  { rewrite LD. intros i j Hi Hj. rewrite !NV by auto. rewrite ON by (pose proof (IK i Hi); pose proof (IK j Hj); lia).
    destruct (Nat.eqb_spec i j) as [->|Hne]; [now rewrite Nat.eqb_refl|]. destruct (Nat.eqb_spec (nth i Is O) (nth j Is O)) as [Q|]; [|reflexivity].
    exfalso. apply Hne. exact (proj1 (NoDup_nth Is O) (i_nd _ _ _ _ _ _ _ _ H) i j Hi Hj Q). }
  assert (IW1 : forall x, (forall c, (c < n - (n - Lc))%nat -> ip d x (nth (n - Lc + c) V []) = 0) -> ip d x w1 = ip d x w0).
  { intros x Hx. unfold ip at 1. rewrite (nsum_ext _ d _ (fun i => nthK i x * nthK i w0 - nsum (n - (n - Lc)) (fun c => T1 n (n - Lc + c)%nat * (nthK i x * ent (skipn (n - Lc) V) c i)))).
    - rewrite nsum_sub, nsum_swap. rewrite (nsum_0 _ (n - (n - Lc))); [unfold ip; ring|]. intros c Hc. rewrite nsum_scal_l.
      specialize (Hx c Hc). unfold ip in Hx. unfold ent. rewrite nth_skip. rewrite Hx. ring.
    - intros i _. rewrite N2. rewrite (nsum_ext _ _ (fun c => T1 n (n - Lc + c)%nat * (nthK i x * ent (skipn (n - Lc) V) c i)) (fun c => nthK i x * (T1 n (n - Lc + c)%nat * ent (skipn (n - Lc) V) c i))) by (intros; ring). rewrite nsum_scal_l. ring. }
  assert (IW : forall c, (c < length Is)%nat -> ip d (nth c vd []) w1 = ip d (nth (nth c Is O) V []) w0).
  { intros c Hc. rewrite NV by auto. apply IW1. intros k Hk. specialize (IK c Hc). rewrite ON by lia. destruct (Nat.eqb_spec (nth c Is O) (n - Lc + k)); [lia|reflexivity]. }
  assert (IV : ip d v' w2 = ip d v' w0).
  { unfold ip at 1. rewrite (nsum_ext _ d _ (fun i => nthK i v' * nthK i w1 - nsum (length Is) (fun c => ip d (nth c vd []) w1 * (nthK i v' * ent vd c i)))).
    - rewrite nsum_sub, nsum_swap. rewrite (nsum_0 _ (length Is)).
      + change (nsum d (fun i => nthK i v' * nthK i w1)) with (ip d v' w1). rewrite IW1; [ring|]. intros c Hc. rewrite ip_comm. apply v'_perp. lia.
      + intros c Hc. rewrite nsum_scal_l. change (nsum d (fun i => nthK i v' * ent vd c i)) with (ip d v' (nth c vd [])). rewrite NV, (ip_comm K d v'), v'_perp by (auto; specialize (IK c Hc); lia). ring.
    - intros i _. rewrite N3. rewrite (nsum_ext _ (length Is) (fun c => ip d (nth c vd []) w1 * (nthK i v' * ent vd c i)) (fun c => nthK i v' * (ip d (nth c vd []) w1 * ent vd c i))) by (intros; ring). rewrite nsum_scal_l. ring. }
  destruct (vsub_ok K d w2 v' (ip d v' w0) L3 Lv') as (w3 & E5 & L5 & N5).
  exists T2, w1, T3, w2, w3. split; [exact E2|]. split; [exact E3|]. split; [rewrite (dot_ok K d) by auto using Lv'; now rewrite IV|]. split; [exact E5|]. split; [exact L5|].
  assert (T2x : forall x y, (n <= x)%nat \/ y <> n -> T2 x y = T1 x y).
  { intros x y Q. rewrite P2. destruct (Nat.eqb_spec y n); cbn [andb]; [|reflexivity]. destruct (Nat.ltb_spec x (n - Lc + (n - (n - Lc)))); [lia|]. now rewrite andb_false_r. }
  split; [|cbv zeta; split; [|split; [|split]]].
  - intros i. rewrite N5, N3, N2. unfold V'. rewrite comb_snoc, comb_colC, len_V, colC_n.
    rewrite (nsum_ext _ (length Is) (fun c => ip d (nth c vd []) w1 * ent vd c i) (fun c => ip d (nth (nth c Is O) V []) w0 * ent V (nth c Is O) i)); [ring|].
    intros c Hc. rewrite IW by auto. unfold ent. now rewrite NV.
  - intros m Hm. rewrite mirror_spec by (intros k Hk; pose proof (i_Is _ _ _ _ _ _ _ _ H k Hk); lia).
    destruct (existsb (Nat.eqb n) Is) eqn:E; [apply isb_lt in E; lia|]. rewrite andb_false_r. unfold put. rewrite Nat.eqb_refl, andb_true_r. unfold colC.
    destruct (Nat.eqb_spec m n); [reflexivity|]. destruct (existsb (Nat.eqb m) Is) eqn:EI.
    + pose proof (isb_lt m EI). apply isb_in in EI. apply (In_nth _ _ O) in EI. destruct EI as (c & Hc & <-). rewrite C3, IW by auto.
      destruct (Nat.leb_spec (n - Lc) (nth c Is O)); [lia|reflexivity].
    + rewrite O3 by (right; intros F; apply isb_in in F; congruence). rewrite P2, Nat.eqb_refl. cbn [andb]. destruct (Nat.leb_spec (n - Lc) m); cbn [andb].
      * destruct (Nat.ltb_spec m (n - Lc + (n - (n - Lc)))); [reflexivity|lia].
      * rewrite O1 by (left; lia). apply (i_cols _ _ _ _ _ _ _ _ H); lia.
  - intros m y Hm Hy. rewrite mirror_spec by (intros k Hk; pose proof (i_Is _ _ _ _ _ _ _ _ H k Hk); lia). destruct (Nat.eqb_spec m n); [lia|]. cbn [andb]. unfold put. destruct (Nat.eqb_spec m n); [lia|]. cbn [andb].
    rewrite O3, T2x, O1 by (auto; left; lia). reflexivity.
  - intros y Hy. rewrite mirror_spec by (intros k Hk; pose proof (i_Is _ _ _ _ _ _ _ _ H k Hk); lia). rewrite Nat.eqb_refl. cbn [andb]. unfold put.
    destruct (existsb (Nat.eqb y) Is) eqn:EI.
    + destruct (Nat.eqb_spec y n); [lia|]. cbn [andb]. unfold colC. pose proof (isb_lt y EI). destruct (Nat.eqb_spec y n); [lia|]. destruct (Nat.leb_spec (n - Lc) y); [lia|].
      rewrite EI. apply isb_in in EI. apply (In_nth _ _ O) in EI. destruct EI as (c & Hc & <-). rewrite C3, IW by auto. reflexivity.
    + destruct (Nat.eqb_spec y n); [lia|]. rewrite andb_false_r. rewrite O3, T2x by (auto; left; lia). reflexivity.
  - intros x y Hx. rewrite mirror_spec by (intros k Hk; pose proof (i_Is _ _ _ _ _ _ _ _ H k Hk); lia). destruct (Nat.eqb_spec x n); [lia|]. cbn [andb]. unfold put. destruct (Nat.eqb_spec x n); [lia|]. cbn [andb].
    rewrite O3, T2x, O1; [apply (i_rows _ _ _ _ _ _ _ _ H); lia|left; lia|left; lia|]. right. intros F. pose proof (i_Is _ _ _ _ _ _ _ _ H x F). lia.
Qed.

Lemma row_zero y : (forall c, (c < Lc)%nat -> y <> wrap (jj c)) -> T1 n y = 0.
Proof. intros Q. rewrite O1 by (right; exact Q). apply (i_rows _ _ _ _ _ _ _ _ H). lia. Qed.
Lemma wrap_Is j : (j < L + n)%nat -> existsb (Nat.eqb (wrap j)) Is = true -> (L <= j)%nat /\ In (j - L)%nat Is /\ wrap j = (j - L)%nat.
Proof.
  intros Hj E. pose proof (isb_lt _ E) as Q. apply isb_in in E. unfold wrap in *. destruct (Nat.ltb_spec j L); [lia|]. auto.
Qed.
Lemma wrap_n j : (j < L + n)%nat -> wrap j <> n.
Proof. intros Hj. unfold wrap. destruct (Nat.ltb_spec j L); lia. Qed.
Lemma target_old j : (j < L + n)%nat -> target V' j = target V j.
Proof. intros Hj. unfold target. destruct (Nat.ltb_spec j L); [reflexivity|]. now rewrite V'_old by lia. Qed.

Lemma inv_step T5 w3 : length w3 = d -> (forall i, nthK i w3 = nthK i w0 - comb V' colC i) ->
  (forall m, (m <= n)%nat -> T5 m n = colC m) -> (forall m y, (m < n)%nat -> y <> n -> T5 m y = T m y) ->
  (forall y, y <> n -> T5 n y = if existsb (Nat.eqb y) Is then colC y else T1 n y) -> (forall x y, (n < x)%nat -> T5 x y = 0) ->
  inv (S n) Lc T5 Is (vk1 ++ [w3]) ((if length vl =? Lc then tl vl else vl) ++ [v']) vd V'.
Proof.
  intros L3 N3 FC F1 F2 F3. pose proof Lc_vk as LK. pose proof (i_Lc _ _ _ _ _ _ _ _ H) as HLc. pose proof (i_Is _ _ _ _ _ _ _ _ H) as HIs.
  assert (CB : forall j i, (j < L + n)%nat -> comb V' (fun m => T5 m (wrap j)) i = comb V (fun m => T m (wrap j)) i + T5 n (wrap j) * nthK i v').
  { intros j i Hj. unfold V'. rewrite comb_snoc, len_V. f_equal. apply comb_ext. rewrite len_V. intros m Hm. apply F1; [exact Hm|]. now apply wrap_n. }
  assert (RB : forall c, (c < Lc)%nat -> T5 n (wrap (jj c)) = acoef c).
  { intros c Hc. assert (JL : (jj c < L + n)%nat) by (unfold jj; lia). rewrite F2 by now apply wrap_n. destruct (existsb (Nat.eqb (wrap (jj c))) Is) eqn:E; [|now apply C1].
    destruct (wrap_Is _ JL E) as (Q1 & Q2 & _). specialize (HIs _ Q2). unfold jj in *. lia. }
  assert (RZ : forall j, (j + Lc < L + n)%nat -> (j < L)%nat \/ ~ In (j - L)%nat Is -> T5 n (wrap j) = 0).
  { intros j Hj Q. rewrite F2 by (apply wrap_n; lia). destruct (existsb (Nat.eqb (wrap j)) Is) eqn:E.
    - destruct (wrap_Is j ltac:(lia) E) as (Q1 & Q2 & _). destruct Q as [Q|Q]; [lia|contradiction].
    - apply row_zero. intros c Hc F. apply (wrap_inj n) in F; unfold jj in *; lia. }
  constructor.
  - unfold V'. rewrite app_length, len_V. cbn [length]. lia.
  - exact V'_on.
  - rewrite app_length. cbn [length]. lia.
  - intros x Hx. apply in_app_or in Hx. destruct Hx as [Hx|[<-|[]]]; auto.
  - exact HLc.
  - lia.
  - intros c m Hc Hm. destruct (Nat.eq_dec c (length vk)) as [->|Hne].
    + rewrite app_nth2, L1, Nat.sub_diag by lia. cbn [nth].
      assert (G : ip d (nth m V' []) w3 = ip d (nth m V' []) w0 - colC m).
      { unfold ip. rewrite (nsum_ext _ d _ (fun i => nthK i (nth m V' []) * nthK i w0 - nthK i (nth m V' []) * comb V' colC i)) by (intros i _; rewrite N3; ring).
        rewrite nsum_sub. f_equal. apply nsum_comb_on; [exact V'_on|]. unfold V'. rewrite app_length, len_V. cbn [length]. lia. }
      rewrite G. destruct (Nat.eq_dec m n) as [->|Hmn]; [rewrite V'_new, colC_n; ring|]. rewrite V'_old, col_ip by lia. ring.
    + rewrite app_nth1 by lia.
      rewrite (ip_sub K d (nth m V' []) (nth c vk1 []) (nth c vk []) v' (acoef (S c))) by (intros i Hi; apply X1; lia).
      destruct (Nat.eq_dec m n) as [->|Hmn].
      * rewrite V'_new, v'_norm. unfold acoef. cbn [nth]. ring.
      * rewrite V'_old, v'_perp by lia. pose proof (i_perp _ _ _ _ _ _ _ _ H (S c) m ltac:(lia) ltac:(lia)) as P. cbn [nth] in P. rewrite P. ring.
  - rewrite (i_vl _ _ _ _ _ _ _ _ H), skipn_length, len_V. unfold V'. rewrite skipn_app, len_V. destruct (Nat.eqb_spec (n - (n - Lc)) Lc) as [Q|Q].
    + rewrite skipn_tl. replace (S n - Lc - n)%nat with O by lia. replace (S n - Lc)%nat with (S (n - Lc)) by lia. reflexivity.
    + replace (S n - Lc - n)%nat with O by lia. replace (S n - Lc)%nat with (n - Lc)%nat by lia. reflexivity.
  - rewrite (i_vd _ _ _ _ _ _ _ _ H). apply map_ext_in. intros k Hk. symmetry. apply V'_old. specialize (HIs k Hk). lia.
  - intros k Hk. specialize (HIs k Hk). lia.
  - exact (i_nd _ _ _ _ _ _ _ _ H).
  - intros a c Ha. apply F3. lia.
  - intros a c Ha Hc Hc'. destruct (Nat.eq_dec a n) as [->|Hne].
    + rewrite F2 by lia. destruct (existsb (Nat.eqb c) Is) eqn:E; [apply isb_lt in E; lia|]. apply row_zero. intros k Hk F. unfold wrap, jj in F. destruct (Nat.ltb_spec (L + n - Lc + k) L); lia.
    + rewrite F1 by lia. apply (i_cols _ _ _ _ _ _ _ _ H); lia.
  - assert (SN : forall c, (c < n)%nat -> T5 n c = T5 c n).
    { intros c Hc. rewrite F2, FC by lia. unfold colC. destruct (Nat.eqb_spec c n); [lia|]. destruct (existsb (Nat.eqb c) Is) eqn:E.
      - reflexivity.
      - destruct (Nat.leb_spec (n - Lc) c); [reflexivity|]. apply row_zero. intros k Hk F. unfold wrap, jj in F. destruct (Nat.ltb_spec (L + n - Lc + k) L); lia. }
    intros a c Ha Hc. destruct (Nat.eq_dec a n) as [->|Na], (Nat.eq_dec c n) as [->|Nc]; try reflexivity.
    + apply SN. lia.
    + symmetry. apply SN. lia.
    + rewrite !F1 by lia. apply (i_sym _ _ _ _ _ _ _ _ H); lia.
  - intros c i Hc Hi. destruct (Nat.eq_dec c (length vk)) as [->|Hne].
    + replace (L + S n - Lc + length vk)%nat with (L + n)%nat by lia. unfold target, wrap. destruct (Nat.ltb_spec (L + n) L); [lia|]. replace (L + n - L)%nat with n by lia.
      rewrite V'_new. change (Av v') with w0. rewrite (comb_ext V' _ colC) by (unfold V'; rewrite app_length, len_V; cbn [length]; intros m Hm; apply FC; lia).
      unfold ent. rewrite app_nth2, L1, Nat.sub_diag by lia. cbn [nth]. rewrite N3. ring.
    + replace (L + S n - Lc + c)%nat with (jj (S c)) by (unfold jj; lia). assert (JL : (jj (S c) < L + n)%nat) by (unfold jj; lia). rewrite target_old, CB by exact JL.
      rewrite RB by lia. pose proof (i_open _ _ _ _ _ _ _ _ H (S c) i ltac:(lia) Hi) as OP. fold (jj (S c)) in OP. rewrite OP. unfold ent at 2. rewrite app_nth1 by lia.
      change (nthK i (nth c vk1 [])) with (ent vk1 c i). rewrite X1 by lia. unfold ent. cbn [nth]. ring.
  - intros j Hj. destruct (Nat.eq_dec j (jj 0)) as [->|Hne].
    + right. split.
      * intros i Hi. assert (JL : (jj 0 < L + n)%nat) by (unfold jj; lia). rewrite target_old, CB, RB by (auto; lia). pose proof (i_open _ _ _ _ _ _ _ _ H O i ltac:(lia) Hi) as OP. fold (jj 0) in OP. rewrite OP.
        unfold ent. cbn [nth]. rewrite v'_nth, acoef_0. reflexivity.
      * destruct (Nat.lt_ge_cases (jj 0) L); [now left|]. right. intros F. specialize (HIs _ F). unfold jj in *. lia.
    + assert (JL : (j + Lc < L + n)%nat) by (unfold jj in Hne; lia).
      destruct (i_done _ _ _ _ _ _ _ _ H j JL) as [(r & (Lr & Tr & D) & Q)|[C Q]].
      * left. exists r. split; [|exact Q]. split; [exact Lr|]. split; [exact Tr|]. intros i Hi. rewrite target_old, CB, D by (auto; lia).
        destruct (Nat.ltb_spec j L) as [B|B]; [rewrite RZ by auto; ring|]. destruct Q as [Q|Q]; [lia|].
        unfold V'. rewrite comb_snoc. rewrite (comb_ext V (fun m => ip d (nth m (V ++ [v']) []) r) (fun m => ip d (nth m V []) r)).
        2:{ rewrite len_V. intros m Hm. change (V ++ [v']) with V'. now rewrite (V'_old m Hm). }
        rewrite len_V. replace (nth n (V ++ [v']) []) with v' by (symmetry; exact V'_new).
        assert (TW : T5 n (wrap j) = ip d v' r).
        { assert (WJ : wrap j = (j - L)%nat) by (unfold wrap; destruct (Nat.ltb_spec j L); [lia|reflexivity]). specialize (HIs _ Q).
          rewrite F2 by (apply wrap_n; lia). rewrite WJ, (proj2 (isb_in _) Q), <- col_ip by lia. unfold w0. rewrite Av_sym by (try apply Vd; auto using Lv'; lia).
          rewrite ip_comm, <- target_V. replace (L + (j - L))%nat with j by lia.
          rewrite (ip_sum d v' (target V j) (comb V (fun m => T m (wrap j))) (fun i => nthK i r - comb V (fun m => ip d (nth m V []) r) i)).
          - rewrite perp_comb. rewrite (nsum_ext _ d _ (fun i => nthK i v' * nthK i r - nthK i v' * comb V (fun m => ip d (nth m V []) r) i)) by (intros; ring).
            rewrite nsum_sub, perp_comb. unfold ip. ring.
          - intros k Hk. rewrite D by auto. destruct (Nat.ltb_spec j L); [lia|reflexivity]. }
        rewrite TW. ring.
      * right. split; [|exact Q]. intros i Hi. rewrite target_old, CB, RZ, C by (auto; lia). ring.
Qed.
End Rows.
End Step.
End Band.
