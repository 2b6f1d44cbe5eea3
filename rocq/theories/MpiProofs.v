(** Proofs about the distributed transposes and the distributed product. *)
From Coq Require Import List Arith NArith ZArith Lia Bool.
From Verif Require Import Base HoppingModel MatvecModel MatvecSpec MatvecParProofs MpiModel.
Import ListNotations.

Section Mpi.
Variable F : Type.
Variable dflt : F.
Variables fadd fmul : F -> F -> F.
Notation slice := (slice F dflt).

Definition tab (L : nat) (f : nat -> F) : list F := map f (seq 0 L).

Lemma tab_length L f : length (tab L f) = L.
Proof. unfold tab. now rewrite map_length, seq_length. Qed.
Lemma tab_ext L f g : (forall k, k < L -> f k = g k) -> tab L f = tab L g.
Proof. intros H. apply map_ext_in. intros k Hk. apply in_seq in Hk. apply H. lia. Qed.
Lemma nth_tab L f k d : k < L -> nth k (tab L f) d = f k.
Proof.
  intros H. unfold tab. rewrite (nth_indep _ d (f 0)) by (rewrite map_length, seq_length; lia).
  rewrite map_nth, seq_nth; auto.
Qed.
Lemma tab_nth (l : list F) : l = tab (length l) (fun k => nth k l dflt).
Proof.
  apply (nth_ext _ _ dflt dflt); [now rewrite tab_length|]. intros k Hk. now rewrite nth_tab.
Qed.
Lemma tab_app a b f : tab (a + b) f = tab a f ++ tab b (fun k => f (a + k)).
Proof.
  unfold tab. rewrite seq_app, map_app. f_equal. cbn [plus]. revert f. induction a; intros f; cbn [plus]; auto.
  rewrite <- seq_shift, map_map. apply (IHa (fun k => f (S k))).
Qed.

Lemma blocks a b (f : nat -> nat -> F) :
  flat_map (fun i => tab b (f i)) (seq 0 a) = tab (a * b) (fun k => f (k / b) (k mod b)).
Proof.
  induction a; [reflexivity|]. rewrite seq_S, flat_map_app, IHa. cbn [flat_map plus]. rewrite app_nil_r.
  replace (S a * b) with (a * b + b) by lia. rewrite tab_app. f_equal. apply tab_ext. intros k Hk.
  rewrite Nat.add_comm, Nat.div_add, Nat.mod_add, Nat.div_small, Nat.mod_small by lia. reflexivity.
Qed.

Lemma slice_tab L f off len : off + len <= L -> slice (tab L f) off len = tab len (fun k => f (off + k)).
Proof. intros H. unfold MpiModel.slice. apply map_ext_in. intros k Hk. apply in_seq in Hk. apply nth_tab. lia. Qed.

Lemma flat_map_ext_seq a (f g : nat -> list F) : (forall i, i < a -> f i = g i) ->
  flat_map f (seq 0 a) = flat_map g (seq 0 a).
Proof.
  intros H. rewrite !flat_map_concat_map. f_equal. apply map_ext_in. intros i Hi. apply in_seq in Hi. apply H. lia.
Qed.

(** Row-block and column-block distribution over P ranks of the global matrix G. *)
Definition row_blocks (P m n : nat) (G : nat -> nat -> F) : list (list F) :=
  map (fun r => tab (m * n) (fun k => G (r * m + k / n) (k mod n))) (seq 0 P).
Definition col_blocks (P m n : nat) (G : nat -> nat -> F) : list (list F) :=
  map (fun r => tab (n * m) (fun k => G (k / m) (r * m + k mod m))) (seq 0 P).

Lemma nth_map_seq {B} (f : nat -> B) P q d : q < P -> nth q (map f (seq 0 P)) d = f q.
Proof.
  intros H. rewrite (nth_indep _ d (f 0)) by (rewrite map_length, seq_length; lia).
  rewrite map_nth, seq_nth; auto.
Qed.

Lemma divmod_add i n j : j < n -> (i * n + j) / n = i /\ (i * n + j) mod n = j.
Proof.
  intros H. rewrite (Nat.add_comm (i * n)). split.
  - rewrite Nat.div_add, Nat.div_small by lia. lia.
  - rewrite Nat.mod_add, Nat.mod_small by lia. reflexivity.
Qed.

Lemma divmod_two q m k : 0 < m -> k < m * m -> (q * (m * m) + k) / m = q * m + k / m /\ (q * (m * m) + k) mod m = k mod m.
Proof.
  intros Hm Hk. replace (q * (m * m) + k) with (k + q * m * m) by lia.
  rewrite Nat.div_add, Nat.mod_add by lia. split; auto. lia.
Qed.

Lemma block_le r P c : r < P -> r * c + c <= P * c.
Proof. intros H. replace (r * c + c) with (S r * c) by lia. now apply Nat.mul_le_mono_r. Qed.
Lemma block_le2 i m p P b c : i < m -> p < P -> P * b <= c -> i * c + p * b + b <= m * c.
Proof. intros H1 H2 H3. pose proof (block_le i m c H1). pose proof (block_le p P b H2). lia. Qed.

Lemma collect_dw_ok P m n G : 0 < m -> 0 < P -> n = m * P ->
  collect_dw F dflt m n (row_blocks P m n G) = Ok (col_blocks P m n G).
Proof.
  intros Hm HP Hn. unfold collect_dw. unfold row_blocks at 1 2. rewrite !map_length, !seq_length.
  replace (m * P =? n) with true by (symmetry; now apply Nat.eqb_eq). cbn [negb].
  assert (EnP : n / P = m) by (rewrite Hn, Nat.div_mul; lia). f_equal.
  unfold alltoall. unfold row_blocks. rewrite !map_length, !seq_length, map_map, ?EnP.
  unfold col_blocks. apply map_ext_in. intros r Hr. apply in_seq in Hr.
  rewrite (flat_map_ext_seq P _ (fun q => tab (m * m) (fun k => G (q * m + k / m) (r * m + k mod m)))).
  - rewrite blocks. replace (n * m) with (P * (m * m)) by lia. apply tab_ext. intros k Hk.
    set (q := k / (m * m)). assert (Hk' : k = q * (m * m) + k mod (m * m)).
    { rewrite (Nat.div_mod k (m * m)) at 1 by nia. fold q. lia. }
    assert (k mod (m * m) < m * m) by (apply Nat.mod_upper_bound; nia).
    destruct (divmod_two q m (k mod (m * m)) Hm H) as [E1 E2]. rewrite <- Hk' in E1, E2. now rewrite E1, E2.
  - intros q Hq. rewrite nth_map_seq by auto.
    rewrite (flat_map_ext_seq P _ (fun p => tab (m * m) (fun k => G (q * m + k / m) (p * m + k mod m)))).
    + rewrite blocks, slice_tab by (apply block_le; lia). apply tab_ext. intros k Hk.
      destruct (divmod_add r (m * m) k Hk) as [-> ->]. reflexivity.
    + intros p Hp. rewrite (flat_map_ext_seq m _ (fun i => tab m (fun j => G (q * m + i) (p * m + j)))).
      * now rewrite blocks.
      * intros i Hi. rewrite slice_tab by (apply (block_le2 i m p P m n); lia). apply tab_ext. intros j Hj.
        rewrite <- Nat.add_assoc. destruct (divmod_add i n (p * m + j) ltac:(pose proof (block_le p P m Hp); lia)) as [-> ->]. reflexivity.
Qed.

Lemma collect_up_ok P m n G : 0 < m -> 0 < P -> n = m * P ->
  collect_up F dflt n m (col_blocks P m n G) = Ok (row_blocks P m n G).
Proof.
  intros Hm HP Hn. unfold collect_up. unfold col_blocks at 1 2 3. rewrite !map_length, !seq_length.
  replace (n =? m * P) with true by (symmetry; now apply Nat.eqb_eq). cbn [negb].
  assert (EnP : n / P = m) by (rewrite Hn, Nat.div_mul; lia). f_equal.
  unfold alltoall, col_blocks. rewrite !map_length, !seq_length, map_map, ?EnP.
  unfold row_blocks. apply map_ext_in. intros r Hr. apply in_seq in Hr.
  rewrite (flat_map_ext_seq P _ (fun q => tab (m * m) (fun k => G (r * m + k / m) (q * m + k mod m)))).
  - rewrite (blocks P (m * m) (fun q k => G (r * m + k / m) (q * m + k mod m))), tab_length.
    replace (P * (m * m) / P) with (m * m) by (rewrite (Nat.mul_comm P), Nat.div_mul; lia).
    rewrite (flat_map_ext_seq m _ (fun p => tab n (fun J => G (r * m + p) J))).
    + now rewrite blocks.
    + intros p Hp.
      rewrite (flat_map_ext_seq P _ (fun q => tab m (fun j => G (r * m + p) (q * m + j)))).
      * rewrite blocks. replace (P * m) with n by lia. apply tab_ext. intros k Hk. f_equal.
        rewrite (Nat.div_mod k m) at 3 by lia. lia.
      * intros q Hq. rewrite slice_tab by (apply (block_le2 q P p m m (m * m)); lia). apply tab_ext. intros j Hj.
        rewrite <- Nat.add_assoc. destruct (divmod_add q (m * m) (p * m + j) ltac:(pose proof (block_le p m m Hp); lia)) as [-> ->].
        destruct (divmod_add p m j Hj) as [-> ->]. reflexivity.
  - intros q Hq. rewrite nth_map_seq by auto.
    rewrite slice_tab by (subst n; pose proof (block_le r P (m * m)); lia). apply tab_ext. intros k Hk.
    destruct (divmod_two r m k Hm Hk) as [-> ->]. reflexivity.
Qed.

(** Every family of equally long buffers is a row-block distribution. *)
Lemma as_rows (a : list (list F)) m n : 0 < n -> (forall l, In l a -> length l = m * n) ->
  a = row_blocks (length a) m n (fun I J => nth (I mod m * n + J) (nth (I / m) a []) dflt).
Proof.
  intros Hn H. unfold row_blocks. apply (nth_ext _ _ [] []); [now rewrite map_length, seq_length|].
  intros r Hr. rewrite nth_map_seq by auto.
  assert (L : length (nth r a []) = m * n) by (apply H; now apply nth_In).
  rewrite (tab_nth (nth r a [])), L. apply tab_ext. intros k Hk.
  assert (Hm : 0 < m) by (destruct m; lia).
  assert (Hq : k / n < m) by (apply Nat.div_lt_upper_bound; lia).
  destruct (divmod_add r m (k / n) Hq) as [-> ->]. f_equal. rewrite (Nat.div_mod k n) at 1 by lia. lia.
Qed.

(** C25 *)
Lemma transposes_inverse (a : list (list F)) m n : 0 < m -> 0 < length a -> n = m * length a ->
  (forall l, In l a -> length l = m * n) ->
  exists b, collect_dw F dflt m n a = Ok b /\ length b = length a /\ (forall l, In l b -> length l = n * m) /\
    collect_up F dflt n m b = Ok a /\
    forall r q i j, r < length a -> q < length a -> i < m -> j < m ->
      nth ((q * m + i) * m + j) (nth r b []) dflt = nth (i * n + (r * m + j)) (nth q a []) dflt.
Proof.
  intros Hm HP Hn H. assert (E := as_rows a m n ltac:(nia) H).
  set (G := fun I J => nth _ (nth _ a _) _) in E. set (P := length a) in *.
  exists (col_blocks P m n G). split; [rewrite E; now apply collect_dw_ok|].
  unfold col_blocks. rewrite map_length, seq_length. split; [reflexivity|]. split.
  { intros l Hl. apply in_map_iff in Hl. destruct Hl as [r [<- _]]. apply tab_length. }
  split.
  - rewrite E. now apply collect_up_ok.
  - intros r q i j Hr Hq Hi Hj. rewrite nth_map_seq by auto. rewrite nth_tab by nia.
    destruct (divmod_add (q * m + i) m j Hj) as [-> ->]. unfold G.
    destruct (divmod_add q m i Hi) as [-> ->]. reflexivity.
Qed.

(** ** Cells written by the local products *)
Definition row_range (A : raw F) (r : nat) : list nat :=
  seq (nth r (r_indptr F A) 0) (nth (S r) (r_indptr F A) 0 - nth r (r_indptr F A) 0).
Definition col_of (A : raw F) (p : nat) : nat := Z.to_nat (nth p (r_indices F A) 0%Z).
Definition row_terms (A : raw F) (r : nat) (w : nat -> F) : list F :=
  map (fun p => fmul (nth p (r_data F A) dflt) (w (col_of A p))) (row_range A r).

Lemma mapM_map' {A B} (f : A -> res B) (g : A -> B) l : (forall a, In a l -> f a = Ok (g a)) ->
  mapM f l = Ok (map g l).
Proof.
  induction l as [|a l IH]; intros H; cbn [mapM map]; auto.
  rewrite H by now left. cbn [bind]. rewrite IH by (intros; apply H; now right). reflexivity.
Qed.

Lemma rdo_nth {A} (l : list A) i d : i < length l -> rdo l i = Ok (nth i l d).
Proof. intros H. unfold rdo. now rewrite (nth_error_nth' l d). Qed.
Lemma rdz_nth' {A} (l : list A) i d : i < length l -> rdz l (Z.of_nat i) = Ok (nth i l d).
Proof.
  intros H. unfold rdz. replace (Z.of_nat i <? 0)%Z with false by (symmetry; apply Z.ltb_ge; lia).
  rewrite Nat2Z.id. now apply rdo_nth.
Qed.

Lemma raw_entry A r p : raw_wf F A -> r < r_rows F A -> In p (row_range A r) ->
  p < length (r_data F A) /\ rdo (r_data F A) p = Ok (nth p (r_data F A) dflt) /\
  rdo (r_indices F A) p = Ok (Z.of_nat (col_of A p)) /\ col_of A p < r_rows F A.
Proof.
  intros [_ [Hsq [_ [Hp [Hi Hc]]]]] Hr Hin. destruct (Hp r Hr) as [H1 H2].
  unfold row_range in Hin. apply in_seq in Hin.
  assert (Hlt : p < length (r_data F A)) by lia. split; auto.
  split; [now apply rdo_nth|]. unfold col_of.
  assert (Hj : In (nth p (r_indices F A) 0%Z) (r_indices F A)) by (apply nth_In; lia).
  specialize (Hc _ Hj). rewrite Z2Nat.id by lia. split; [apply rdo_nth; lia|lia].
Qed.

Lemma row_updates_raw A W r t off : raw_wf F A -> r < r_rows F A -> off + r_rows F A <= length W ->
  row_updates F fmul A W r t (fun j => Z.of_nat off + j)%Z =
  Ok (map (fun x => (t, x)) (row_terms A r (fun c => nth (off + c) W dflt))).
Proof.
  intros Hwf Hr HW. unfold row_updates. pose proof Hwf as [_ [_ [L _]]].
  rewrite (rdo_nth _ r 0), (rdo_nth _ (S r) 0) by lia. cbn [bind]. fold (row_range A r).
  unfold row_terms. rewrite map_map. apply mapM_map'. intros p Hp.
  destruct (raw_entry A r p Hwf Hr Hp) as [_ [-> [-> Hc]]]. cbn [bind].
  rewrite <- Nat2Z.inj_add, (rdz_nth' _ _ dflt) by lia. reflexivity.
Qed.

Lemma hits_tagged c t xs : hits F c (map (fun x => (t, x)) xs) = if t =? c then xs else [].
Proof.
  unfold hits. induction xs as [|x xs IH]; cbn [map filter fst]; [now destruct (t =? c)|].
  destruct (t =? c); cbn [map snd]; rewrite IH; reflexivity.
Qed.

Lemma hits_concat_one c (f : nat -> list (nat * F)) a i xs : i < a ->
  (forall i', i' < a -> hits F c (f i') = if i' =? i then xs else []) ->
  hits F c (concat (map f (seq 0 a))) = xs.
Proof.
  intros Hi H.
  assert (G : forall l, (forall x, In x l -> x < a) -> NoDup l ->
     hits F c (concat (map f l)) = if existsb (Nat.eqb i) l then xs else []).
  { induction l as [|x l IH]; intros Hl ND; [reflexivity|]. cbn [map concat existsb]. rewrite hits_app, H by (apply Hl; now left).
    inversion ND as [|? ? Hni ND']; subst.
    rewrite IH; auto; [|intros; apply Hl; now right].
    destruct (Nat.eqb_spec x i) as [->|Hne].
    - rewrite Nat.eqb_refl. cbn [orb]. replace (existsb (Nat.eqb i) l) with false; [now rewrite app_nil_r|].
      symmetry. apply not_true_is_false. intros E. apply existsb_exists in E. destruct E as [y [Hy Ey]].
      apply Nat.eqb_eq in Ey. congruence.
    - rewrite (proj2 (Nat.eqb_neq i x)) by congruence. reflexivity. }
  rewrite G; [|intros x Hx; apply in_seq in Hx; lia|apply seq_NoDup].
  replace (existsb (Nat.eqb i) (seq 0 a)) with true; auto. symmetry. apply existsb_exists. exists i.
  split; [apply in_seq; lia|apply Nat.eqb_refl].
Qed.

Lemma runs_ok us : forall y, (forall u, In u us -> fst u < length y) -> exists y', run_updates F fadd us y = Ok y'.
Proof.
  induction us as [|u us IH]; intros y H; [now exists y|].
  unfold run_updates. cbn [foldM]. unfold run_update at 1.
  assert (Hu : fst u < length y) by (apply H; now left).
  rewrite (nth_error_nth' y dflt Hu). cbn [bind]. apply IH. intros v Hv. rewrite upd_tot_length. apply H. now right.
Qed.

Lemma run_tab us y h : (forall u, In u us -> fst u < length y) ->
  (forall c, c < length y -> hits F c us = h c) ->
  run_updates F fadd us y = Ok (tab (length y) (fun c => fold_left fadd (h c) (nth c y dflt))).
Proof.
  intros H Hh. destruct (runs_ok us y H) as [y' E]. rewrite E. f_equal.
  destruct (runs_cells F fadd us y y' E) as [L [_ V]].
  rewrite (tab_nth y'), L. apply tab_ext. intros c Hc.
  specialize (V c (nth c y dflt) (nth_error_nth' y dflt Hc)).
  rewrite (nth_error_nth _ _ dflt V). unfold cell. now rewrite Hh.
Qed.

Lemma gaxpy_raw A W off : raw_wf F A -> off + r_rows F A <= length W ->
  csr_gaxpy F fmul A W off = Ok (concat (map (fun r => map (fun x => (off + r, x))
    (row_terms A r (fun c => nth (off + c) W dflt))) (seq 0 (r_rows F A)))).
Proof.
  intros Hwf HW. unfold csr_gaxpy.
  rewrite (mapM_map' _ (fun r => map (fun x => (off + r, x)) (row_terms A r (fun c => nth (off + c) W dflt)))).
  - reflexivity.
  - intros r Hr. apply in_seq in Hr. apply row_updates_raw; auto. lia.
Qed.

Lemma up_raw A W y k : raw_wf F A -> length W = k * r_rows F A -> length y = length W ->
  UPmultiply F fadd fmul A W y = Ok (tab (length W) (fun c =>
    fold_left fadd (row_terms A (c mod r_rows F A) (fun j => nth (c / r_rows F A * r_rows F A + j) W dflt)) (nth c y dflt))).
Proof.
  intros Hwf HW Hy. pose proof Hwf as [Hpos _]. set (u := r_rows F A) in *.
  unfold UPmultiply, up_threads. fold u.
  replace (u =? 0) with false by (symmetry; apply Nat.eqb_neq; lia).
  replace (length W / u) with k by (rewrite HW, Nat.div_mul; lia).
  rewrite (mapM_map' _ (fun i => concat (map (fun r => map (fun x => (i * u + r, x))
    (row_terms A r (fun c => nth (i * u + c) W dflt))) (seq 0 u)))).
  2: { intros i Hi. apply in_seq in Hi. apply gaxpy_raw; auto. fold u. nia. }
  cbn [bind]. rewrite <- Hy. apply run_tab.
  - intros x Hx. apply in_concat in Hx. destruct Hx as [l [Hl Hx]]. apply in_map_iff in Hl. destruct Hl as [i [<- Hi]].
    apply in_concat in Hx. destruct Hx as [l [Hl Hx]]. apply in_map_iff in Hl. destruct Hl as [r [<- Hr]].
    apply in_map_iff in Hx. destruct Hx as [v [<- _]]. apply in_seq in Hi, Hr. cbn [fst]. nia.
  - intros c Hc. set (i := c / u). set (r := c mod u).
    assert (Ec : c = i * u + r) by (unfold i, r; rewrite (Nat.div_mod c u) at 1; lia).
    assert (Hr : r < u) by (apply Nat.mod_upper_bound; lia).
    assert (Hi : i < k) by (apply Nat.div_lt_upper_bound; lia).
    apply (hits_concat_one c _ k i); auto. intros i' Hi'.
    destruct (Nat.eqb_spec i' i) as [->|Hne].
    + apply (hits_concat_one c _ u r); auto. intros r' Hr'. rewrite hits_tagged.
      destruct (Nat.eqb_spec (i * u + r') c) as [E1|E1], (Nat.eqb_spec r' r) as [E2|E2]; auto; try lia. now rewrite E2.
    + apply hits_none. intros x Hx. apply in_concat in Hx. destruct Hx as [l [Hl Hx]].
      apply in_map_iff in Hl. destruct Hl as [r' [<- Hr']].
      apply in_map_iff in Hx. destruct Hx as [v [<- _]]. apply in_seq in Hr'. cbn [fst]. nia.
Qed.

Lemma saxpy_raw A W i k : raw_wf F A -> i < r_rows F A -> length W = r_rows F A * k ->
  csr_saxpy F fmul A W i k = Ok (concat (map (fun p => map (fun s => (i * k + s,
    fmul (nth p (r_data F A) dflt) (nth (col_of A p * k + s) W dflt))) (seq 0 k)) (row_range A i))).
Proof.
  intros Hwf Hi HW. unfold csr_saxpy. pose proof Hwf as [_ [_ [L _]]].
  rewrite (rdo_nth _ i 0), (rdo_nth _ (S i) 0) by lia. cbn [bind]. fold (row_range A i).
  rewrite (mapM_map' _ (fun p => map (fun s => (i * k + s,
    fmul (nth p (r_data F A) dflt) (nth (col_of A p * k + s) W dflt))) (seq 0 k))); [reflexivity|].
  intros p Hp. apply mapM_map'. intros s Hs. apply in_seq in Hs.
  destruct (raw_entry A i p Hwf Hi Hp) as [_ [-> [-> Hc]]]. cbn [bind].
  rewrite <- Nat2Z.inj_mul, <- Nat2Z.inj_add, (rdz_nth' _ _ dflt) by nia. reflexivity.
Qed.

Lemma hits_row c base n (f : nat -> F) s : s < n -> c = base + s ->
  hits F c (map (fun s => (base + s, f s)) (seq 0 n)) = [f s].
Proof.
  intros Hs ->.
  replace (map (fun s => (base + s, f s)) (seq 0 n)) with (concat (map (fun s => map (fun x => (base + s, x)) [f s]) (seq 0 n))).
  - apply (hits_concat_one _ _ n s); auto. intros s' Hs'. rewrite hits_tagged.
    destruct (Nat.eqb_spec (base + s') (base + s)) as [E1|E1], (Nat.eqb_spec s' s) as [E2|E2]; auto; try lia. now rewrite E2.
  - cbn [map]. generalize (seq 0 n) as l. induction l; cbn [map concat app]; [reflexivity|now rewrite IHl].
Qed.

Lemma dw_raw A W y k : raw_wf F A -> length W = r_rows F A * k -> length y = length W ->
  DWmultiply F fadd fmul A W y = Ok (tab (length W) (fun c =>
    fold_left fadd (row_terms A (c / k) (fun j => nth (j * k + c mod k) W dflt)) (nth c y dflt))).
Proof.
  intros Hwf HW Hy. pose proof Hwf as [Hpos _]. set (u := r_rows F A) in *.
  unfold DWmultiply, dw_threads. fold u.
  replace (u =? 0) with false by (symmetry; apply Nat.eqb_neq; lia).
  replace (length W / u) with k by (rewrite HW, Nat.mul_comm, Nat.div_mul; lia).
  rewrite (mapM_map' _ (fun i => concat (map (fun p => map (fun s => (i * k + s,
    fmul (nth p (r_data F A) dflt) (nth (col_of A p * k + s) W dflt))) (seq 0 k)) (row_range A i)))).
  2: { intros i Hi. apply in_seq in Hi. apply saxpy_raw; auto. fold u. lia. }
  cbn [bind]. rewrite <- Hy. apply run_tab.
  - intros x Hx. apply in_concat in Hx. destruct Hx as [l [Hl Hx]]. apply in_map_iff in Hl. destruct Hl as [i [<- Hi]].
    apply in_concat in Hx. destruct Hx as [l [Hl Hx]]. apply in_map_iff in Hl. destruct Hl as [p [<- Hp]].
    apply in_map_iff in Hx. destruct Hx as [s [<- Hs]]. apply in_seq in Hi, Hs. cbn [fst]. nia.
  - intros c Hc. assert (Hk : 0 < k) by (destruct k; lia). set (i := c / k). set (s := c mod k).
    assert (Ec : c = i * k + s) by (unfold i, s; rewrite (Nat.div_mod c k) at 1; lia).
    assert (Hs : s < k) by (apply Nat.mod_upper_bound; lia).
    assert (Hi : i < u) by (apply Nat.div_lt_upper_bound; lia).
    apply (hits_concat_one c _ u i); auto. intros i' Hi'.
    destruct (Nat.eqb_spec i' i) as [->|Hne].
    + unfold row_terms. generalize (row_range A i) as l. induction l as [|p l IH]; [reflexivity|].
      cbn [map concat]. rewrite hits_app, IH. rewrite (hits_row c (i * k) k (fun s => fmul (nth p (r_data F A) dflt)
        (nth (col_of A p * k + s) W dflt)) s Hs Ec). reflexivity.
    + apply hits_none. intros x Hx. apply in_concat in Hx. destruct Hx as [l [Hl Hx]].
      apply in_map_iff in Hl. destruct Hl as [p [<- Hp]].
      apply in_map_iff in Hx. destruct Hx as [s' [<- Hs']]. apply in_seq in Hs'. cbn [fst]. nia.
Qed.

(** ** The distributed product *)
Lemma combine_map {A B C} (g : A -> B) (h : A -> C) l : List.combine (map g l) (map h l) = map (fun a => (g a, h a)) l.
Proof. induction l; cbn; auto. now rewrite IHl. Qed.

Lemma mapM_compose {A B C} (f : B -> res C) (g : A -> B) l : mapM f (map g l) = mapM (fun a => f (g a)) l.
Proof. induction l; cbn [map mapM]; auto. now rewrite IHl. Qed.

Lemma each2_map P f (g h k : nat -> list F) : (forall r, r < P -> f (g r) (h r) = Ok (k r)) ->
  each2 F f (map g (seq 0 P)) (map h (seq 0 P)) = Ok (map k (seq 0 P)).
Proof.
  intros H. unfold each2. rewrite combine_map, mapM_compose. cbn [fst snd].
  apply mapM_map'. intros r Hr. apply in_seq in Hr. apply H. lia.
Qed.

Lemma mul_tab L f g : map (fun xy => fmul (fst xy) (snd xy)) (List.combine (tab L f) (tab L g)) = tab L (fun k => fmul (f k) (g k)).
Proof. unfold tab. rewrite combine_map, map_map. reflexivity. Qed.

Definition step_up (up : raw F) (V R : nat -> nat -> F) (I J : nat) : F :=
  fold_left fadd (row_terms up J (fun j => V I j)) (R I J).
Definition step_dw (dw : raw F) (V R : nat -> nat -> F) (I J : nat) : F :=
  fold_left fadd (row_terms dw I (fun i => V i J)) (R I J).

Lemma row_terms_ext A r w w' : raw_wf F A -> r < r_rows F A -> (forall c, c < r_rows F A -> w c = w' c) ->
  row_terms A r w = row_terms A r w'.
Proof.
  intros Hwf Hr H. unfold row_terms. apply map_ext_in. intros p Hp.
  destruct (raw_entry A r p Hwf Hr Hp) as [_ [_ [_ Hc]]]. now rewrite H.
Qed.

Lemma divmod_lt k a b : k < a * b -> k / b < a /\ k mod b < b /\ k = k / b * b + k mod b.
Proof.
  intros H. assert (0 < b) by (destruct b; lia). split; [apply Nat.div_lt_upper_bound; lia|].
  split; [apply Nat.mod_upper_bound; lia|]. rewrite (Nat.div_mod k b) at 1; lia.
Qed.

Lemma mpi_rows P m n D V up dw : 0 < m -> 0 < P -> n = m * P -> raw_wf F up -> raw_wf F dw ->
  r_rows F up = n -> r_rows F dw = n ->
  mpi_matvec F dflt fadd fmul (row_blocks P m n D) up dw (row_blocks P m n V) =
  Ok (row_blocks P m n (step_dw dw V (step_up up V (fun I J => fmul (D I J) (V I J)))), row_blocks P m n V).
Proof.
  intros Hm HP Hn Wu Wd Ru Rd. unfold mpi_matvec.
  assert (LP : forall G, length (row_blocks P m n G) = P) by (intros; unfold row_blocks; now rewrite map_length, seq_length).
  rewrite LP, Ru, Rd, Nat.eqb_refl. cbn [negb].
  replace (P =? 0) with false by (symmetry; apply Nat.eqb_neq; lia).
  replace (n mod P =? 0) with true by (symmetry; apply Nat.eqb_eq; rewrite Hn; apply Nat.mod_mul; lia). cbn [negb].
  replace (n / P) with m by (rewrite Hn, Nat.div_mul; lia).
  unfold row_blocks at 1 2.
  rewrite (each2_map P _ _ _ (fun r => tab (m * n) (fun k => fmul (D (r * m + k / n) (k mod n)) (V (r * m + k / n) (k mod n))))).
  2: { intros r Hr. rewrite !tab_length, Nat.eqb_refl. now rewrite mul_tab. }
  cbn [bind]. unfold row_blocks at 1.
  rewrite (each2_map P _ _ _ (fun r => tab (m * n) (fun k => step_up up V (fun I J => fmul (D I J) (V I J)) (r * m + k / n) (k mod n)))).
  2: { intros r Hr. rewrite (up_raw up _ _ m) by (rewrite ?tab_length; auto; now rewrite Ru).
       rewrite tab_length, Ru. f_equal. apply tab_ext. intros k Hk. rewrite nth_tab by auto. unfold step_up.
       destruct (divmod_lt k m n Hk) as [K1 [K2 K3]]. f_equal. apply row_terms_ext; auto; [lia|].
       intros c Hc. rewrite Ru in Hc. rewrite nth_tab by nia. destruct (divmod_add (k / n) n c Hc) as [-> ->]. reflexivity. }
  cbn [bind]. fold (row_blocks P m n V).
  change (map (fun r => tab (m * n) (fun k => step_up up V (fun I J => fmul (D I J) (V I J)) (r * m + k / n) (k mod n))) (seq 0 P))
    with (row_blocks P m n (step_up up V (fun I J => fmul (D I J) (V I J)))).
  set (R := step_up up V _).
  rewrite !collect_dw_ok by auto. cbn [bind].
  unfold col_blocks at 1 2.
  rewrite (each2_map P _ _ _ (fun r => tab (n * m) (fun k => step_dw dw V R (k / m) (r * m + k mod m)))).
  2: { intros r Hr. rewrite (dw_raw dw _ _ m) by (rewrite ?tab_length; auto; now rewrite Rd).
       rewrite tab_length. f_equal. apply tab_ext. intros k Hk. rewrite nth_tab by auto. unfold step_dw.
       destruct (divmod_lt k n m Hk) as [K1 [K2 K3]]. f_equal. apply row_terms_ext; auto; [lia|].
       intros c Hc. rewrite Rd in Hc. rewrite nth_tab by nia. destruct (divmod_add c m (k mod m) K2) as [-> ->]. reflexivity. }
  cbn [bind].
  change (map (fun r => tab (n * m) (fun k => step_dw dw V R (k / m) (r * m + k mod m))) (seq 0 P))
    with (col_blocks P m n (step_dw dw V R)).
  rewrite !collect_up_ok by auto. reflexivity.
Qed.

Lemma serial_rows n D V up dw : raw_wf F up -> raw_wf F dw -> r_rows F up = n -> r_rows F dw = n ->
  serial_matvec F fadd fmul (tab (n * n) (fun k => D (k / n) (k mod n))) up dw (tab (n * n) (fun k => V (k / n) (k mod n))) =
  Ok (tab (n * n) (fun k => step_dw dw V (step_up up V (fun I J => fmul (D I J) (V I J))) (k / n) (k mod n))).
Proof.
  intros Wu Wd Ru Rd. unfold serial_matvec. rewrite !tab_length, Nat.eqb_refl. cbn [bind]. rewrite mul_tab.
  rewrite (up_raw up _ _ n) by (rewrite ?tab_length; auto; now rewrite Ru). cbn [bind]. rewrite tab_length, Ru.
  rewrite (dw_raw dw _ _ n) by (rewrite ?tab_length; auto; now rewrite Rd). rewrite tab_length. f_equal.
  apply tab_ext. intros k Hk. destruct (divmod_lt k n n Hk) as [K1 [K2 K3]]. rewrite nth_tab by auto.
  unfold step_dw. f_equal.
  - apply row_terms_ext; auto; [lia|]. intros c Hc. rewrite Rd in Hc. rewrite nth_tab by nia.
    destruct (divmod_add c n (k mod n) K2) as [-> ->]. reflexivity.
  - unfold step_up. rewrite nth_tab by auto. f_equal. apply row_terms_ext; auto; [lia|].
    intros c Hc. rewrite Ru in Hc. rewrite nth_tab by nia. destruct (divmod_add (k / n) n c Hc) as [-> ->]. reflexivity.
Qed.

Lemma concat_rows P m n G : 0 < n -> concat (row_blocks P m n G) = tab (P * m * n) (fun k => G (k / n) (k mod n)).
Proof.
  intros Hn. unfold row_blocks. rewrite <- flat_map_concat_map.
  rewrite (blocks P (m * n) (fun r k => G (r * m + k / n) (k mod n))). rewrite Nat.mul_assoc. apply tab_ext.
  intros k Hk. rewrite <- Nat.mul_assoc in Hk. destruct (divmod_lt k P (m * n) Hk) as [K1 [K2 K3]].
  set (q := k / (m * n)) in *. set (k' := k mod (m * n)) in *. f_equal.
  - rewrite K3. replace (q * (m * n) + k') with (k' + q * m * n) by lia. rewrite Nat.div_add by lia. lia.
  - rewrite K3. replace (q * (m * n) + k') with (k' + q * m * n) by lia. now rewrite Nat.mod_add by lia.
Qed.

(** C26 *)
Lemma mpi_is_serial (diag vec : list (list F)) up dw m : 0 < m -> 0 < length vec -> length diag = length vec ->
  raw_wf F up -> raw_wf F dw -> r_rows F up = m * length vec -> r_rows F dw = m * length vec ->
  (forall l, In l diag -> length l = m * (m * length vec)) -> (forall l, In l vec -> length l = m * (m * length vec)) ->
  exists out, mpi_matvec F dflt fadd fmul diag up dw vec = Ok (out, vec) /\ length out = length vec /\
    serial_matvec F fadd fmul (concat diag) up dw (concat vec) = Ok (concat out).
Proof.
  intros Hm HP LD Wu Wd Ru Rd HD HV. set (n := m * length vec) in *. assert (Hn : 0 < n) by (unfold n; nia).
  assert (ED := as_rows diag m n Hn HD). assert (EV := as_rows vec m n Hn HV). rewrite LD in ED.
  set (D := fun I J => nth _ (nth _ diag _) _) in ED. set (V := fun I J => nth _ (nth _ vec _) _) in EV.
  exists (row_blocks (length vec) m n (step_dw dw V (step_up up V (fun I J => fmul (D I J) (V I J))))).
  split; [|split].
  - rewrite ED. rewrite EV at 2 4. apply mpi_rows; auto.
  - unfold row_blocks. now rewrite map_length, seq_length.
  - rewrite ED. rewrite EV at 2. rewrite !concat_rows by auto.
    replace (length vec * m * n) with (n * n) by (unfold n; lia). apply serial_rows; auto.
Qed.

Lemma mpi_checks diag up dw vec :
  (r_rows F up <> r_rows F dw -> mpi_matvec F dflt fadd fmul diag up dw vec = Err NotImplementedError) /\
  (r_rows F up = r_rows F dw -> 0 < length vec -> r_rows F dw mod length vec <> 0 ->
     mpi_matvec F dflt fadd fmul diag up dw vec = Err ValueError).
Proof.
  unfold mpi_matvec. split.
  - intros H. apply Nat.eqb_neq in H. now rewrite H.
  - intros H H1 H2. rewrite H, Nat.eqb_refl. cbn [negb].
    replace (length vec =? 0) with false by (symmetry; apply Nat.eqb_neq; lia).
    apply Nat.eqb_neq in H2. now rewrite H2.
Qed.

Lemma transpose_checks m n (a : list (list F)) :
  (m * length a <> n -> collect_dw F dflt m n a = Err AssertionError) /\
  (m <> n * length a -> collect_up F dflt m n a = Err AssertionError).
Proof.
  unfold collect_dw, collect_up. split; intros H; apply Nat.eqb_neq in H; now rewrite H.
Qed.

End Mpi.
