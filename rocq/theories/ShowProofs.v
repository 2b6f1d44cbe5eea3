(** Proofs about edpyt/eshow.py. *)
From Coq Require Import Reals List Arith NArith ZArith Bool Lia Lra Permutation.
From Verif Require Import Base RBase OperatorsModel OperatorsSpec OperatorsProofs LookupModel LookupProofs SectorModel LocalModel MatvecModel EspaceModel ShowModel ShowSpec.
Import ListNotations.

(** ** Fock states *)
Lemma cell_site a b i : cell (occ a i) (occ b i) = site a b i ++ [Comma].
Proof. unfold cell, site. now destruct (occ a i), (occ b i). Qed.
Lemma joined_flat (l : list text) : l <> [] -> flat_map (fun x => x ++ [Comma]) l = joined l ++ [Comma].
Proof.
  induction l as [|x [|y l] IH]; intros H; [congruence| |].
  - cbn. now rewrite app_nil_r.
  - change (flat_map (fun x => x ++ [Comma]) (x :: y :: l)) with ((x ++ [Comma]) ++ flat_map (fun x => x ++ [Comma]) (y :: l)).
    rewrite IH by congruence. change (joined (x :: y :: l)) with (x ++ Comma :: joined (y :: l)). now rewrite <- !app_assoc.
Qed.
Theorem fock_rendered a b n : (a < 2 ^ N.of_nat n)%N -> (b < 2 ^ N.of_nat n)%N -> 1 <= n -> fock a b n = Ok (rendered a b n).
Proof.
  intros Ha Hb Hn. unfold fock. rewrite !binrep_spec by auto.
  assert (L : forall m acc, m <= n -> foldM (fun state i => do x <- item (map (occ a) (seq 0 n)) i; do y <- item (map (occ b) (seq 0 n)) i; Ok (state ++ cell x y)) (seq (n - m) m) acc =
    Ok (acc ++ flat_map (fun x => x ++ [Comma]) (map (site a b) (seq (n - m) m)))).
  { induction m as [|m IH]; intros acc Hm; cbn [seq foldM map flat_map]; [now rewrite app_nil_r|].
    assert (IT : forall s, item (map (occ s) (seq 0 n)) (n - S m) = Ok (occ s (n - S m))).
    { intros s. unfold item. rewrite nth_error_map, (nth_error_nth' _ 0) by (rewrite seq_length; lia). cbn. now rewrite seq_nth by lia. }
    rewrite !IT. cbn [bind]. replace (S (n - S m)) with (n - m) by lia. rewrite IH by lia. now rewrite cell_site, <- app_assoc. }
  specialize (L n [Bar] (le_n n)). rewrite Nat.sub_diag in L. rewrite L. cbn [bind]. f_equal.
  rewrite joined_flat by (destruct n; [lia|discriminate]). unfold rendered. cbn [app]. rewrite app_comm_cons, removelast_last. reflexivity.
Qed.

Lemma site_plain a b i : ~ In Comma (site a b i) /\ ~ In Close (site a b i) /\ site a b i <> [].
Proof. unfold site. destruct (occ a i), (occ b i); cbn; intuition congruence. Qed.
Lemma split_comma (x x' y y' : text) : ~ In Comma x -> ~ In Comma x' -> x ++ Comma :: y = x' ++ Comma :: y' -> x = x' /\ y = y'.
Proof.
  revert x'. induction x as [|c x IH]; intros [|c' x'] Hx Hx' E; cbn in *.
  - injection E as ->. auto.
  - injection E as <- _. tauto.
  - injection E as -> _. tauto.
  - injection E as <- E. destruct (IH x') as [-> ->]; tauto.
Qed.
Lemma joined_inj (l : list text) : forall l', (forall x, In x l -> ~ In Comma x /\ x <> []) -> (forall x, In x l' -> ~ In Comma x /\ x <> []) -> joined l = joined l' -> l = l'.
Proof.
  induction l as [|x l IH]; intros [|x' l'] H H' E; auto.
  - exfalso. destruct (H' x' (or_introl eq_refl)) as [_ N]. destruct l'; cbn in E; [congruence|]. destruct x'; discriminate || congruence.
  - exfalso. destruct (H x (or_introl eq_refl)) as [_ N]. destruct l; cbn in E; [congruence|]. destruct x; discriminate || congruence.
  - destruct (H x (or_introl eq_refl)) as [C _]. destruct (H' x' (or_introl eq_refl)) as [C' _].
    destruct l as [|y l], l' as [|y' l'].
    + cbn in E. now subst.
    + exfalso. cbn [joined] in E. apply C. rewrite E. apply in_or_app. right. now left.
    + exfalso. cbn [joined] in E. apply C'. rewrite <- E. apply in_or_app. right. now left.
    + change (x ++ Comma :: joined (y :: l) = x' ++ Comma :: joined (y' :: l')) in E. destruct (split_comma _ _ _ _ C C' E) as [-> E'].
      f_equal. apply IH; auto; intros z I; [apply H|apply H']; now right.
Qed.
Lemma site_inj a b a' b' i : site a b i = site a' b' i -> occ a i = occ a' i /\ occ b i = occ b' i.
Proof. unfold site. destruct (occ a i), (occ b i), (occ a' i), (occ b' i); intros E; try discriminate E; auto. Qed.
Lemma occ_high s n i : (s < 2 ^ N.of_nat n)%N -> n <= i -> occ s i = false.
Proof. intros H Hi. unfold occ. destruct (N.eq_dec s 0) as [->|Hs]; [apply N.bits_0|]. apply N.bits_above_log2. apply N.log2_lt_pow2; [lia|]. eapply N.lt_le_trans; [exact H|]. apply N.pow_le_mono_r; lia. Qed.
Theorem rendered_inj a b n a' b' n' : (a < 2 ^ N.of_nat n)%N -> (b < 2 ^ N.of_nat n)%N -> (a' < 2 ^ N.of_nat n')%N -> (b' < 2 ^ N.of_nat n')%N ->
  rendered a b n = rendered a' b' n' -> n = n' /\ a = a' /\ b = b'.
Proof.
  intros Ha Hb Ha' Hb' E. unfold rendered in E. injection E as E. apply app_inj_tail in E. destruct E as [E _].
  apply joined_inj in E.
  2,3: intros x I; apply in_map_iff in I; destruct I as (i & <- & _); split; apply site_plain.
  assert (n = n') as <-. { apply (f_equal (@length _)) in E. now rewrite !map_length, !seq_length in E. }
  assert (S : forall i, i < n -> occ a i = occ a' i /\ occ b i = occ b' i).
  { intros i Hi. apply site_inj. apply (f_equal (fun l => nth_error l i)) in E. rewrite !nth_error_map, (nth_error_nth' (seq 0 n) 0) in E by (rewrite seq_length; lia).
    rewrite seq_nth in E by lia. cbn in E. now injection E. }
  split; [reflexivity|]. split; apply occ_ext; intros i; (destruct (Nat.lt_ge_cases i n) as [Hi|Hi]; [now apply S|rewrite !(occ_high _ n) by auto; reflexivity]).
Qed.

(** ** Listing of the eigenstates *)
Lemma halves_masks s n : halves s n (N.land s (N.shiftl 1 (N.of_nat n) - 1)) (N.shiftr (N.land s (N.shiftl (N.shiftl 1 (N.of_nat n) - 1) (N.of_nat n))) (N.of_nat n)).
Proof.
  assert (M : (N.shiftl 1 (N.of_nat n) - 1)%N = N.ones (N.of_nat n)) by (unfold N.ones; rewrite N.sub_1_r; reflexivity). rewrite M.
  assert (LO : forall x, (N.land x (N.ones (N.of_nat n)) < 2 ^ N.of_nat n)%N) by (intros x; rewrite N.land_ones; apply N.mod_lt, N.pow_nonzero; lia).
  assert (HI : N.shiftr (N.land s (N.shiftl (N.ones (N.of_nat n)) (N.of_nat n))) (N.of_nat n) = N.land (N.shiftr s (N.of_nat n)) (N.ones (N.of_nat n))).
  { rewrite N.shiftr_land, N.shiftr_shiftl_l, N.sub_diag, N.shiftl_0_r by lia. reflexivity. }
  rewrite HI. split; [apply LO|]. split; [apply LO|]. split; intros i Hi; unfold occ; rewrite N.land_spec, N.ones_spec_low by lia; rewrite andb_true_r; [reflexivity|].
  rewrite N.shiftr_spec by lia. f_equal. lia.
Qed.
Theorem fockstates_N n l : 1 <= n -> exists ts, fockstates n (StN l) = Ok ts /\ length ts = length l /\ forall k, k < length l -> exists up dw, halves (nth k l 0%N) n up dw /\ nth k ts [] = rendered up dw n.
Proof.
  intros Hn. cbn [fockstates]. induction l as [|s l IH].
  - exists []. split; [reflexivity|]. split; [reflexivity|]. cbn. lia.
  - destruct IH as (ts & E & L & H). pose proof (halves_masks s n) as HH. cbn [mapM]. rewrite fock_rendered by (auto; apply HH). cbn [bind]. rewrite E. cbn [bind].
    eexists. split; [reflexivity|]. split; [cbn; now rewrite L|]. intros [|k] Hk; cbn [nth length] in *; [|apply H; lia]. eexists. eexists. split; [exact HH|reflexivity].
Qed.

Section Sort.
Context {A : Type} (key : A -> R).
Lemma put_perm x l : Permutation (put key x l) (x :: l).
Proof. induction l as [|y l IH]; cbn; [apply Permutation_refl|]. destruct (Rltb _ _); [|apply Permutation_refl]. rewrite IH. apply perm_swap. Qed.
Lemma sorted_perm l : Permutation (sorted_by key l) l.
Proof. induction l as [|x l IH]; cbn; [constructor|]. rewrite put_perm. now constructor. Qed.
Lemma put_ascending x l : ascending (map key l) -> ascending (map key (put key x l)) /\ (forall y, (key y <= key x)%R -> (match l with [] => True | z :: _ => (key y <= key z)%R end) -> match put key x l with [] => True | z :: _ => (key y <= key z)%R end).
Proof.
  induction l as [|z l IH]; intros H; cbn [put].
  - split; [exact I|]. auto.
  - destruct (Rltb (key z) (key x)) eqn:E.
    + apply Rltb_spec in E. assert (Hl : ascending (map key l)) by (destruct l; [exact I|exact (proj2 H)]). destruct (IH Hl) as [A1 A2]. split.
      * cbn [map ascending]. assert (Q := A2 z). destruct (put key x l) as [|w t]; [exact I|]. cbn [map] in *. split; [|exact A1]. apply Q; [lra|]. destruct l; [exact I|exact (proj1 H)].
      * intros y _ Hy. exact Hy.
    + assert (~ (key z < key x)%R) by (intros L; apply Rltb_spec in L; congruence). split.
      * cbn [map ascending]. split; [lra|exact H].
      * intros y Hy _. exact Hy.
Qed.
Lemma sorted_ascending l : ascending (map key (sorted_by key l)).
Proof. induction l as [|x l IH]; [exact I|]. exact (proj1 (put_ascending x (sorted_by key l) IH)). Qed.
End Sort.

Lemma combine_map_r {A B C} (f : B -> C) (l : list A) (m : list B) : combine l (map f m) = map (fun p => (fst p, f (snd p))) (combine l m).
Proof. revert m. induction l as [|x l IH]; intros [|y m]; cbn; auto. now rewrite IH. Qed.
Theorem eprint_N {S} (show : R -> S) n (espace : list (qnums * (list N * list R * list (list R)))) : 1 <= n ->
  exists ls tss, eprint show (map (fun e => (fst e, (StN (fst (fst (snd e))), snd (fst (snd e)), snd (snd e)))) espace) n = Ok ls /\ length tss = length espace /\ (forall i, i < length espace -> let states := fst (fst (snd (nth i espace ([], ([], [], []))))) in
     length (nth i tss []) = length states /\ forall k, k < length states -> exists up dw, halves (nth k states 0%N) n up dw /\ nth k (nth i tss []) [] = rendered up dw n) /\ Permutation ls (flat_map (fun p : (qnums * (list N * list R * list (list R))) * list text =>
    map (fun q : R * list R => (fst (fst p), fst q, combine (map show (snd q)) (snd p))) (combine (snd (fst (snd (fst p)))) (snd (snd (fst p))))) (combine espace tss)) /\ ascending (map (fun l => snd (fst l)) ls).
Proof.
  intros Hn. unfold eprint.
  set (step := fun (estates : list (line S)) (e : qnums * (states_t * list R * list (list R))) => let '(ns, (st, vals, vecs)) := e in
    do fs <- fockstates n st; let evecs := map (fun v => combine (map show v) fs) vecs in Ok (estates ++ map (fun p : R * list (S * text) => (ns, fst p, snd p)) (combine vals evecs))).
  set (conv := fun e : qnums * (list N * list R * list (list R)) => (fst e, (StN (fst (fst (snd e))), snd (fst (snd e)), snd (snd e)))).
  set (rows := fun p : (qnums * (list N * list R * list (list R))) * list text =>
    map (fun q : R * list R => (fst (fst p), fst q, combine (map show (snd q)) (snd p))) (combine (snd (fst (snd (fst p)))) (snd (snd (fst p))))).
  assert (L : forall acc, exists tss, foldM step (map conv espace) acc = Ok (acc ++ flat_map rows (combine espace tss)) /\ length tss = length espace /\   forall i, i < length espace -> let states := fst (fst (snd (nth i espace ([], ([], [], []))))) in
     length (nth i tss []) = length states /\ forall k, k < length states -> exists up dw, halves (nth k states 0%N) n up dw /\ nth k (nth i tss []) [] = rendered up dw n).
  { induction espace as [|[ns [[st vals] vecs]] es IH]; intros acc.
    - exists []. cbn. rewrite app_nil_r. split; [reflexivity|]. split; [reflexivity|]. intros; lia.
    - destruct (fockstates_N n st Hn) as (ts & ET & LT & HT). cbn [map foldM].
      assert (ES : step acc (conv (ns, (st, vals, vecs))) = Ok (acc ++ map (fun p : R * list (S * text) => (ns, fst p, snd p)) (combine vals (map (fun v => combine (map show v) ts) vecs)))).
      { unfold step, conv. cbn [fst snd]. rewrite ET. reflexivity. }
      rewrite ES. cbn [bind].
      destruct (IH (acc ++ map (fun p : R * list (S * text) => (ns, fst p, snd p)) (combine vals (map (fun v => combine (map show v) ts) vecs)))) as (tss & E & LL & H).
      exists (ts :: tss). split; [|split; [cbn; now rewrite LL|]].
      + rewrite E. cbn [combine flat_map]. unfold rows at 2. cbn [fst snd]. rewrite <- app_assoc. do 2 f_equal. f_equal. rewrite combine_map_r, map_map. reflexivity.
      + intros [|i] Hi; cbn [nth length fst snd] in *; [split; [exact LT|exact HT]|]. apply H. lia. }
  destruct (L []) as (tss & E & LL & H). eexists. exists tss.
  split; [transitivity (do estates <- foldM step (map conv espace) []; Ok (sorted_by (fun l : line S => snd (fst l)) estates)); [reflexivity|rewrite E; cbn [bind app]; reflexivity]|].
  split; [exact LL|]. split; [exact H|]. split; [apply sorted_perm|apply sorted_ascending].
Qed.
Theorem eprint_Sz {S} (show : R -> S) n ns up dw vals vecs rest : eprint show ((ns, (StSz up dw, vals, vecs)) :: rest) n = Err TypeError.
Proof. reflexivity. Qed.

(** ** The charge spectrum *)
Lemma group_perm d k l : Permutation (flat_map (fun e => map (fun y => (fst e, y)) (snd e)) (group d k l)) (map (fun y : R => (k, y)) l ++ flat_map (fun e => map (fun y => (fst e, y)) (snd e)) d).
Proof.
  induction d as [|[k' l'] d IH]; cbn [group flat_map fst snd]; [apply Permutation_refl|].
  destruct (Nat.eqb_spec k' k) as [->|]; cbn [flat_map fst snd].
  - rewrite map_app, <- !app_assoc. rewrite !app_assoc. apply Permutation_app_tail. apply Permutation_app_comm.
  - rewrite IH. rewrite !app_assoc. apply Permutation_app_tail. apply Permutation_app_comm.
Qed.
Theorem pdisplay_lines espace y lo hi : pdisplay espace = (y, lo, hi) ->
  exists xs, length xs = length y /\ lo = map (fun x => (INR x - 2 / 10)%R) xs /\ hi = map (fun x => (INR x + 2 / 10)%R) xs /\ Permutation (combine xs y) (flat_map (fun e => map (fun v => (charge (fst e), v)) (snd e)) espace).
Proof.
  unfold pdisplay. set (step := fun (d : list (nat * list R)) (e : qnums * list R) => group d (charge (fst e)) (snd e)).
  assert (G : forall d, Permutation (flat_map (fun e => map (fun y => (fst e, y)) (snd e)) (fold_left step espace d))
    (flat_map (fun e => map (fun y => (fst e, y)) (snd e)) d ++ flat_map (fun e => map (fun v => (charge (fst e), v)) (snd e)) espace)).
  { induction espace as [|e es IH]; intros d; cbn [fold_left flat_map]; [now rewrite app_nil_r|]. rewrite IH. unfold step at 1. rewrite group_perm. rewrite !app_assoc. apply Permutation_app_tail. apply Permutation_app_comm. }
  specialize (G []). cbn [flat_map app] in G. revert G. generalize (fold_left step espace []). intros d G E. injection E as <- <- <-.
  exists (flat_map (fun e => map (fun _ => fst e) (snd e)) d). split; [|split; [|split]].
  - clear. induction d as [|e d IH]; [reflexivity|]. cbn [flat_map]. now rewrite !app_length, map_length, IH.
  - clear. induction d as [|e d IH]; [reflexivity|]. cbn [flat_map]. rewrite !map_app, !map_map. now rewrite IH.
  - clear. induction d as [|e d IH]; [reflexivity|]. cbn [flat_map]. rewrite !map_app, !map_map. now rewrite IH.
  - etransitivity; [|exact G]. clear. apply eq_ind with (P := Permutation _) (x := combine (flat_map (fun e => map (fun _ => fst e) (snd e)) d) (flat_map snd d)); [apply Permutation_refl|].
    induction d as [|[k l] d IH]; [reflexivity|]. cbn [flat_map fst snd]. rewrite <- IH. clear IH.
    induction l as [|x l IHl]; [reflexivity|]. cbn [map app combine]. now rewrite IHl.
Qed.

Lemma charge_electrons key : length key = 1 \/ length key = 2 -> charge key = electrons key.
Proof. destruct key as [|a [|b [|c l]]]; cbn; intros H; lia. Qed.
Theorem pdisplay_electrons espace y lo hi : (forall e, In e espace -> length (fst e) = 1 \/ length (fst e) = 2) -> pdisplay espace = (y, lo, hi) ->
  exists xs, length xs = length y /\ lo = map (fun x => (INR x - 2 / 10)%R) xs /\ hi = map (fun x => (INR x + 2 / 10)%R) xs /\ Permutation (combine xs y) (flat_map (fun e => map (fun v => (electrons (fst e), v)) (snd e)) espace).
Proof.
  intros HK E. destruct (pdisplay_lines _ _ _ _ E) as (xs & A & B & C & D). exists xs. split; [exact A|]. split; [exact B|]. split; [exact C|].
  rewrite D. apply eq_ind with (P := Permutation _) (x := flat_map (fun e => map (fun v => (charge (fst e), v)) (snd e)) espace); [apply Permutation_refl|].
  clear - HK. induction espace as [|e l IH]; [reflexivity|]. cbn [flat_map]. rewrite IH by (intros; apply HK; now right). f_equal. apply map_ext. intros v. f_equal. apply charge_electrons, HK. now left.
Qed.
