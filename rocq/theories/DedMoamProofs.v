(** Proofs about dedlib.py: several impurities. *)
From Coq Require Import Reals List Arith NArith ZArith Bool Lia Lra Psatz.
From Verif Require Import Base RBase RLin CBase DedModel DedSpec DedTrialProofs.
Import ListNotations.
Local Open Scope R_scope.

Lemma site_inj nimp nb i j a b : (i < nimp)%nat -> (j < nimp)%nat -> (a <= nb)%nat -> (b <= nb)%nat -> moam_site nimp nb i a = moam_site nimp nb j b -> i = j /\ a = b.
Proof.
  intros Hi Hj Ha Hb E. destruct a as [|k], b as [|l]; cbn [moam_site] in E; try lia.
  assert (i = j) by nia. subst j. split; auto. lia.
Qed.

Section Blocks.
Variables (nimp nb n : nat) (gs : list gfimp).
Hypothesis LG : length gs = nimp. Hypothesis Hn : (nimp + nimp * nb <= n)%nat.
Hypothesis LV : forall g, In g gs -> length (g_vk2 g) = nb /\ length (g_ek g) = nb.
Notation site := (moam_site nimp nb).
Notation gof i := (nth i gs (mkgfimp [] [] 0)).
Definition block (i a b : nat) : R := star (g_e0 (gof i)) (fun k => nth k (g_ek (gof i)) 0) (fun k => sqrt (nth k (g_vk2 (gof i)) 0)) a b.

(** After the first [m] impurities. *)
Lemma moam_fold m : (m <= nimp)%nat -> exists H, foldM (moam_step nimp n) (List.combine (seq 0 m) (firstn m gs)) (fun _ _ => 0) = Ok H /\
  forall i j a b, (i < nimp)%nat -> (j < nimp)%nat -> (a <= nb)%nat -> (b <= nb)%nat ->
    H (site i a) (site j b) = if (i =? j)%nat && (i <? m)%nat then block i a b else 0.
Proof.
  induction m as [|m IH]; intros Hm.
  - exists (fun _ _ => 0). split; [reflexivity|]. intros i j a b _ _ _ _. rewrite andb_false_r. reflexivity.
  - destruct (IH ltac:(lia)) as (H & E & HH).
    assert (FS : firstn (S m) gs = firstn m gs ++ [gof m]).
    { rewrite <- LG in Hm. clear - Hm. revert m Hm. induction gs as [|g l IHl]; intros m Hm; [cbn in Hm; lia|]. destruct m; [reflexivity|]. cbn [firstn app nth]. f_equal. apply IHl. cbn in Hm. lia. }
    assert (CM : List.combine (seq 0 (S m)) (firstn (S m) gs) = List.combine (seq 0 m) (firstn m gs) ++ [(m, gof m)]).
    { rewrite FS, seq_S. cbn [Nat.add]. assert (L : length (seq 0 m) = length (firstn m gs)) by (rewrite seq_length, firstn_length; lia).
      revert L. generalize (seq 0 m) (firstn m gs). induction l as [|x l IHl]; intros [|y l'] L; try discriminate; [reflexivity|]. cbn. now rewrite IHl by (now injection L). }
    rewrite CM. assert (IG : In (gof m) gs) by (apply nth_In; lia). destruct (LV (gof m) IG) as [LV1 LV2].
    assert (FA : forall {A B} (f : B -> A -> res B) l1 l2 b, foldM f (l1 ++ l2) b = do x <- foldM f l1 b; foldM f l2 x).
    { clear. intros A B f l1. induction l1 as [|a l1 IHl]; intros l2 b; [reflexivity|]. cbn [foldM app]. destruct (f b a); cbn [bind]; auto. }
    rewrite FA, E. cbn [bind foldM]. unfold moam_step at 1. cbv zeta. rewrite map_length, LV1, LV2, Nat.eqb_refl.
    assert (BH : (m * nb + nimp + nb <=? n)%nat = true) by (apply Nat.leb_le; nia). rewrite BH. cbn [andb negb bind].
    eexists. split; [reflexivity|]. intros i j a b Hi Hj Ha Hb. cbv beta.
    assert (SQ : forall k, (k < nb)%nat -> nth k (map sqrt (g_vk2 (gof m))) 0 = sqrt (nth k (g_vk2 (gof m)) 0)).
    { intros k Hk. rewrite (nth_indep _ 0 (sqrt 0)) by (rewrite map_length; lia). apply map_nth. }
    assert (IN : forall i a, (i < nimp)%nat -> (a <= nb)%nat -> (m * nb + nimp <=? site i a)%nat && (site i a <? m * nb + nimp + nb)%nat = (i =? m)%nat && negb (a =? 0)%nat).
    { clear - Hm. intros i a Hi Ha. destruct a as [|k]; cbn [moam_site Nat.eqb negb]; [rewrite andb_false_r|rewrite andb_true_r].
      - destruct (Nat.leb_spec (m * nb + nimp) i); [nia|reflexivity].
      - destruct (Nat.eqb_spec i m) as [->|N].
        + destruct (Nat.leb_spec (m * nb + nimp) (nimp + m * nb + k)); [|lia]. destruct (Nat.ltb_spec (nimp + m * nb + k) (m * nb + nimp + nb)); [reflexivity|lia].
        + destruct (Nat.leb_spec (m * nb + nimp) (nimp + i * nb + k)); [|reflexivity]. destruct (Nat.ltb_spec (nimp + i * nb + k) (m * nb + nimp + nb)); [|reflexivity]. exfalso. apply N. nia. }
    assert (ISM : forall i a, (i < nimp)%nat -> (a <= nb)%nat -> (site i a =? m)%nat = (i =? m)%nat && (a =? 0)%nat).
    { clear - Hm. intros i a Hi Ha. destruct a as [|k]; cbn [moam_site Nat.eqb]; [now rewrite andb_true_r|]. rewrite andb_false_r. apply Nat.eqb_neq. lia. }
    rewrite <- !andb_assoc, !IN, !ISM by auto. rewrite HH by auto.
    assert (LTB : (i <? S m)%nat = (i =? m)%nat || (i <? m)%nat).
    { destruct (Nat.eqb_spec i m); [subst; destruct (Nat.ltb_spec m (S m)); [reflexivity|lia]|]. cbn [orb]. destruct (Nat.ltb_spec i (S m)), (Nat.ltb_spec i m); auto; lia. }
    rewrite LTB. destruct (Nat.eqb_spec i m) as [->|NI]; cbn [andb orb].
    + destruct (Nat.ltb_spec m m); [lia|]. rewrite andb_false_r, andb_true_r. rewrite (Nat.eqb_sym m j). destruct (Nat.eqb_spec j m) as [->|NJ]; cbn [andb].
      * unfold block. destruct a as [|k], b as [|l]; cbn [Nat.eqb negb andb star moam_site].
        -- reflexivity.
        -- rewrite ?andb_false_r. cbn [andb]. replace (nimp + m * nb + l - (m * nb + nimp))%nat with l by lia. rewrite SQ by lia.
           destruct (Nat.eqb_spec m (nimp + m * nb + l)); [lia|reflexivity].
        -- rewrite ?andb_true_r. destruct (Nat.eqb_spec (nimp + m * nb + k) m); [lia|]. cbn [andb]. replace (nimp + m * nb + k - (m * nb + nimp))%nat with k by lia. now rewrite SQ by lia.
        -- rewrite ?andb_true_r, ?andb_false_r. replace (nimp + m * nb + k - (m * nb + nimp))%nat with k by lia.
           destruct (Nat.eqb_spec k l) as [->|NK]; [now rewrite Nat.eqb_refl|]. destruct (Nat.eqb_spec (nimp + m * nb + k) (nimp + m * nb + l)); [lia|reflexivity].
      * rewrite ?andb_false_r. destruct (Nat.eqb_spec (site m a) (site j b)) as [E1|]; [|now cbn]. exfalso. apply site_inj in E1; auto. lia.
    + rewrite ?andb_false_r. cbn [andb]. destruct (Nat.eqb_spec i j) as [->|NIJ]; cbn [andb].
      * destruct (Nat.eqb_spec j m); [congruence|]. cbn [andb]. reflexivity.
      * destruct (Nat.eqb_spec j m); cbn [andb]; reflexivity.
Qed.
Theorem moam_blocks : exists H, build_moam n (fun _ _ => 0) gs = Ok H /\
  forall i j a b, (i < nimp)%nat -> (j < nimp)%nat -> (a <= nb)%nat -> (b <= nb)%nat -> H (site i a) (site j b) = if (i =? j)%nat then block i a b else 0.
Proof.
  destruct (moam_fold nimp ltac:(lia)) as (H & E & HH). exists H. split.
  - unfold build_moam. rewrite LG. rewrite <- E. assert (FA : firstn nimp gs = gs) by (rewrite <- LG; apply firstn_all). now rewrite FA.
  - intros i j a b Hi Hj Ha Hb. rewrite HH by auto. apply Nat.ltb_lt in Hi. rewrite Hi. now rewrite andb_true_r.
Qed.
End Blocks.

Section Loop.
Context {D P A : Type}.
Variables (pre : D -> res P) (post : A -> P -> res (list (option increment))).
Definition any (r : list (option increment)) : bool := existsb (fun o => match o with Some _ => true | None => false end) r.
(** Which calls cannot succeed. *)
Theorem moam_scalar given N d draws sigma x : (0 < N)%nat -> pre d = Ok x -> moam_solve pre post given UScalar N (d :: draws) sigma = Err UnboundLocalError.
Proof. intros HN E. unfold moam_solve. destruct N as [|N]; [lia|]. cbn [bind moam_loop]. unfold moam_trial. rewrite E. reflexivity. Qed.
Theorem moam_default_dict N draws sigma a : moam_solve pre post false (UDict a) N draws sigma = Err TypeError.
Proof. reflexivity. Qed.
Theorem moam_default_array N d draws sigma a x : (0 < N)%nat -> pre d = Ok x -> moam_solve pre post false (UArray a) N (d :: draws) sigma = Err ValueError.
Proof. intros HN E. unfold moam_solve. destruct N as [|N]; [lia|]. cbn [bind moam_loop]. unfold moam_trial. rewrite E. reflexivity. Qed.
(** A successful call has an interaction and a sigma0. *)
Theorem moam_needs given U N draws sigma r : (0 < N)%nat -> moam_solve pre post given U N draws sigma = Ok r -> given = true /\ exists a, U = UArray a \/ U = UDict a.
Proof.
  intros HN E. unfold moam_solve in E. destruct N as [|N]; [lia|]. destruct draws as [|d draws]; [destruct U, given; discriminate|]. cbn [moam_loop] in E. unfold moam_trial in E.
  destruct (pre d); [|destruct U, given; discriminate E]. destruct U as [|u|u], given; try discriminate; (split; [reflexivity|exists u; auto]).
Qed.

Lemma moam_loop_spec given U N draws acc a : (forall v x r, post v x = Ok r -> length r = length acc) -> moam_loop pre post given U N draws acc = Ok a ->
  exists m outs, (m <= length draws)%nat /\ mapM (moam_trial pre post given U) (firstn m draws) = Ok outs /\ length (filter any outs) = N /\ length a = length acc /\
    forall i dflt, (i < length acc)%nat -> nth i a dflt = fold_left inc_add (accepted (map (fun o => nth i o None) outs)) (nth i acc dflt).
Proof.
  revert N acc. induction draws as [|d draws IH]; intros N acc HL E.
  - destruct N; [|discriminate]. injection E as <-. exists 0%nat, []. repeat split; auto.
  - destruct N as [|N]; [injection E as <-; exists 0%nat, []; repeat split; cbn; auto; lia|]. cbn [moam_loop] in E.
    destruct (moam_trial pre post given U d) as [r|] eqn:T; [|discriminate]. cbn [bind] in E.
    assert (LR : length r = length acc). { unfold moam_trial in T. destruct (pre d); [|discriminate]. cbn [bind] in T. destruct (match U with UArray _ => _ | _ => _ end); [|discriminate]. cbn [bind] in T. destruct (moam_V1 U); [|discriminate]. now apply HL in T. }
    assert (LM : length (moam_add acc r) = length acc) by (unfold moam_add; rewrite map_length, combine_length; lia).
    apply IH in E; [|now rewrite LM]. destruct E as (m & outs & Hm & EO & LN & LA & HA). exists (S m), (r :: outs). split; [cbn; lia|].
    split; [cbn [firstn mapM]; rewrite T; cbn [bind]; now rewrite EO|]. split; [cbn [filter]; unfold any at 1; destruct (existsb _ r); cbn [length]; lia|].
    split; [now rewrite LA|]. intros i dflt Hi. rewrite HA by (now rewrite LM). cbn [map accepted flat_map]. fold (accepted (map (fun o => nth i o None) outs)).
    assert (NA : nth i (moam_add acc r) dflt = match nth i r None with Some x => inc_add (nth i acc dflt) x | None => nth i acc dflt end).
    { unfold moam_add. rewrite (nth_indep _ dflt ((fun p => match snd p with Some i => inc_add (fst p) i | None => fst p end) (dflt, None))) by (rewrite map_length, combine_length; lia).
      rewrite (map_nth (fun p : increment * option increment => match snd p with Some i => inc_add (fst p) i | None => fst p end)). rewrite combine_nth by auto. reflexivity. }
    rewrite NA. destruct (nth i r None); reflexivity.
Qed.
Lemma column_le outs i : (length (accepted (map (fun o : list (option increment) => nth i o None) outs)) <= length (filter any outs))%nat.
Proof.
  induction outs as [|o outs IH]; [reflexivity|]. cbn [map accepted flat_map filter]. fold (accepted (map (fun o : list (option increment) => nth i o None) outs)). destruct (nth i o None) as [x|] eqn:E.
  - assert (AO : any o = true). { unfold any. apply existsb_exists. exists (Some x). split; [|reflexivity]. rewrite <- E. apply nth_In. destruct (le_lt_dec (length o) i); auto. rewrite nth_overflow in E by auto. discriminate. }
    rewrite AO. cbn. lia.
  - destruct (any o); cbn; lia.
Qed.
(** Each entry of the self-energy is the sum over the accepted trials of that impurity
    divided by [N]; no more than [N] trials count. *)
Theorem moam_spec given U N draws sigma r nz : (forall v x r, post v x = Ok r -> length r = length sigma /\ forall i, In (Some i) r -> length (i_sigma i) = nz) ->
  (forall s, In s sigma -> length s = nz) -> moam_solve pre post given U N draws sigma = Ok r ->
  exists m outs, (m <= length draws)%nat /\ mapM (moam_trial pre post given U) (firstn m draws) = Ok outs /\ length (filter any outs) = N /\ length r = length sigma /\
  forall i, (i < length sigma)%nat -> let incs := accepted (map (fun o => nth i o None) outs) in (length incs <= N)%nat /\
    forall j, (j < nz)%nat -> nth j (i_sigma (nth i r (mkinc [] 0 0 0))) (rcx 0) =
      cxdiv (cxadd (nth j (nth i sigma []) (rcx 0)) (csum (length incs) (fun t => nth j (nth t (map i_sigma incs) []) (rcx 0)))) (rcx (INR N)).
Proof.
  intros HP HS E. unfold moam_solve in E. destruct (match U with UDict _ => if given then Ok tt else Err TypeError | _ => Ok tt end) as [u|]; [|discriminate]. cbn [bind] in E. destruct (moam_loop pre post given U N draws _) as [a|] eqn:EL; [|discriminate]. cbn [bind] in E. injection E as <-.
  apply moam_loop_spec in EL; [|intros v x r0 Q; rewrite map_length; now apply HP in Q]. destruct EL as (m & outs & Hm & EO & LN & LA & HA). rewrite map_length in *.
  exists m, outs. split; [exact Hm|]. split; [exact EO|]. split; [exact LN|]. unfold moam_finish. split; [now rewrite map_length|]. intros i Hi. cbv zeta.
  split; [rewrite <- LN; apply column_le|]. intros j Hj.
  set (fin := fun a0 => mkinc (map (fun x => cxdiv x (rcx (INR N))) (i_sigma a0)) (i_occ0 a0 / INR N) (i_occ1 a0 / INR N) 0).
  assert (NF : nth i (map fin a) (mkinc [] 0 0 0) = fin (nth i a (mkinc [] 0 0 0))).
  { rewrite (nth_indep _ _ (fin (mkinc [] 0 0 0))) by (rewrite map_length; lia). apply map_nth. }
  rewrite NF. cbn [fin i_sigma]. rewrite (HA i (mkinc [] 0 0 0) Hi).
  assert (NS : nth i (map (fun s => mkinc s 0 0 0) sigma) (mkinc [] 0 0 0) = mkinc (nth i sigma []) 0 0 0) by (apply (map_nth (fun s => mkinc s 0 0 0))).
  rewrite NS. set (incs := accepted _).
  destruct (fold_inc incs (mkinc (nth i sigma []) 0 0 0)) as (LL & B & _).
  { intros x Hx. unfold incs in Hx. apply accepted_in in Hx. apply in_map_iff in Hx. destruct Hx as (o & Eo & Ho). destruct (mapM_out _ _ _ _ EO Ho) as (d & _ & T).
    unfold moam_trial in T. destruct (pre d) as [y|]; [|discriminate]. cbn [bind] in T. destruct (match U with UArray _ => _ | _ => _ end); [|discriminate]. cbn [bind] in T. destruct (moam_V1 U) as [v|]; [|discriminate]. destruct (HP v y o T) as [LO HO].
    cbn [i_sigma]. rewrite (HS (nth i sigma [])) by (apply nth_In; lia). apply HO. rewrite <- Eo. apply nth_In. lia. }
  cbn [i_sigma] in *. assert (LZ : length (nth i sigma []) = nz) by (apply HS, nth_In; lia). rewrite LZ in *.
  rewrite (nth_indep _ (rcx 0) (cxdiv (rcx 0) (rcx (INR N)))) by (rewrite map_length; lia). rewrite (map_nth (fun x => cxdiv x (rcx (INR N)))). now rewrite B.
Qed.
End Loop.
