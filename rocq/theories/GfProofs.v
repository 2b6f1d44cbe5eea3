(** The exact Green's function: Lehmann form, positivity and sum rule. *)
From Coq Require Import Reals List Arith NArith ZArith Bool Lia Lra Psatz Ring Permutation.
From Verif Require Import Base RBase RLin CBase OperatorsModel OperatorsSpec OperatorsProofs LookupModel LookupSpec LookupProofs SectorModel SectorSpec SectorProofs
  FockSpec FockProofs LocalModel MatvecModel EspaceModel ProjModel ProjSpec ProjProofs ProjMoreProofs ProjFinalProofs CfModel GfModel GfSpec.
Import ListNotations.
Local Open Scope R_scope.

(** ** Lookup *)
Lemma es_get_family n es F p q : lists_family n es F -> (p <= n)%nat -> (q <= n)%nat -> es_get es [p; q] = Ok (F p q).
Proof.
  intros (_ & HF & _) Hp Hq. unfold es_get, es_find.
  match goal with |- context[find ?f es] => destruct (find f es) as [[k s]|] eqn:E end.
  - apply find_some in E. destruct E as [I E]. cbn [fst] in E. destruct (list_eq_dec _ k [p; q]) as [->|]; [|discriminate].
    apply HF in I. destruct I as (p' & q' & _ & _ & E1 & E2). injection E1 as <- <-. cbn [snd]. now subst.
  - exfalso. assert (I : In ([p; q], F p q) es) by (apply HF; exists p, q; auto).
    apply (find_none _ _ E) in I. cbn [fst] in I. destruct (list_eq_dec _ [p; q] [p; q]); [discriminate|tauto].
Qed.

Definition grid (n : nat) : list qnums := flat_map (fun p => map (fun q => [p; q]) (seq 0 (S n))) (seq 0 (S n)).
Lemma in_grid n k : In k (grid n) <-> exists p q, (p <= n)%nat /\ (q <= n)%nat /\ k = [p; q].
Proof.
  unfold grid. rewrite in_flat_map. split.
  - intros (p & Hp & Hk). apply in_map_iff in Hk. destruct Hk as (q & <- & Hq). apply in_seq in Hp. apply in_seq in Hq. exists p, q. repeat split; lia.
  - intros (p & q & Hp & Hq & ->). exists p. split; [apply in_seq; lia|]. apply in_map_iff. exists q. split; auto. apply in_seq. lia.
Qed.
Lemma prod_NoDup (l m : list nat) : NoDup l -> NoDup m -> NoDup (flat_map (fun p => map (fun q => [p; q]) m) l).
Proof.
  intros Hl Hm. induction Hl as [|p l Hni ND IH]; cbn [flat_map]; [constructor|].
  assert (G : forall l1 : list nat, NoDup l1 -> NoDup (map (fun q => [p; q]) l1 ++ flat_map (fun p => map (fun q => [p; q]) m) l)).
  { induction 1 as [|q l1 Hq ND1 IH1]; cbn [map app]; auto. constructor; auto. rewrite in_app_iff. intros [H|H].
    - apply in_map_iff in H. destruct H as (q' & E & H). injection E as ->. tauto.
    - apply in_flat_map in H. destruct H as (p' & H1 & H2). apply in_map_iff in H2. destruct H2 as (q' & E & _). injection E as -> _. tauto. }
  now apply G.
Qed.
Lemma grid_NoDup n : NoDup (grid n).
Proof. apply prod_NoDup; apply seq_NoDup. Qed.
Lemma keys_perm n es F : lists_family n es F -> Permutation (map fst es) (grid n).
Proof.
  intros (ND & HF & _). apply NoDup_Permutation; auto using grid_NoDup. intros k. rewrite in_grid, in_map_iff. split.
  - intros ([k' s] & <- & I). apply HF in I. destruct I as (p & q & H1 & H2 & -> & _). exists p, q. auto.
  - intros (p & q & Hp & Hq & ->). exists ([p; q], F p q). split; auto. apply HF. exists p, q. auto.
Qed.
Lemma grid_sum (K : CRing) n (f : qnums -> K) : bsum f (grid n) = nsum (S n) (fun p => nsum (S n) (fun q => f [p; q])).
Proof.
  unfold grid. rewrite bsum_flat_map. unfold nsum. apply bsum_ext. intros p _. now rewrite bsum_map.
Qed.

(** ** The loop *)
Lemma combine_app_eq {A B} (x1 x2 : list A) (y1 y2 : list B) : length x1 = length y1 ->
  List.combine (x1 ++ x2) (y1 ++ y2) = List.combine x1 y1 ++ List.combine x2 y2.
Proof. revert y1. induction x1; intros [|y y1]; simpl; intros; try lia; auto. f_equal. apply IHx1. lia. Qed.

Lemma inner_sum (K : CRing) (f : R -> R -> K) (g : R * R -> R) (h : R -> R) (vI row : list R) : length row = length vI ->
  length (map g (List.combine vI row)) = length (map h vI) /\
  bsum (fun p => f (fst p) (snd p)) (List.combine (map g (List.combine vI row)) (map h vI)) =
  nsum (length vI) (fun i => f (g (nth i vI 0, nth i row 0)) (h (nth i vI 0))).
Proof.
  revert row. induction vI as [|e vI IH]; intros [|x row]; cbn [length]; intros L; try lia; [split; reflexivity|].
  destruct (IH row ltac:(lia)) as [A B]. cbn [List.combine map length bsum]. split; [now f_equal|]. cbn [fst snd].
  rewrite B, nsum_S_l. reflexivity.
Qed.
Lemma outer_sum (K : CRing) (f : R -> R -> K) (g : R -> R * R -> R) (h : R -> R -> R) (vI vJ : list R) (b : list (list R)) :
  length b = length vJ -> (forall x, In x b -> length x = length vI) ->
  length (flat_map (fun p : R * list R => map (g (fst p)) (List.combine vI (snd p))) (List.combine vJ b)) = length (flat_map (fun ej => map (h ej) vI) vJ) /\
  bsum (fun p => f (fst p) (snd p)) (List.combine (flat_map (fun p : R * list R => map (g (fst p)) (List.combine vI (snd p))) (List.combine vJ b)) (flat_map (fun ej => map (h ej) vI) vJ)) =
  nsum (length vJ) (fun j => nsum (length vI) (fun i => f (g (nth j vJ 0) (nth i vI 0, nth i (nth j b []) 0)) (h (nth j vJ 0) (nth i vI 0)))).
Proof.
  revert b. induction vJ as [|e vJ IH]; intros [|x b]; cbn [length]; intros L HB; try lia; [split; reflexivity|].
  destruct (IH b ltac:(lia) ltac:(intros; apply HB; now right)) as [A B]. cbn [List.combine flat_map fst snd].
  destruct (inner_sum K f (g e) (h e) vI x (HB x (or_introl eq_refl))) as [A1 B1].
  rewrite combine_app_eq by auto. rewrite bsum_app, !app_length. split; [congruence|]. rewrite B, B1, nsum_S_l. reflexivity.
Qed.

Lemma pairs_sum (K : CRing) (f : R -> R -> K) beta egs (I J : sct RRing) (b : list (list R)) :
  length b = nvals J -> (forall x, In x b -> length x = nvals I) ->
  length (weights_of beta egs I J b) = length (lambdas_of egs I J) /\
  bsum (fun p => f (fst p) (snd p)) (List.combine (weights_of beta egs I J b) (lambdas_of egs I J)) =
  nsum (nvals J) (fun j => nsum (nvals I) (fun i => f (nth i (nth j b []) 0 ^ 2 * (boltz beta egs (energy J j) + boltz beta egs (energy I i))) (energy J j - energy I i))).
Proof.
  intros LB HB.
  destruct (outer_sum K f (fun ej r => snd r ^ 2 * (boltz beta egs ej + boltz beta egs (fst r))) (fun ej ei => (ej - egs) - (ei - egs))
    (s_vals RRing I) (s_vals RRing J) b LB HB) as [A B].
  split; [exact A|]. etransitivity; [exact B|]. apply nsum_ext. intros j _. apply nsum_ext. intros i _. cbn [fst snd].
  change (nth j (s_vals RRing J) 0) with (energy J j). change (nth i (s_vals RRing I) 0) with (energy I i).
  replace (energy J j - egs - (energy I i - egs)) with (energy J j - energy I i) by ring. reflexivity.
Qed.

(** Weight of the pair (j,i) of a key. *)
Definition pair_weight (n pos : nat) (beta egs : R) (F : family) (p q j i : nat) : R :=
  bra2 n (Cr pos) (F (S p) q) (F p q) j i * (weight beta egs (energy (F (S p) q) j) + weight beta egs (energy (F p q) i)).
Definition key_sum (K : CRing) (f : R -> R -> K) (n pos : nat) (beta egs : R) (F : family) (key : qnums) : K :=
  match key with
  | [p; q] => if (S p <=? n)%nat then nsum (nvals (F (S p) q)) (fun j => nsum (nvals (F p q)) (fun i =>
      f (pair_weight n pos beta egs F p q j i) (energy (F (S p) q) j - energy (F p q) i))) else c0 K
  | _ => c0 K
  end.

Lemma sgn_sq q : (@z2k RRing (parity_sign q)) * (@z2k RRing (parity_sign q)) = 1.
Proof. unfold parity_sign. destruct (Nat.even q); simpl; ring. Qed.

Lemma sq_sign (x y s : R) : s * s = 1 -> x = s * y -> x ^ 2 = y ^ 2.
Proof. intros H ->. transitivity (s * s * y ^ 2); [ring|rewrite H; ring]. Qed.

Section Loop.
Variables (n : nat) (es : espace RRing) (F : family) (beta egs : R) (pos : nat).
Hypothesis HF : lists_family n es F. Hypothesis Hpos : (pos < n)%nat.

Lemma loop_sum keys acc : (forall k, In k keys -> In k (grid n)) -> length (fst acc) = length (snd acc) ->
  exists qs ls, foldM (fun acc key =>
      match key with
      | [nupI; ndwI] =>
          do sI <- es_get es [nupI; ndwI];
          if (S nupI <=? n)%nat then
            do sJ <- es_get es [S nupI; ndwI];
            do b <- project_exact_up RRing pos n OpCdg sI sJ;
            Ok (fst acc ++ weights_of beta egs sI sJ b, snd acc ++ lambdas_of egs sI sJ)
          else Ok acc
      | _ => Err ValueError
      end) keys acc = Ok (qs, ls) /\ length qs = length ls /\
  forall (K : CRing) (f : R -> R -> K), bsum (fun p => f (fst p) (snd p)) (List.combine qs ls) =
    cadd K (bsum (fun p => f (fst p) (snd p)) (List.combine (fst acc) (snd acc))) (bsum (key_sum K f n pos beta egs F) keys).
Proof.
  revert acc. induction keys as [|k keys IH]; intros [qs ls] Hk L; cbn [fst snd] in *.
  - exists qs, ls. repeat split; auto. intros K f. simpl. pose proof (cth K). symmetry. rewrite (Radd_comm H). apply (Radd_0_l H).
  - destruct (proj1 (in_grid n k) (Hk k (or_introl eq_refl))) as (p & q & Hp & Hq & ->). cbn [foldM].
    rewrite (es_get_family n es F p q HF Hp Hq). cbn [bind]. destruct (S p <=? n)%nat eqn:E.
    + pose proof E as E0. apply Nat.leb_le in E0. rewrite (es_get_family n es F (S p) q HF E0 Hq). cbn [bind].
      destruct HF as (_ & _ & HS).
      destruct (project_exact_up_spec RRing n p (S p) q pos OpCdg (F p q) (F (S p) q) (HS p q Hp Hq) (HS (S p) q E0 Hq) eq_refl Hpos) as (v & EV & LV & RV & HV).
      rewrite EV. cbn [bind].
      assert (S2 : forall (K : CRing) (f : R -> R -> K), length (weights_of beta egs (F p q) (F (S p) q) v) = length (lambdas_of egs (F p q) (F (S p) q)) /\
         bsum (fun p => f (fst p) (snd p)) (List.combine (weights_of beta egs (F p q) (F (S p) q) v) (lambdas_of egs (F p q) (F (S p) q))) =
         key_sum K f n pos beta egs F [p; q]).
      { intros K f. destruct (pairs_sum K f beta egs (F p q) (F (S p) q) v LV RV) as [A B]. split; auto.
        rewrite B. unfold key_sum. rewrite E. apply nsum_ext. intros j Hj. apply nsum_ext. intros i Hi. f_equal.
        unfold pair_weight, bra2, boltz, weight. f_equal.
        exact (sq_sign _ _ _ (sgn_sq q) (HV j i Hj Hi)). }
      destruct (IH (qs ++ weights_of beta egs (F p q) (F (S p) q) v, ls ++ lambdas_of egs (F p q) (F (S p) q))) as (qs' & ls' & E1 & L1 & H1).
      { intros; apply Hk; now right. }
      { cbn [fst snd]. rewrite !app_length. destruct (S2 RRing (fun _ _ => 0)). congruence. }
      exists qs', ls'. split; [exact E1|]. split; [exact L1|]. intros K f. rewrite H1. cbn [fst snd bsum]. rewrite combine_app_eq by auto. rewrite bsum_app.
      destruct (S2 K f) as [_ ->]. pose proof (cth K) as T. symmetry. apply (Radd_assoc T).
    + destruct (IH (qs, ls)) as (qs' & ls' & E1 & L1 & H1); auto. { intros; apply Hk; now right. }
      exists qs', ls'. split; [exact E1|]. split; [exact L1|]. intros K f. rewrite H1. cbn [fst snd bsum key_sum]. rewrite E.
      pose proof (cth K) as T. f_equal. symmetry. apply (Radd_0_l T).
Qed.
End Loop.
