(** Proofs about the parallel loops: every interleaving of every distribution
    of the iterations over threads gives the sequential result. *)
From Coq Require Import List Arith NArith ZArith Lia Bool Permutation.
From Verif Require Import Base HoppingModel MatvecModel.
Import ListNotations.

Section Par.
Variable F : Type.
Variables fadd fmul : F -> F -> F.
Notation upd := (nat * F)%type.
Notation runs := (run_updates F fadd).

Definition hits (c : nat) (us : list upd) : list F :=
  map snd (filter (fun u => fst u =? c) us).
Definition cell (us : list upd) (c : nat) (v : F) : F := fold_left fadd (hits c us) v.

Lemma hits_app c a b : hits c (a ++ b) = hits c a ++ hits c b.
Proof. unfold hits. now rewrite filter_app, map_app. Qed.
Lemma hits_none c us : (forall u, In u us -> fst u <> c) -> hits c us = [].
Proof.
  unfold hits. induction us as [|u us IH]; intros H; cbn [filter map]; auto.
  destruct (Nat.eqb_spec (fst u) c) as [E|E]; [|apply IH; intros; apply H; now right].
  exfalso. apply (H u); [now left|auto].
Qed.
Lemma cell_app a b c v : cell (a ++ b) c v = cell b c (cell a c v).
Proof. unfold cell. now rewrite hits_app, fold_left_app. Qed.

Lemma nth_error_upd_tot {A} (l : list A) k a j :
  nth_error (upd_tot l k a) j = if (j =? k) then match nth_error l j with Some _ => Some a | None => None end
                                else nth_error l j.
Proof.
  revert k j; induction l as [|x l IH]; intros k j.
  - destruct k, j; cbn; try reflexivity; now destruct (_ =? _).
  - destruct k, j; cbn [upd_tot nth_error]; cbn [Nat.eqb]; auto.
Qed.

Lemma nth_error_list_ext {A} (l l' : list A) : (forall k, nth_error l k = nth_error l' k) -> l = l'.
Proof.
  revert l'; induction l as [|a l IH]; intros [|a' l'] H; auto.
  - specialize (H 0). discriminate.
  - specialize (H 0). discriminate.
  - pose proof (H 0) as H0. injection H0 as ->. f_equal. apply IH. intros k. apply (H (S k)).
Qed.

Lemma runs_cells us : forall y y', runs us y = Ok y' ->
  length y' = length y /\ (forall u, In u us -> fst u < length y) /\
  forall c v, nth_error y c = Some v -> nth_error y' c = Some (cell us c v).
Proof.
  induction us as [|u us IH]; intros y y'; unfold run_updates; cbn [foldM].
  - intros E. injection E as <-. split; auto. split; [intros u []|]. auto.
  - unfold run_update at 1. destruct (nth_error y (fst u)) as [v|] eqn:Ev; cbn [bind]; [|discriminate].
    intros E. apply IH in E. destruct E as [L [B V]]. rewrite upd_tot_length in *.
    split; auto. split.
    + intros u' [<-|Hu']; [apply nth_error_Some; congruence|auto].
    + intros c w Hc. replace (cell (u :: us) c w) with (cell us c (if fst u =? c then fadd w (snd u) else w))
        by (unfold cell, hits; cbn [filter]; now destruct (fst u =? c)).
      apply V. rewrite nth_error_upd_tot. destruct (Nat.eqb_spec c (fst u)) as [->|Hne].
      * rewrite Ev in *. injection Hc as ->. now rewrite Nat.eqb_refl.
      * rewrite (proj2 (Nat.eqb_neq (fst u) c)) by congruence. auto.
Qed.

(** ** Disjoint iterations *)
Definition disj (a b : list upd) : Prop := forall u v, In u a -> In v b -> fst u <> fst v.

Lemma disj_sym a b : disj a b -> disj b a.
Proof. intros H u v Hu Hv E. apply (H v u); auto. Qed.

Fixpoint alldisj (l : list (list upd)) : Prop :=
  match l with [] => True | a :: l => (forall b, In b l -> disj a b) /\ alldisj l end.

Lemma alldisj_perm l l' : Permutation l l' -> alldisj l -> alldisj l'.
Proof.
  induction 1; cbn [alldisj]; auto.
  - intros [H1 H2]. split; auto. intros b Hb. apply H1. eapply Permutation_in; [symmetry; eassumption|auto].
  - intros [H1 [H2 H3]]. split; [|split; auto].
    + intros b [<-|Hb]; [apply disj_sym, H1; now left|auto].
    + intros b Hb. apply H1. now right.
Qed.

Lemma hits_perm c l l' : Permutation l l' -> alldisj l -> hits c (concat l) = hits c (concat l').
Proof.
  intros P. induction P; cbn [alldisj concat]; auto.
  - intros [_ H]. now rewrite !hits_app, IHP.
  - intros [H _]. rewrite !hits_app, !app_assoc. f_equal.
    assert (D : disj y x) by (apply H; now left). clear H.
    destruct (filter (fun u => fst u =? c) y) as [|u ty] eqn:Ey.
    + unfold hits at 1 4. rewrite Ey. cbn. now rewrite app_nil_r.
    + rewrite (hits_none c x); [now rewrite app_nil_r|]. intros v Hv E.
      assert (Hu : In u (filter (fun u => fst u =? c) y)) by (rewrite Ey; now left).
      apply filter_In in Hu. destruct Hu as [Hu Hc]. apply Nat.eqb_eq in Hc.
      apply (D u v); congruence.
  - intros H. rewrite IHP1 by auto. apply IHP2. eapply alldisj_perm; eauto.
Qed.

Lemma alldisj_app a b : alldisj (a ++ b) -> alldisj a /\ alldisj b /\ (forall x y, In x a -> In y b -> disj x y).
Proof.
  induction a as [|x a IH]; cbn [app alldisj]; [intros H; split; [exact I|]; split; auto; intros ? ? []|].
  intros [H1 H2]. destruct (IH H2) as [A1 [A2 A3]]. split; [split; auto|].
  - intros z Hz. apply H1. apply in_or_app. now left.
  - split; auto. intros z w [<-|Hz] Hw; [apply H1; apply in_or_app; now right|auto].
Qed.

Lemma alldisj_groups (gs : list (list (list upd))) : alldisj (concat gs) -> alldisj (map (@concat _) gs).
Proof.
  induction gs as [|g gs IH]; cbn [concat map alldisj]; auto.
  intros H. apply alldisj_app in H. destruct H as [_ [H2 H3]]. split; auto.
  intros b Hb u v Hu Hv. apply in_map_iff in Hb. destruct Hb as [g' [<- Hg']].
  apply in_concat in Hu. destruct Hu as [x [Hx Hu]]. apply in_concat in Hv. destruct Hv as [z [Hz Hv]].
  apply (H3 x z Hx); auto. apply in_concat. eauto.
Qed.

Lemma concat_groups (gs : list (list (list upd))) : concat (map (@concat _) gs) = concat (concat gs).
Proof. induction gs; cbn [map concat]; auto. now rewrite concat_app, IHgs. Qed.

(** ** The invariant of an interleaved execution *)
Definition tinv (y : list F) (prog d : list upd) (s : tstate F) : Prop :=
  prog = d ++ todo F s /\
  match reg F s with
  | None => True
  | Some v => match todo F s with [] => False | (t, x) :: _ => nth_error y t = Some v end
  end.

Inductive all3 {A B C} (P : A -> B -> C -> Prop) : list A -> list B -> list C -> Prop :=
| all3_nil : all3 P [] [] []
| all3_cons a b c la lb lc : P a b c -> all3 P la lb lc -> all3 P (a :: la) (b :: lb) (c :: lc).

Definition inv (y0 : list F) (progs : list (list upd)) (cfg : list F * list (tstate F)) : Prop :=
  exists ds, all3 (tinv (fst cfg)) progs ds (snd cfg) /\ length (fst cfg) = length y0 /\
    forall c v, nth_error y0 c = Some v -> nth_error (fst cfg) c = Some (cell (concat ds) c v).

Lemma inv_start y0 progs : inv y0 progs (y0, map (start F) progs).
Proof.
  exists (map (fun _ => []) progs). cbn [fst snd]. split; [|split; auto].
  - induction progs; cbn [map]; constructor; auto. split; [reflexivity|exact I].
  - intros c v Hc. rewrite Hc. f_equal. symmetry. induction progs; cbn [map concat]; auto.
Qed.

Lemma tstep_pres y s y' s' prog d : tstep F fadd y s y' s' -> tinv y prog d s ->
  exists new, tinv y' prog (d ++ new) s' /\
    match new with
    | [] => y' = y
    | [(t, x)] => t < length y /\ exists v, nth_error y t = Some v /\ y' = upd_tot y t (fadd v x)
    | _ => False
    end.
Proof.
  intros St [Hp Hr]. destruct St as [y t v x l Hv|y t v x l Hlt]; cbn [todo reg] in *.
  - exists []. split; [|reflexivity]. rewrite app_nil_r. split; [exact Hp|]. exact Hv.
  - exists [(t, x)]. split.
    + split; cbn [todo reg]; [|exact I]. now rewrite <- app_assoc.
    + split; auto. exists v. auto.
Qed.

(** A store by one thread does not disturb the others. *)
Lemma tinv_frame y t v prog d s : (forall u, In u prog -> fst u <> t) ->
  tinv y prog d s -> tinv (upd_tot y t v) prog d s.
Proof.
  intros H [Hp Hr]. split; auto. destruct (reg F s); auto. destruct (todo F s) as [|[t' x] l]; auto.
  rewrite nth_error_upd_tot. destruct (Nat.eqb_spec t' t) as [->|]; auto.
  exfalso. apply (H (t, x)); [rewrite Hp; apply in_or_app; right; now left|reflexivity].
Qed.

Lemma all3_frame y t v progs ds ss : (forall p u, In p progs -> In u p -> fst u <> t) ->
  all3 (tinv y) progs ds ss -> all3 (tinv (upd_tot y t v)) progs ds ss.
Proof.
  intros H A. induction A; constructor.
  - apply tinv_frame; auto. intros u Hu. apply (H a); [now left|auto].
  - apply IHA. intros p u Hp. apply H. now right.
Qed.

Lemma all3_step y s y' s' progs : alldisj progs -> forall k ds ss,
  all3 (tinv y) progs ds ss -> nth_error ss k = Some s -> tstep F fadd y s y' s' ->
  exists ds', all3 (tinv y') progs ds' (upd_tot ss k s') /\ length y' = length y /\
    ((y' = y /\ ds' = ds) \/
     exists t x v, t < length y /\ nth_error y t = Some v /\ y' = upd_tot y t (fadd v x) /\
       (exists prog, In prog progs /\ In (t, x) prog) /\
       forall c, hits c (concat ds') = if c =? t then hits c (concat ds) ++ [x] else hits c (concat ds)).
Proof.
  induction progs as [|p progs IH]; intros DJ k ds ss A Hk St.
  - inversion A; subst. now destruct k.
  - destruct DJ as [D1 D2]. inversion A as [|? d s0 ? ds0 ss0 Ht A']; subst.
    assert (Hsub : forall q e r u, all3 (tinv y) q e r -> In u (concat e) -> exists p', In p' q /\ In u p').
    { intros q e r u B. induction B as [|a b c la lb lc Hi B IHB]; cbn [concat]; [intros []|].
      intros Hu. apply in_app_or in Hu. destruct Hu as [Hu|Hu].
      - exists a. split; [now left|]. destruct Hi as [-> _]. apply in_or_app. now left.
      - destruct (IHB Hu) as [p' [H1 H2]]. exists p'. split; auto. now right. }
    destruct k; cbn [nth_error upd_tot] in *.
    + injection Hk as ->. destruct (tstep_pres _ _ _ _ _ _ St Ht) as [new [Ht' Hn]].
      destruct new as [|[t x] [|? ?]]; [| |destruct Hn].
      * subst y'. exists ((d ++ []) :: ds0). split; [constructor; auto|]. split; auto. left.
        now rewrite app_nil_r.
      * destruct Hn as [Hlt [v [Hv ->]]]. exists ((d ++ [(t, x)]) :: ds0).
        assert (Hin : In (t, x) p).
        { destruct Ht' as [-> _]. apply in_or_app. left. apply in_or_app. right. now left. }
        split; [|split; [now rewrite upd_tot_length|]].
        -- constructor; auto. apply all3_frame; auto. intros p' u Hp' Hu E.
           apply (D1 p' Hp' (t, x) u); auto.
        -- right. exists t, x, v. split; auto. split; auto. split; auto. split.
           { exists p. split; [now left|auto]. }
           intros c. cbn [concat]. rewrite !hits_app. destruct (Nat.eqb_spec c t) as [->|Hne].
           ++ rewrite (hits_none t (concat ds0)).
              ** unfold hits at 2. cbn. rewrite Nat.eqb_refl. cbn. now rewrite !app_nil_r.
              ** intros u Hu E. destruct (Hsub _ _ _ _ A' Hu) as [p' [Hp' Hu']].
                 apply (D1 p' Hp' (t, x) u); auto.
           ++ unfold hits at 2. cbn. destruct (Nat.eqb_spec t c); [congruence|]. cbn. now rewrite app_nil_r.
    + destruct (IH D2 k ds0 ss0 A' Hk St) as [ds' [A2 [L C]]]. exists (d :: ds').
      destruct C as [[-> ->]|[t [x [v [Hlt [Hv [-> [[pr [Hpr Hx]] Hh]]]]]]]].
      * split; [constructor; auto|]. split; auto.
      * split; [|split; auto].
        -- constructor; auto. apply tinv_frame; auto. intros u Hu E. apply (D1 pr Hpr u (t, x)); auto.
        -- right. exists t, x, v. split; auto. split; auto. split; auto. split.
           { exists pr. split; [now right|auto]. }
           intros c. cbn [concat]. rewrite !hits_app, Hh. destruct (c =? t); auto. now rewrite app_assoc.
Qed.

Lemma inv_step y0 progs c c' : alldisj progs -> inv y0 progs c -> pstep F fadd c c' -> inv y0 progs c'.
Proof.
  intros DJ [ds [A [L V]]] St. destruct St as [k y y' s s' ss Hk St]. cbn [fst snd] in *.
  destruct (all3_step y s y' s' progs DJ k ds ss A Hk St) as [ds' [A' [L' C]]].
  exists ds'. cbn [fst snd]. split; auto. split; [congruence|].
  destruct C as [[-> ->]|[t [x [v [Hlt [Hv [-> [_ Hh]]]]]]]]; auto.
  intros c w Hc. rewrite nth_error_upd_tot. unfold cell. rewrite Hh. specialize (V c w Hc).
  rewrite V. destruct (Nat.eqb_spec c t) as [->|]; auto.
  rewrite V in Hv. injection Hv as <-. rewrite fold_left_app. reflexivity.
Qed.

Lemma inv_steps y0 progs n c c' : alldisj progs -> inv y0 progs c -> psteps F fadd n c c' -> inv y0 progs c'.
Proof. intros DJ H St. induction St; auto. apply IHSt. eapply inv_step; eauto. Qed.

Lemma inv_finished y0 progs y ss : inv y0 progs (y, ss) -> finished F ss ->
  length y = length y0 /\ forall c v, nth_error y0 c = Some v -> nth_error y c = Some (cell (concat progs) c v).
Proof.
  intros [ds [A [L V]]] Fin. cbn [fst snd] in *. split; auto.
  assert (E : ds = progs).
  { clear V L. induction A as [|a b c la lb lc [Hp _] A IHA]; auto. f_equal.
    - rewrite (Fin c) in Hp by now left. cbn in Hp. now rewrite app_nil_r in Hp.
    - apply IHA. intros s Hs. apply Fin. now right. }
  subst. auto.
Qed.

(** ** Termination and absence of deadlock *)
Definition tcost (s : tstate F) : nat :=
  2 * length (todo F s) - match reg F s with None => 0 | Some _ => 1 end.
Definition cost (ss : list (tstate F)) : nat := fold_right (fun s n => tcost s + n) 0 ss.

Lemma cost_upd k s s' ss : nth_error ss k = Some s -> tcost s = S (tcost s') ->
  cost ss = S (cost (upd_tot ss k s')).
Proof.
  revert k; induction ss as [|a ss IH]; intros [|k] Hk Hc; cbn [nth_error upd_tot cost fold_right] in *; try discriminate.
  all: fold (cost ss); try fold (cost (upd_tot ss k s')).
  - injection Hk as ->. lia.
  - rewrite (IH k Hk Hc). lia.
Qed.

Lemma pstep_cost c c' : pstep F fadd c c' -> cost (snd c) = S (cost (snd c')).
Proof.
  destruct 1 as [k y y' s s' ss Hk St]. cbn [snd]. apply (cost_upd _ s); auto.
  destruct St; unfold tcost; cbn [todo reg length]; lia.
Qed.

Lemma psteps_cost n c c' : psteps F fadd n c c' -> cost (snd c) = n + cost (snd c').
Proof. induction 1; auto. apply pstep_cost in H. lia. Qed.

Lemma cost_start progs : cost (map (start F) progs) = 2 * length (concat progs).
Proof.
  induction progs; cbn [map cost fold_right concat]; auto. rewrite app_length. unfold cost in IHprogs.
  rewrite IHprogs. unfold tcost, start. cbn [todo reg]. lia.
Qed.

Lemma cost_finished ss : finished F ss -> cost ss = 0.
Proof.
  induction ss; intros H; auto. cbn. rewrite (H a) by now left. cbn. apply IHss. intros s Hs. apply H. now right.
Qed.

Lemma progress y0 progs y ss : inv y0 progs (y, ss) ->
  (forall u, In u (concat progs) -> fst u < length y0) -> ~ finished F ss ->
  exists c', pstep F fadd (y, ss) c'.
Proof.
  intros [ds [A [L V]]] B NF. cbn [fst snd] in *.
  assert (H : exists k s y' s', nth_error ss k = Some s /\ tstep F fadd y s y' s').
  { clear V. induction A as [|p d s la lb lc [Hp Hr] A IHA].
    - exfalso. apply NF. intros s [].
    - destruct s as [[v|] [|[t x] l]]; cbn [todo reg] in *.
      + destruct Hr.
      + exists 0. eexists. eexists. eexists. split; [reflexivity|]. apply ts_store.
        apply nth_error_Some. congruence.
      + destruct IHA as [k [s [y' [s' [Hk St]]]]].
        * intros u Hu. apply B. cbn [concat]. apply in_or_app. now right.
        * intros Fin. apply NF. intros s [<-|Hs]; auto.
        * exists (S k), s, y', s'. auto.
      + assert (Ht : t < length y).
        { rewrite L. apply (B (t, x)). cbn [concat]. apply in_or_app. left. rewrite Hp. apply in_or_app.
          right. now left. }
        destruct (nth_error y t) as [v|] eqn:Ev; [|apply nth_error_None in Ev; lia].
        exists 0. eexists. eexists. eexists. split; [reflexivity|]. apply ts_load. eauto. }
  destruct H as [k [s [y' [s' [Hk St]]]]]. eexists. eapply ps; eauto.
Qed.

(** ** Main theorem *)
Lemma parallel_ok (its : list (list upd)) groups y z : alldisj its ->
  Permutation (concat groups) its -> runs (concat its) y = Ok z ->
  forall n c, psteps F fadd n (y, map (start F) (map (@concat _) groups)) c ->
    n <= 2 * length (concat its) /\
    (finished F (snd c) -> fst c = z /\ n = 2 * length (concat its)) /\
    (~ finished F (snd c) -> exists c', pstep F fadd c c').
Proof.
  intros DJ P R n c St.
  assert (DJ' : alldisj (concat groups)) by (eapply alldisj_perm; [symmetry; eauto|auto]).
  set (progs := map (@concat _) groups) in *.
  assert (DJp : alldisj progs) by now apply alldisj_groups.
  assert (I : inv y progs c) by (eapply inv_steps; eauto; apply inv_start).
  assert (LP : length (concat progs) = length (concat its)).
  { unfold progs. rewrite concat_groups. apply Permutation_length.
    clear -P. induction P; cbn [concat]; auto.
    - now apply Permutation_app_head.
    - rewrite !app_assoc. apply Permutation_app_tail, Permutation_app_comm.
    - etransitivity; eauto. }
  apply runs_cells in R. destruct R as [RL [RB RV]].
  pose proof (psteps_cost _ _ _ St) as C. cbn [snd] in C. rewrite cost_start in C. unfold update in *. rewrite LP in C.
  destruct c as [y' ss]. cbn [fst snd] in *. split; [lia|]. split.
  - intros Fin. rewrite (cost_finished ss Fin) in C. split; [|lia].
    destruct (inv_finished _ _ _ _ I Fin) as [L V]. apply nth_error_list_ext.
    intros k. destruct (nth_error y k) as [v|] eqn:Ek.
    + rewrite (V _ _ Ek), (RV _ _ Ek). unfold cell, progs. rewrite concat_groups.
      now rewrite (hits_perm k _ _ P DJ').
    + apply nth_error_None in Ek. rewrite !(proj2 (nth_error_None _ _)); auto; lia.
  - intros NF. apply (progress y progs); auto. intros u Hu. apply RB.
    unfold progs in Hu. rewrite concat_groups in Hu. apply in_concat in Hu. destruct Hu as [us [Hus Hu]].
    apply in_concat. exists us. split; auto. eapply Permutation_in; eauto.
Qed.

(** ** The three loops have disjoint iterations *)
Lemma mapM_inv {A B} (f : A -> res B) l bs : mapM f l = Ok bs -> Forall2 (fun a b => f a = Ok b) l bs.
Proof.
  revert bs; induction l as [|a l IH]; intros bs; cbn [mapM].
  - intros E. injection E as <-. constructor.
  - destruct (f a) as [b|] eqn:Ea; cbn [bind]; [|discriminate].
    destruct (mapM f l) as [bs'|] eqn:El; cbn [bind]; [|discriminate].
    intros E. injection E as <-. constructor; auto.
Qed.

Lemma row_updates_target A W r t src us : row_updates F fmul A W r t src = Ok us ->
  forall u, In u us -> fst u = t.
Proof.
  unfold row_updates. intros E.
  destruct (rdo (r_indptr F A) r) as [lo|]; cbn [bind] in E; [|discriminate].
  destruct (rdo (r_indptr F A) (S r)) as [hi|]; cbn [bind] in E; [|discriminate].
  apply mapM_inv in E. revert E. generalize (seq lo (hi - lo)). intros l E. induction E as [|p u l us Hp E IH]; [intros u []|].
  intros u' [<-|Hu']; [|auto].
  destruct (rdo (r_data F A) p); cbn [bind] in Hp; [|discriminate].
  destruct (rdo (r_indices F A) p); cbn [bind] in Hp; [|discriminate].
  destruct (rdz W _); cbn [bind] in Hp; [|discriminate]. now injection Hp as <-.
Qed.

Lemma Forall2_in {A B} (P : A -> B -> Prop) l l' b : Forall2 P l l' -> In b l' -> exists a, In a l /\ P a b.
Proof.
  induction 1; intros Hb; [destruct Hb|]. destruct Hb as [<-|Hb].
  - exists x. split; auto. now left.
  - destruct (IHForall2 Hb) as [a [Ha Pa]]. exists a. split; auto. now right.
Qed.

Lemma gaxpy_targets A W off us : csr_gaxpy F fmul A W off = Ok us ->
  forall u, In u us -> off <= fst u < off + r_rows F A.
Proof.
  unfold csr_gaxpy. intros E. destruct (mapM _ _) as [l|] eqn:El; cbn [bind] in E; [|discriminate].
  injection E as <-. apply mapM_inv in El. intros u Hu. apply in_concat in Hu. destruct Hu as [us [Hus Hu]].
  destruct (Forall2_in _ _ _ _ El Hus) as [r [Hr E]]. apply in_seq in Hr.
  rewrite (row_updates_target _ _ _ _ _ _ E u Hu). lia.
Qed.

Lemma saxpy_targets A W i n us : csr_saxpy F fmul A W i n = Ok us ->
  forall u, In u us -> i * n <= fst u < i * n + n.
Proof.
  unfold csr_saxpy. intros E.
  destruct (rdo (r_indptr F A) i) as [lo|]; cbn [bind] in E; [|discriminate].
  destruct (rdo (r_indptr F A) (S i)) as [hi|]; cbn [bind] in E; [|discriminate].
  destruct (mapM _ _) as [l|] eqn:El; cbn [bind] in E; [|discriminate].
  injection E as <-. apply mapM_inv in El. intros u Hu. apply in_concat in Hu. destruct Hu as [us [Hus Hu]].
  destruct (Forall2_in _ _ _ _ El Hus) as [p [_ E]]. apply mapM_inv in E.
  destruct (Forall2_in _ _ _ _ E Hu) as [s [Hs Hp]]. apply in_seq in Hs.
  destruct (rdo (r_data F A) p); cbn [bind] in Hp; [|discriminate].
  destruct (rdo (r_indices F A) p); cbn [bind] in Hp; [|discriminate].
  destruct (rdz W _); cbn [bind] in Hp; [|discriminate]. injection Hp as <-. cbn [fst]. lia.
Qed.

Lemma blocks_alldisj b l (its : list (list upd)) : NoDup l ->
  Forall2 (fun i us => forall u, In u us -> i * b <= fst u < i * b + b) l its -> alldisj its.
Proof.
  intros ND F2. induction F2 as [|i us l its H F2 IH]; cbn [alldisj]; auto.
  inversion ND as [|? ? Hni ND']; subst. split; auto.
  intros us' Hus' u v Hu Hv E. destruct (Forall2_in _ _ _ _ F2 Hus') as [j [Hj Hv']].
  specialize (H u Hu). specialize (Hv' v Hv). assert (i <> j) by (intros ->; auto). nia.
Qed.

Lemma Forall2_impl' {A B} (P Q : A -> B -> Prop) l l' : Forall2 P l l' -> (forall a b, P a b -> Q a b) -> Forall2 Q l l'.
Proof. induction 1; constructor; auto. Qed.

Lemma up_disj A W its : up_threads F fmul A W = Ok its -> alldisj its.
Proof.
  unfold up_threads. destruct (r_rows F A =? 0); [discriminate|]. intros E. apply mapM_inv in E.
  eapply (blocks_alldisj (r_rows F A)); [|eapply Forall2_impl'; [exact E|]].
  - apply seq_NoDup.
  - intros i us Hi. exact (gaxpy_targets _ _ _ _ Hi).
Qed.

Lemma dw_disj A W its : dw_threads F fmul A W = Ok its -> alldisj its.
Proof.
  unfold dw_threads. destruct (r_rows F A =? 0); [discriminate|]. intros E. apply mapM_inv in E.
  eapply (blocks_alldisj (length W / r_rows F A)); [|eapply Forall2_impl'; [exact E|]].
  - apply seq_NoDup.
  - intros i us Hi. exact (saxpy_targets _ _ _ _ _ Hi).
Qed.

Lemma nl_disj A W its : nl_threads F fmul A W = Ok its -> alldisj its.
Proof.
  unfold nl_threads. intros E. apply mapM_inv in E.
  eapply (blocks_alldisj 1); [|eapply Forall2_impl'; [exact E|]].
  - apply seq_NoDup.
  - intros i us Hi u Hu. rewrite (row_updates_target _ _ _ _ _ _ Hi u Hu). lia.
Qed.

End Par.

(** C24 for the three products. *)
Section Loops.
Variable F : Type.
Variables fadd fmul : F -> F -> F.

Lemma loop_ok (its : list (list (nat * F))) groups y z : alldisj F its -> run_updates F fadd (concat its) y = Ok z ->
  Permutation (concat groups) its ->
  forall n c, psteps F fadd n (y, map (start F) (map (@concat _) groups)) c ->
    n <= 2 * length (concat its) /\
    (finished F (snd c) -> fst c = z /\ n = 2 * length (concat its)) /\
    (~ finished F (snd c) -> exists c', pstep F fadd c c').
Proof. intros D R P. exact (parallel_ok F fadd its groups y z D P R). Qed.

Lemma up_parallel A W y z its groups : up_threads F fmul A W = Ok its -> UPmultiply F fadd fmul A W y = Ok z ->
  Permutation (concat groups) its ->
  forall n c, psteps F fadd n (y, map (start F) (map (@concat _) groups)) c ->
    n <= 2 * length (concat its) /\
    (finished F (snd c) -> fst c = z /\ n = 2 * length (concat its)) /\
    (~ finished F (snd c) -> exists c', pstep F fadd c c').
Proof.
  intros E R. unfold UPmultiply in R. rewrite E in R. apply loop_ok; auto. eapply up_disj; eauto.
Qed.
Lemma dw_parallel A W y z its groups : dw_threads F fmul A W = Ok its -> DWmultiply F fadd fmul A W y = Ok z ->
  Permutation (concat groups) its ->
  forall n c, psteps F fadd n (y, map (start F) (map (@concat _) groups)) c ->
    n <= 2 * length (concat its) /\
    (finished F (snd c) -> fst c = z /\ n = 2 * length (concat its)) /\
    (~ finished F (snd c) -> exists c', pstep F fadd c c').
Proof.
  intros E R. unfold DWmultiply in R. rewrite E in R. apply loop_ok; auto. eapply dw_disj; eauto.
Qed.
Lemma nl_parallel A W y z its groups : nl_threads F fmul A W = Ok its -> Multiply F fadd fmul A W y = Ok z ->
  Permutation (concat groups) its ->
  forall n c, psteps F fadd n (y, map (start F) (map (@concat _) groups)) c ->
    n <= 2 * length (concat its) /\
    (finished F (snd c) -> fst c = z /\ n = 2 * length (concat its)) /\
    (~ finished F (snd c) -> exists c', pstep F fadd c c').
Proof.
  intros E R. unfold Multiply in R. rewrite E in R. apply loop_ok; auto. eapply nl_disj; eauto.
Qed.
End Loops.
