(** Proofs about espace.py. *)
From Coq Require Import String Ascii List Arith NArith ZArith Bool Lia Sorted Permutation.
From Verif Require Import Base OperatorsModel OperatorsSpec OperatorsProofs LookupModel LookupProofs SectorModel SectorSpec SectorProofs
  LocalModel MatvecModel MbModel EspaceModel EspaceSpec.
Import ListNotations.

(** ** Symmetry names *)
Lemma ascii_cases (P : ascii -> Prop) : (forall b0 b1 b2 b3 b4 b5 b6 b7, P (Ascii b0 b1 b2 b3 b4 b5 b6 b7)) -> forall c, P c.
Proof. intros H [b0 b1 b2 b3 b4 b5 b6 b7]. apply H. Qed.

Lemma lower_s c : ascii_lower c = "s"%char <-> c = "s"%char \/ c = "S"%char.
Proof.
  split; [|intros [-> | ->]; reflexivity].
  destruct c as [[|] [|] [|] [|] [|] [|] [|] [|]]; vm_compute; intros E; try discriminate E; auto.
Qed.
Lemma lower_z c : ascii_lower c = "z"%char <-> c = "z"%char \/ c = "Z"%char.
Proof.
  split; [|intros [-> | ->]; reflexivity].
  destruct c as [[|] [|] [|] [|] [|] [|] [|] [|]]; vm_compute; intros E; try discriminate E; auto.
Qed.
Lemma upper_N c : ascii_upper c = "N"%char <-> c = "n"%char \/ c = "N"%char.
Proof.
  split; [|intros [-> | ->]; reflexivity].
  destruct c as [[|] [|] [|] [|] [|] [|] [|] [|]]; vm_compute; intros E; try discriminate E; auto.
Qed.

Lemma symmetry_names s :
  symmetry_of s = (if in_dec string_dec s ["sz"; "Sz"; "sZ"; "SZ"]%string then Ok SymSz
                   else if in_dec string_dec s ["n"; "N"]%string then Ok SymN else Err NotImplementedError).
Proof.
  unfold symmetry_of.
  destruct (String.eqb_spec (str_map ascii_lower s) "sz") as [E|E].
  - destruct (in_dec _ _ _) as [|N]; auto. exfalso. apply N.
    destruct s as [|a [|b [|c s]]]; cbn [str_map] in E; try discriminate E.
    injection E as E1 E2. apply lower_s in E1. apply lower_z in E2.
    destruct E1 as [-> | ->], E2 as [-> | ->]; cbn [In]; auto.
  - destruct (in_dec _ _ _) as [I|N].
    { exfalso. apply E. cbn [In] in I. destruct I as [<-|[<-|[<-|[<-|[]]]]]; reflexivity. }
    destruct (String.eqb_spec (str_map ascii_upper s) "N") as [E'|E'].
    + destruct (in_dec _ _ _) as [|N']; auto. exfalso. apply N'.
      destruct s as [|a [|b s]]; cbn [str_map] in E'; try discriminate E'.
      injection E' as E1. apply upper_N in E1. destruct E1 as [-> | ->]; cbn [In]; auto.
    + destruct (in_dec _ _ _) as [I|N']; auto. exfalso. apply E'. cbn [In] in I.
      destruct I as [<-|[<-|[]]]; reflexivity.
Qed.

(** ** Order and completeness of the iterators *)
Lemma in_iter sym n q : In q (iter_qns sym n) <-> qvalid sym n q.
Proof.
  destruct sym; unfold iter_qns, qvalid.
  - rewrite in_flat_map. split.
    + intros [a [Ha Hq]]. apply in_map_iff in Hq. destruct Hq as [b [<- Hb]].
      apply in_seq in Ha, Hb. exists a, b. repeat split; lia.
    + intros [a [b [-> [Ha Hb]]]]. exists a. split; [apply in_seq; lia|]. apply in_map_iff. exists b. split; auto. apply in_seq. lia.
  - rewrite in_map_iff. split.
    + intros [p [<- Hp]]. apply in_seq in Hp. exists p. split; auto. lia.
    + intros [p [-> Hp]]. exists p. split; auto. apply in_seq. lia.
Qed.

Lemma ss_app {A} (R : A -> A -> Prop) l l' : StronglySorted R l -> StronglySorted R l' ->
  (forall a b, In a l -> In b l' -> R a b) -> StronglySorted R (l ++ l').
Proof.
  induction l as [|a l IH]; cbn [app]; intros H H' HR; auto.
  inversion H; subst. constructor.
  - apply IH; auto. intros; apply HR; auto. now right.
  - apply Forall_app. split; auto. apply Forall_forall. intros b Hb. apply HR; auto. now left.
Qed.
Lemma ss_map {A B} (R : A -> A -> Prop) (R' : B -> B -> Prop) (f : A -> B) l :
  (forall a b, R a b -> R' (f a) (f b)) -> StronglySorted R l -> StronglySorted R' (map f l).
Proof.
  intros HR. induction 1; cbn [map]; constructor; auto.
  apply Forall_map. eapply Forall_impl; [|eassumption]. auto.
Qed.
Lemma ss_seq k : forall a, StronglySorted lt (seq a k).
Proof.
  induction k; intros a; cbn [seq]; constructor; auto.
  apply Forall_forall. intros b Hb. apply in_seq in Hb. lia.
Qed.

Lemma iter_sorted sym n : StronglySorted qless (iter_qns sym n).
Proof.
  destruct sym; unfold iter_qns.
  - assert (G : forall k a, StronglySorted qless (flat_map (fun nup => map (fun ndw => [nup; ndw]) (seq 0 (S n))) (seq a k))).
    { induction k; intros a; [constructor|]. change (seq a (S k)) with (a :: seq (S a) k). cbn [flat_map]. apply ss_app.
      - apply (ss_map lt); [|apply ss_seq]. intros x y Hxy. cbn [qless]. right. split; auto.
      - apply IHk.
      - intros x y Hx Hy. apply in_map_iff in Hx. destruct Hx as [i [<- Hi]].
        apply in_flat_map in Hy. destruct Hy as [b [Hb Hy]]. apply in_map_iff in Hy. destruct Hy as [j [<- Hj]].
        apply in_seq in Hb. cbn [qless]. left. lia. }
    apply G.
  - apply (ss_map lt); [|apply ss_seq]. intros x y Hxy. cbn [qless]. left. exact Hxy.
Qed.

Lemma qless_irrefl q : ~ qless q q.
Proof. induction q; cbn [qless]; intuition. Qed.
Lemma iter_nodup sym n : NoDup (iter_qns sym n).
Proof.
  pose proof (iter_sorted sym n) as H. induction H as [|q l H IH F]; constructor; auto.
  intros Hq. rewrite Forall_forall in F. apply (qless_irrefl q). auto.
Qed.

Lemma qpos_index sym n q : qvalid sym n q -> qns_index sym n q = qpos sym n q.
Proof.
  destruct sym; unfold qvalid.
  - intros [a [b [-> _]]]. reflexivity.
  - intros [p [-> _]]. reflexivity.
Qed.
Lemma qpos_inj sym n p q : qvalid sym n p -> qvalid sym n q -> qpos sym n p = qpos sym n q -> p = q.
Proof.
  destruct sym; unfold qvalid.
  - intros [a [b [-> [Ha Hb]]]] [c [d [-> [Hc Hd]]]]. cbn [qpos]. intros E.
    assert (a = c) by nia. subst c. assert (b = d) by nia. now subst.
  - intros [a [-> Ha]] [b [-> Hb]]. cbn [qpos]. now intros ->.
Qed.
Lemma qpos_lt sym n q : qvalid sym n q -> qpos sym n q < qtotal sym n.
Proof.
  destruct sym; unfold qvalid, qtotal.
  - intros [a [b [-> [Ha Hb]]]]. cbn [qpos]. nia.
  - intros [p [-> Hp]]. cbn [qpos]. lia.
Qed.

(** ** Request arrays *)
Lemma pyset_ok {A} (l : list A) i x : i < length l -> pyset l i x = Ok (upd_tot l i x).
Proof. intros H. unfold pyset. now rewrite upd_upd_tot. Qed.
Lemma pyget_ok {A} (l : list A) i x : nth_error l i = Some x -> pyget l (Z.of_nat i) = Ok x.
Proof.
  intros H. unfold pyget. destruct (Z.ltb_spec (Z.of_nat i) 0); [lia|]. cbv zeta.
  destruct (Z.ltb_spec (Z.of_nat i) 0); [lia|]. now rewrite Nat2Z.id, H.
Qed.
Lemma pyget_inv {A} (l : list A) i x : pyget l (Z.of_nat i) = Ok x -> nth_error l i = Some x.
Proof.
  unfold pyget. destruct (Z.ltb_spec (Z.of_nat i) 0); [lia|]. cbv zeta.
  destruct (Z.ltb_spec (Z.of_nat i) 0); [lia|]. rewrite Nat2Z.id. destruct (nth_error l i); congruence.
Qed.
Lemma sector_index_ok n a b : a <= n -> b <= n ->
  get_sector_index (Z.of_nat n) (Z.of_nat a) (Z.of_nat b) = Ok (Z.of_nat (a * (n + 1) + b)).
Proof.
  intros Ha Hb. unfold get_sector_index.
  destruct (Z.leb_spec 0 (Z.of_nat a)); [|lia]. destruct (Z.leb_spec (Z.of_nat a) (Z.of_nat n)); [|lia].
  destruct (Z.leb_spec 0 (Z.of_nat b)); [|lia]. destruct (Z.leb_spec (Z.of_nat b) (Z.of_nat n)); [|lia].
  cbn [andb]. f_equal. rewrite Nat2Z.inj_add, Nat2Z.inj_mul, Nat2Z.inj_add. reflexivity.
Qed.

Lemma dims_fold sym n (f : list Z -> qnums -> res (list Z)) :
  (forall l q, qvalid sym n q -> length l = qtotal sym n ->
     f l q = Ok (upd_tot l (qpos sym n q) (Z.of_nat (qdim n q)))) ->
  forall qs l, Forall (qvalid sym n) qs -> NoDup qs -> length l = qtotal sym n ->
  exists l', foldM f qs l = Ok l' /\ length l' = qtotal sym n /\
    (forall q, qvalid sym n q -> nth_error l' (qpos sym n q) =
       if in_dec (list_eq_dec Nat.eq_dec) q qs then Some (Z.of_nat (qdim n q)) else nth_error l (qpos sym n q)).
Proof.
  intros Hf. induction qs as [|q qs IH]; intros l Hq ND Hl.
  - exists l. cbn [foldM]. split; [auto|]. split; [auto|]. intros q _. destruct (in_dec _ _ _) as [[]|]. reflexivity.
  - inversion Hq as [|? ? Hv Hq']; subst. inversion ND as [|? ? Hni ND']; subst.
    cbn [foldM]. rewrite Hf by auto. cbn [bind].
    destruct (IH (upd_tot l (qpos sym n q) (Z.of_nat (qdim n q))) Hq' ND') as [l' [E [L' V']]].
    { now rewrite upd_tot_length. }
    exists l'. split; [exact E|]. split; [exact L'|]. intros p Hp. rewrite V' by auto.
    destruct (in_dec (list_eq_dec Nat.eq_dec) p qs) as [I|I]; destruct (in_dec (list_eq_dec Nat.eq_dec) p (q :: qs)) as [I'|I'].
    + reflexivity.
    + exfalso. apply I'. now right.
    + destruct I' as [<-|]; [|tauto]. rewrite nth_error_upd_tot, Nat.eqb_refl.
      destruct (Nat.ltb_spec (qpos sym n q) (length l)); auto. pose proof (qpos_lt sym n q Hv). lia.
    + rewrite nth_error_upd_tot. destruct (Nat.eqb_spec (qpos sym n q) (qpos sym n p)) as [E'|]; auto.
      exfalso. apply I'. left. eapply qpos_inj; eauto.
Qed.

Lemma espace_dims n neig_max s sym : symmetry_of s = Ok sym ->
  exists l, get_espace_dim n neig_max s = Ok l /\ length l = qtotal sym n /\
    forall q, qvalid sym n q -> nth_error l (qpos sym n q) =
      Some (match neig_max with
            | None => Z.of_nat (qdim n q)
            | Some m => if Z.eqb m 0 then Z.of_nat (qdim n q) else Z.min (Z.of_nat (qdim n q)) m
            end).
Proof.
  intros Es. unfold get_espace_dim. rewrite Es. cbn [bind].
  assert (G : exists l, match sym with
          | SymSz =>
            foldM (fun l q =>
              do i <- get_sector_index (Z.of_nat n) (Z.of_nat (nth 0 q 0)) (Z.of_nat (nth 1 q 0));
              pyset l (Z.to_nat i) (Z.of_nat (get_sector_dim n (nth 0 q 0) (nth 1 q 0))))
              (iter_qns SymSz n) (repeat 0%Z ((n + 1) * (n + 1)))
          | SymN =>
            foldM (fun l q => pyset l (nth 0 q 0) (Z.of_nat (binom (2 * n) (nth 0 q 0))))
              (iter_qns SymN n) (repeat 0%Z (2 * n + 1))
          end = Ok l /\ length l = qtotal sym n /\
          forall q, qvalid sym n q -> nth_error l (qpos sym n q) = Some (Z.of_nat (qdim n q))).
  { assert (HV : Forall (qvalid sym n) (iter_qns sym n)) by (apply Forall_forall; intros q; apply in_iter).
    destruct sym.
    - destruct (dims_fold SymSz n (fun l q =>
              do i <- get_sector_index (Z.of_nat n) (Z.of_nat (nth 0 q 0)) (Z.of_nat (nth 1 q 0));
              pyset l (Z.to_nat i) (Z.of_nat (get_sector_dim n (nth 0 q 0) (nth 1 q 0))))) with (qs := iter_qns SymSz n)
        (l := repeat 0%Z ((n + 1) * (n + 1))) as [l [E [L V']]].
      + intros l q Hq Hl. pose proof (qpos_lt SymSz n q Hq) as HL. destruct Hq as [a [b [-> [Ha Hb]]]].
        cbn [nth]. rewrite sector_index_ok by auto. cbn [bind]. rewrite Nat2Z.id. apply pyset_ok.
        rewrite Hl. exact HL.
      + exact HV.
      + apply iter_nodup.
      + apply repeat_length.
      + exists l. split; [exact E|]. split; [exact L|]. intros q Hq. rewrite V' by auto.
        destruct (in_dec _ _ _) as [|N]; auto. exfalso. apply N. now apply in_iter.
    - destruct (dims_fold SymN n (fun l q => pyset l (nth 0 q 0) (Z.of_nat (binom (2 * n) (nth 0 q 0))))) with (qs := iter_qns SymN n)
        (l := repeat 0%Z (2 * n + 1)) as [l [E [L V']]].
      + intros l q Hq Hl. pose proof (qpos_lt SymN n q Hq) as HL. destruct Hq as [p [-> Hp]].
        cbn [nth]. apply pyset_ok. rewrite Hl. exact HL.
      + exact HV.
      + apply iter_nodup.
      + apply repeat_length.
      + exists l. split; [exact E|]. split; [exact L|]. intros q Hq. rewrite V' by auto.
        destruct (in_dec _ _ _) as [|N]; auto. exfalso. apply N. now apply in_iter. }
  destruct G as [l [E [L Vl]]]. exists (clip neig_max l). rewrite E. split; [reflexivity|].
  unfold clip. destruct neig_max as [m|]; [|split; auto].
  destruct (Z.eqb_spec m 0); [split; auto|]. split; [now rewrite map_length|].
  intros q Hq. rewrite nth_error_map, Vl by auto. cbn [option_map]. f_equal.
  destruct (Z.leb_spec (Z.of_nat (qdim n q)) m); lia.
Qed.

Lemma espace_dims_raises n neig_max s e : symmetry_of s = Err e -> get_espace_dim n neig_max s = Err e.
Proof. intros E. unfold get_espace_dim. now rewrite E. Qed.

Lemma nth_error_firstn {A} m (l : list A) : forall i, i < m -> nth_error (firstn m l) i = nth_error l i.
Proof.
  revert l. induction m; intros l i Hi; [lia|]. destruct l; [reflexivity|]. destruct i; [reflexivity|].
  cbn [firstn nth_error]. apply IHm. lia.
Qed.

(** ** build_espace *)
Section Build.
Variable K : CRing.
Variable leb : K -> K -> bool.
Hypothesis leb_total : forall a b, leb a b = true \/ leb b a = true.
Hypothesis leb_trans : forall a b c, leb a b = true -> leb b c = true -> leb a c = true.
Variable big : K -> bool.
Variable half : K.
Variable eigh : dense K -> res (list K * list (list K)).
Variable eigsh : nat -> Z -> (list K -> res (list K)) -> res (list K * list (list K)).
Variable n : nat.
Variable h : hmat K.
Variable fl : hflags.
Variable V : inter K.
Variable hf : bool.
Variable mu : K.
Variable z : option (nat -> K).

Notation solve := (solve_sector K big half eigh eigsh n h fl V hf mu z).
Notation answer := (answer K big half eigh eigsh n h fl V hf mu z).
Notation egs_ok := (egs_ok K leb).
Notation estep := (espace_step K leb big half eigh eigsh n h fl V hf mu z).

Lemma kmin_le a b : leb (kmin K leb a b) a = true /\ leb (kmin K leb a b) b = true.
Proof.
  unfold kmin. destruct (leb a b) eqn:E.
  - split; auto. destruct (leb_total a a); auto.
  - split; [destruct (leb_total a b); congruence|destruct (leb_total b b); auto].
Qed.
Lemma kmin_in a b : kmin K leb a b = a \/ kmin K leb a b = b.
Proof. unfold kmin. destruct (leb a b); auto. Qed.

Lemma fold_kmin l : forall a, (In (fold_left (kmin K leb) l a) (a :: l)) /\
  forall x, In x (a :: l) -> leb (fold_left (kmin K leb) l a) x = true.
Proof.
  induction l as [|b l IH]; intros a; cbn [fold_left].
  - split; [now left|]. intros x [<-|[]]. destruct (leb_total a a); auto.
  - destruct (IH (kmin K leb a b)) as [I M]. split.
    + destruct I as [I|I]; [|right; right; exact I]. rewrite <- I. destruct (kmin_in a b) as [-> | ->]; [now left|right; now left].
    + intros x [<-|[<-|Hx]].
      * eapply leb_trans; [apply M; now left|apply kmin_le].
      * eapply leb_trans; [apply M; now left|apply kmin_le].
      * apply M. now right.
Qed.
Lemma list_min_spec l m : list_min K leb l = Some m -> In m l /\ forall x, In x l -> leb m x = true.
Proof.
  destruct l as [|a l]; cbn [list_min]; [discriminate|]. intros E. injection E as <-. apply fold_kmin.
Qed.
Lemma list_min_none l : list_min K leb l = None <-> l = [].
Proof. destruct l; cbn [list_min]; split; congruence. Qed.

Lemma estep_spec sym req acc q r : qvalid sym n q -> estep sym req acc q = Ok r ->
  (exists s, answer sym req q s /\ fst r = fst acc ++ [(q, s)] /\
     exists m, In m (s_vals K s) /\ (forall x, In x (s_vals K s) -> leb m x = true) /\ snd r = kmin_inf K leb m (snd acc)) \/
  ((forall s, ~ answer sym req q s) /\ r = acc).
Proof.
  intros Hq. unfold espace_step. destruct (qns_states n q) as [st|] eqn:Est; [|discriminate]. cbn [bind].
  rewrite qpos_index by auto.
  destruct (pyget req _) as [k|] eqn:Ek; [|discriminate]. cbn [bind]. apply pyget_inv in Ek.
  destruct (Z.eqb_spec k 0) as [->|Hk].
  - intros E. injection E as <-. right. split; auto. intros s [k' [c [_ [E' [N _]]]]]. congruence.
  - destruct (solve st (Some k)) as [[vals c]|] eqn:Es; [|discriminate]. cbn [bind fst snd].
    destruct (list_min K leb vals) as [m|] eqn:Em; intros E; injection E as <-.
    + left. exists (mksct K st vals (Cols K c)). split; [|cbn [fst snd]; split; [reflexivity|]].
      * exists k, c. cbn [s_states s_vals s_vecs]. repeat (split; [assumption||reflexivity|]).
        intros ->. discriminate Em.
      * cbn [s_vals]. destruct (list_min_spec vals m Em) as [I M]. exists m. auto.
    + right. split; auto. apply list_min_none in Em. subst vals.
      intros s [k' [c' [E1 [E2 [_ [E3 [_ E4]]]]]]]. rewrite Est in E1. injection E1 as E1. rewrite Ek in E2. injection E2 as <-.
      rewrite <- E1, Es in E3. injection E3 as E3 _. congruence.
Qed.

Lemma egs_step esp egs q s m : egs_ok esp egs -> In m (s_vals K s) -> (forall x, In x (s_vals K s) -> leb m x = true) ->
  egs_ok (esp ++ [(q, s)]) (kmin_inf K leb m egs).
Proof.
  intros H Hm M. destruct egs as [e|]; cbn [kmin_inf egs_ok] in *.
  - destruct H as [[q0 [s0 [I0 V0]]] H]. split.
    + destruct (kmin_in m e) as [-> | ->].
      * exists q, s. split; auto. apply in_app_iff. right. now left.
      * exists q0, s0. split; auto. apply in_app_iff. now left.
    + intros q' s' v I Hv. apply in_app_iff in I. destruct (kmin_le m e) as [L1 L2]. destruct I as [I|[I|[]]].
      * eapply leb_trans; [exact L2|]. eapply H; eauto.
      * injection I as <- <-. eapply leb_trans; [exact L1|]. auto.
  - subst esp. cbn [app]. split.
    + exists q, s. split; [now left|auto].
    + intros q' s' v [I|[]] Hv. injection I as <- <-. auto.
Qed.

Lemma espace_fold sym req : forall qs acc r, Forall (qvalid sym n) qs ->
  foldM (estep sym req) qs acc = Ok r -> egs_ok (fst acc) (snd acc) ->
  exists new, fst r = fst acc ++ new /\ egs_ok (fst r) (snd r) /\
    (forall q s, In (q, s) new -> In q qs /\ answer sym req q s) /\
    (forall q, In q qs -> (exists s, answer sym req q s) -> In q (map fst new)) /\
    (StronglySorted qless qs -> StronglySorted qless (map fst new)).
Proof.
  induction qs as [|q qs IH]; intros acc r Hv E HE; cbn [foldM] in E.
  - injection E as <-. exists []. rewrite app_nil_r. split; [auto|]. split; [auto|]. split; [intros ? ? []|]. split; [intros ? []|constructor].
  - inversion Hv as [|? ? Hq Hv']; subst.
    destruct (estep sym req acc q) as [acc'|] eqn:E1; [|discriminate]. cbn [bind] in E.
    destruct (estep_spec sym req acc q acc' Hq E1) as [[s [A [F [m [Hm [M G]]]]]]|[A ->]].
    + destruct (IH acc' r Hv' E) as [new [E' [HE' [P1 [P2 P3]]]]].
      { rewrite F, G. now apply egs_step. }
      exists ((q, s) :: new). rewrite E', F, <- app_assoc. cbn [app]. split; [reflexivity|].
      split; [rewrite E', F, <- app_assoc in HE'; exact HE'|]. split; [|split].
      * intros q' s' [I|I]; [injection I as <- <-; split; [now left|auto]|]. destruct (P1 q' s' I). split; [now right|auto].
      * intros q' [<-|I] Hs; cbn [map fst]; [now left|right; now apply P2].
      * intros S. inversion S as [|? ? S' FS]; subst. cbn [map fst]. constructor; [auto|].
        apply Forall_forall. intros q' Hq'. apply in_map_iff in Hq'. destruct Hq' as [[q'' s''] [<- I]].
        rewrite Forall_forall in FS. apply FS. now apply (P1 _ _ I).
    + destruct (IH acc r Hv' E HE) as [new [E' [HE' [P1 [P2 P3]]]]].
      exists new. split; [auto|]. split; [auto|]. split; [|split].
      * intros q' s' I. destruct (P1 q' s' I). split; [now right|auto].
      * intros q' [<-|I] [s Hs]; [exfalso; eapply A; eauto|]. apply P2; eauto.
      * intros S. inversion S; subst. auto.
Qed.

Definition requests (neig : option (list Z)) (s : string) : res (list Z) :=
  match neig with Some l => Ok l | None => get_espace_dim n None s end.

Lemma build_espace_spec neig s esp egs :
  build_espace K leb big half eigh eigsh n h fl V hf mu z neig s = Ok (esp, egs) ->
  exists sym req, symmetry_of s = Ok sym /\ match neig with Some l => Ok l | None => get_espace_dim n None s end = Ok req /\
    StronglySorted qless (map fst esp) /\
    (forall q, In q (map fst esp) <-> qvalid sym n q /\ exists s, answer sym req q s) /\
    (forall q s, In (q, s) esp -> answer sym req q s) /\
    egs_ok esp egs.
Proof.
  unfold build_espace. destruct (symmetry_of s) as [sym|] eqn:Es; [|discriminate]. cbn [bind].
  destruct (match neig with Some l => Ok l | None => get_espace_dim n None s end) as [req|] eqn:Er; [|discriminate]. cbn [bind].
  intros E. exists sym, req. split; [auto|]. split; [auto|].
  destruct (espace_fold sym req (iter_qns sym n) ([], None) (esp, egs)) as [new [E' [HE [P1 [P2 P3]]]]]; auto.
  { apply Forall_forall. intros q. apply in_iter. }
  { reflexivity. }
  cbn [fst snd app] in E', HE. subst new. split; [apply P3, iter_sorted|]. split; [|split; [|exact HE]].
  - intros q. split.
    + intros I. apply in_map_iff in I. destruct I as [[q' s'] [<- I]]. destruct (P1 _ _ I) as [A B].
      split; [now apply in_iter|]. eauto.
    + intros [Hq Hs]. apply P2; auto. now apply in_iter.
  - intros q s' I. apply (P1 _ _ I).
Qed.

Lemma qns_states_ok sym q : (match sym with SymSz => n <= 32 | SymN => 2 * n <= 32 end) -> qvalid sym n q ->
  exists st, qns_states n q = Ok st /\ states_dim st = qdim n q.
Proof. clear leb_total leb_trans.
  destruct sym; unfold qvalid; intros Hn.
  - intros [a [b [-> [Ha Hb]]]]. cbn [qns_states qdim].
    destruct (generate_states_spec n a) as [up [Eu [_ [Lu _]]]]; [lia|lia|].
    destruct (generate_states_spec n b) as [dw [Ed [_ [Ld _]]]]; [lia|lia|].
    rewrite Eu, Ed. cbn [bind]. eexists. split; [reflexivity|]. cbn [states_dim]. congruence.
  - intros [p [-> Hp]]. cbn [qns_states qdim].
    destruct (generate_states_spec (2 * n) p) as [l [El [_ [Ll _]]]]; [lia|lia|].
    rewrite El. cbn [bind]. eexists. split; [reflexivity|]. cbn [states_dim]. congruence.
Qed.

(** build_espace succeeds when every requested sector can be solved. *)
Lemma build_espace_total neig s sym req : symmetry_of s = Ok sym ->
  (match sym with SymSz => n <= 32 | SymN => 2 * n <= 32 end) ->
  match neig with Some l => Ok l | None => get_espace_dim n None s end = Ok req -> qtotal sym n <= length req ->
  (forall q st k, qvalid sym n q -> qns_states n q = Ok st -> nth_error req (qpos sym n q) = Some k -> k <> 0%Z ->
     exists r, solve st (Some k) = Ok r) ->
  exists r, build_espace K leb big half eigh eigsh n h fl V hf mu z neig s = Ok r.
Proof. clear leb_total leb_trans.
  intros Es Hn Er Hl Hs. unfold build_espace. rewrite Es. cbn [bind]. rewrite Er. cbn [bind].
  assert (HV : Forall (qvalid sym n) (iter_qns sym n)) by (apply Forall_forall; intros q; apply in_iter).
  revert HV. generalize ((([], None) : espace K * option K)). induction (iter_qns sym n) as [|q qs IH]; intros acc HV.
  - exists acc. reflexivity.
  - inversion HV as [|? ? Hq HV']; subst. cbn [foldM].
    assert (exists acc', estep sym req acc q = Ok acc') as [acc' ->]; [|apply IH; auto].
    unfold espace_step. destruct (qns_states_ok sym q Hn Hq) as [st [E _]]. rewrite E. cbn [bind].
    rewrite qpos_index by auto. pose proof (qpos_lt sym n q Hq) as HL.
    destruct (nth_error req (qpos sym n q)) as [k|] eqn:Ek; [|apply nth_error_None in Ek; lia].
    rewrite (pyget_ok _ _ _ Ek). cbn [bind]. destruct (Z.eqb_spec k 0); [eauto|].
    destruct (Hs q st k Hq E Ek n0) as [r ->]. cbn [bind]. destruct (list_min K leb (fst r)); eauto.
Qed.

Lemma build_espace_symmetry neig s : symmetry_of s = Err NotImplementedError ->
  build_espace K leb big half eigh eigsh n h fl V hf mu z neig s = Err NotImplementedError.
Proof. clear leb_total leb_trans. intros E. unfold build_espace. now rewrite E. Qed.

(** ** solve_sector *)
Lemma pyslice_pos {A} k (l : list A) : (0 <= k)%Z -> pyslice k l = firstn (Z.to_nat k) l.
Proof. clear leb_total leb_trans. clear. intros H. unfold pyslice. destruct (Z.ltb_spec k 0); [lia|reflexivity]. Qed.
Lemma pyslice_neg {A} k (l : list A) : (k < 0)%Z -> pyslice k l = firstn (length l - Z.to_nat (- k)) l.
Proof. clear leb_total leb_trans. clear.
  intros H. unfold pyslice. destruct (Z.ltb_spec k 0); [|lia]. f_equal. lia.
Qed.

Lemma solve_counts st k vals cols : solve_lapack K big half eigh n h fl V hf mu z st = Ok (vals, cols) ->
  length vals = states_dim st -> length cols = states_dim st ->
  let d := Z.of_nat (states_dim st) in
  solve st None = Ok (vals, cols) /\
  ((d <= 512 \/ k = d)%Z ->
    solve st (Some k) =
      Ok (let m := if (k <? 0)%Z then states_dim st - Z.to_nat (- k) else min (Z.to_nat k) (states_dim st) in
          (firstn m vals, firstn m cols))).
Proof. clear leb_total leb_trans. clear leb.
  intros E Lv Lc d. split.
  - unfold solve_sector. rewrite Z.eqb_refl. cbn [orb]. rewrite E. cbn [bind].
    destruct (Z.ltb_spec (Z.of_nat (states_dim st)) (Z.of_nat (states_dim st))); [lia|reflexivity].
  - intros Hd. unfold solve_sector. fold d.
    assert (C : ((k =? d) || (d <=? 512))%Z = true).
    { destruct Hd as [Hd| ->]; [|now rewrite Z.eqb_refl]. apply orb_true_iff. right. now apply Z.leb_le. }
    rewrite C, E. cbn [bind]. cbv zeta. f_equal.
    destruct (Z.ltb_spec k d) as [Hk|Hk].
    + cbn [fst snd]. destruct (Z.ltb_spec k 0).
      * rewrite !pyslice_neg, Lv, Lc by lia. reflexivity.
      * rewrite !pyslice_pos by lia. rewrite Nat.min_l by lia. reflexivity.
    + destruct (Z.ltb_spec k 0); [lia|]. rewrite Nat.min_r by lia.
      rewrite <- Lv at 1. rewrite <- Lc, !firstn_all. reflexivity.
Qed.

Lemma solve_arpack_used st k : (512 < Z.of_nat (states_dim st))%Z -> k <> Z.of_nat (states_dim st) ->
  solve st (Some k) = solve_arpack K big half eigsh n h fl V hf mu z st k.
Proof. clear leb_total leb_trans. clear leb.
  intros Hd Hk. unfold solve_sector. cbv zeta. destruct (Z.eqb_spec k (Z.of_nat (states_dim st))); [lia|].
  destruct (Z.leb_spec (Z.of_nat (states_dim st)) 512); [lia|]. reflexivity.
Qed.

(** The eigenvalues kept are the lowest ones. *)
Lemma firstn_lowest (l : list K) m a b j : ascending leb l -> In a (firstn m l) -> m <= j -> nth_error l j = Some b ->
  leb a b = true.
Proof. clear leb_total leb_trans. clear - K.
  intros A I Hj Hb. apply In_nth_error in I. destruct I as [i Hi].
  assert (i < m).
  { assert (i < length (firstn m l)) by (apply nth_error_Some; congruence). rewrite firstn_length in H. lia. }
  rewrite nth_error_firstn in Hi by auto.
  apply (A i j); auto. lia.
Qed.
End Build.

Lemma unknown_name s : ~ In s ["sz"; "Sz"; "sZ"; "SZ"; "n"; "N"]%string -> symmetry_of s = Err NotImplementedError.
Proof.
  intros H. rewrite symmetry_names. destruct (in_dec _ _ _) as [I|_]; [exfalso; apply H; cbn [In] in *; tauto|].
  destruct (in_dec _ _ _) as [I|_]; [exfalso; apply H; cbn [In] in *; tauto|reflexivity].
Qed.
Lemma names_dims n neig_max s : ~ In s ["sz"; "Sz"; "sZ"; "SZ"; "n"; "N"]%string ->
  get_espace_dim n neig_max s = Err NotImplementedError.
Proof. intros H. apply espace_dims_raises. now apply unknown_name. Qed.
Lemma names_build K leb big half eigh eigsh n h fl V hf mu z neig s :
  (In s ["sz"; "Sz"; "sZ"; "SZ"]%string -> symmetry_of s = Ok SymSz) /\
  (In s ["n"; "N"]%string -> symmetry_of s = Ok SymN) /\
  (~ In s ["sz"; "Sz"; "sZ"; "SZ"; "n"; "N"]%string ->
     build_espace K leb big half eigh eigsh n h fl V hf mu z neig s = Err NotImplementedError).
Proof.
  split; [|split].
  - cbn [In]. intros [<-|[<-|[<-|[<-|[]]]]]; reflexivity.
  - cbn [In]. intros [<-|[<-|[]]]; reflexivity.
  - intros H. apply build_espace_symmetry. now apply unknown_name.
Qed.
