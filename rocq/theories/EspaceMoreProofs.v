(** Proofs about screening, request adjustment and independent particles. *)
From Coq Require Import String Ascii List Arith NArith ZArith Bool Lia Sorted Permutation.
From Verif Require Import Base OperatorsModel OperatorsSpec OperatorsProofs LookupModel LookupProofs SectorModel SectorSpec SectorProofs
  LocalModel MatvecModel MbModel EspaceModel EspaceSpec EspaceProofs.
Import ListNotations.

Lemma qeqb_spec p q : reflect (p = q) (qeqb p q).
Proof. unfold qeqb. destruct (list_eq_dec Nat.eq_dec p q); now constructor. Qed.

Section Screen.
Variable K : CRing.
Variable relevant : K -> bool.

Lemma take_idx_ok {A} (l : list A) (v : list K) : forall (a : list A) i, length l = length v ->
  length a = i -> take_idx (a ++ l) (positions K relevant i v) =
    Ok (map snd (filter (fun p => relevant (fst p)) (List.combine v l))).
Proof.
  revert l. induction v as [|x v IH]; intros l a i Hl Ha; [reflexivity|].
  destruct l as [|y l]; [discriminate|]. cbn [positions List.combine filter fst].
  assert (E : take_idx (a ++ y :: l) (positions K relevant (S i) v) =
              Ok (map snd (filter (fun p => relevant (fst p)) (List.combine v l)))).
  { change (a ++ y :: l) with (a ++ [y] ++ l). rewrite app_assoc. apply IH; [auto|].
    rewrite app_length. cbn [length]. lia. }
  destruct (relevant x); [|exact E].
  unfold take_idx in *. cbn [mapM]. rewrite nth_error_app2 by lia. rewrite Ha, Nat.sub_diag. cbn [nth_error bind].
  rewrite E. reflexivity.
Qed.

Lemma filter_combine_vals (v : list K) : forall {A} (c : list A), length c = length v ->
  map fst (filter (fun p => relevant (fst p)) (List.combine v c)) = filter relevant v.
Proof.
  induction v as [|x v IH]; intros A c Hc; [reflexivity|]. destruct c as [|y c]; [discriminate|].
  cbn [List.combine filter fst]. destruct (relevant x); cbn [map fst]; rewrite IH; auto.
Qed.
Lemma combine_self (v : list K) : map snd (filter (fun p => relevant (fst p)) (List.combine v v)) = filter relevant v.
Proof.
  induction v as [|x v IH]; [reflexivity|]. cbn [List.combine filter fst]. destruct (relevant x); cbn [map snd]; now rewrite IH.
Qed.

(** The screened version of a sector. *)
Definition cut (s : sct K) : sct K :=
  mksct K (s_states K s) (filter relevant (s_vals K s))
    (Cols K (map snd (filter (fun p => relevant (fst p)) (pairs K s)))).

Lemma screen_sector_ok s : paired K s ->
  screen_sector K relevant s = Ok (if existsb relevant (s_vals K s) then Some (cut s) else None).
Proof.
  intros [c [Ec Lc]]. unfold screen_sector. destruct (existsb relevant (s_vals K s)); [|reflexivity].
  rewrite Ec. cbv zeta.
  pose proof (take_idx_ok (s_vals K s) (s_vals K s) [] 0 eq_refl eq_refl) as E1. cbn [app] in E1. rewrite E1. cbn [bind].
  pose proof (take_idx_ok c (s_vals K s) [] 0 Lc eq_refl) as E2. cbn [app] in E2. rewrite E2. cbn [bind].
  unfold cut, pairs. rewrite Ec. now rewrite combine_self.
Qed.

Definition cut_all (esp : espace K) : espace K :=
  flat_map (fun e => if existsb relevant (s_vals K (snd e)) then [(fst e, cut (snd e))] else []) esp.

Lemma pop_notin q (esp : espace K) : ~ In q (map fst esp) -> pop K q esp = esp.
Proof.
  intros H. unfold pop. induction esp as [|[q' s] esp IH]; [reflexivity|]. cbn [filter fst map] in *.
  destruct (qeqb_spec q' q) as [->|]; [exfalso; apply H; now left|]. cbn [negb]. f_equal. apply IH. intros I. apply H. now right.
Qed.

Lemma pops_skip del e : ~ In (fst e) del -> forall esp, fold_left (fun esp q => pop K q esp) del (e :: esp) =
  e :: fold_left (fun esp q => pop K q esp) del esp.
Proof.
  induction del as [|q del IH]; intros H esp; [reflexivity|]. cbn [fold_left]. unfold pop at 2. cbn [filter].
  destruct (qeqb_spec (fst e) q) as [E|]; [exfalso; apply H; left; auto|]. cbn [negb]. rewrite IH; [reflexivity|].
  intros I. apply H. now right.
Qed.

Lemma screen_loop_ok esp : Forall (fun e => paired K (snd e)) esp -> NoDup (map fst esp) ->
  exists esp' del, screen_loop K relevant esp = (None, esp', del) /\ map fst esp' = map fst esp /\ incl del (map fst esp) /\
    fold_left (fun esp q => pop K q esp) del esp' = cut_all esp.
Proof.
  induction esp as [|[q s] esp IH]; intros HP ND.
  - exists [], []. repeat split. intros ? [].
  - inversion HP as [|? ? Hp HP']; subst. cbn [snd] in Hp. cbn [map fst] in ND. inversion ND as [|? ? Hni ND']; subst.
    destruct (IH HP' ND') as [esp' [del [E [EK [ED EF]]]]].
    cbn [screen_loop]. rewrite screen_sector_ok by auto. rewrite E.
    unfold cut_all. cbn [flat_map fst snd]. fold (cut_all esp).
    destruct (existsb relevant (s_vals K s)) eqn:EX.
    + exists ((q, cut s) :: esp'), del. split; [reflexivity|]. split; [cbn [map fst]; now rewrite EK|].
      split; [intros x Hx; right; auto|]. rewrite pops_skip; [now rewrite EF|]. cbn [fst]. intros I. apply Hni. auto.
    + exists ((q, s) :: esp'), (q :: del). split; [reflexivity|]. split; [cbn [map fst]; now rewrite EK|].
      split; [intros x [<-|Hx]; [now left|right; auto]|]. cbn [fold_left app].
      unfold pop at 2. cbn [filter fst]. destruct (qeqb_spec q q); [|congruence]. cbn [negb].
      fold (pop K q esp'). rewrite pop_notin by (rewrite EK; auto). exact EF.
Qed.

Lemma screen_ok esp : Forall (fun e => paired K (snd e)) esp -> NoDup (map fst esp) ->
  screen_espace K relevant esp = (Ok tt, cut_all esp).
Proof.
  intros HP ND. destruct (screen_loop_ok esp HP ND) as [esp' [del [E [_ [_ EF]]]]].
  unfold screen_espace. rewrite E. now rewrite EF.
Qed.

Lemma in_cut_all esp q s' : In (q, s') (cut_all esp) <->
  exists s, In (q, s) esp /\ existsb relevant (s_vals K s) = true /\ s' = cut s.
Proof.
  unfold cut_all. rewrite in_flat_map. split.
  - intros [[q0 s0] [I H]]. cbn [fst snd] in H. destruct (existsb relevant (s_vals K s0)) eqn:E; [|destruct H].
    destruct H as [H|[]]. injection H as <- <-. eauto.
  - intros [s [I [E ->]]]. exists (q, s). split; auto. cbn [fst snd]. rewrite E. now left.
Qed.

Lemma cut_paired s : paired K s -> paired K (cut s) /\ pairs K (cut s) = filter (fun p => relevant (fst p)) (pairs K s).
Proof.
  intros [c [Ec Lc]]. split.
  - exists (map snd (filter (fun p => relevant (fst p)) (pairs K s))). split; [reflexivity|].
    cbn [cut s_vals]. unfold pairs. rewrite Ec, map_length.
    rewrite <- (filter_combine_vals (s_vals K s) c Lc). now rewrite map_length.
  - unfold pairs at 1. cbn [cut s_vecs s_vals]. unfold pairs. rewrite Ec.
    rewrite <- (filter_combine_vals (s_vals K s) c Lc).
    generalize (filter (fun p => relevant (fst p)) (List.combine (s_vals K s) c)). intros l.
    induction l as [|[a b] l IH]; [reflexivity|]. cbn [map List.combine fst snd]. now rewrite IH.
Qed.

Lemma existsb_filter (v : list K) : existsb relevant (filter relevant v) = existsb relevant v.
Proof.
  induction v as [|x v IH]; [reflexivity|]. cbn [filter existsb]. destruct (relevant x) eqn:E; cbn [existsb orb]; rewrite ?E; auto.
Qed.
Lemma filter_idem {A} (f : A -> bool) l : filter f (filter f l) = filter f l.
Proof. induction l as [|x l IH]; [reflexivity|]. cbn [filter]. destruct (f x) eqn:E; cbn [filter]; rewrite ?E, ?IH; auto. Qed.

Lemma cut_cut s : paired K s -> cut (cut s) = cut s.
Proof.
  intros HP. destruct (cut_paired s HP) as [_ E]. unfold cut at 1. rewrite E, filter_idem.
  cbn [cut s_vals s_states]. unfold cut. now rewrite filter_idem.
Qed.
Lemma cut_all_idem esp : Forall (fun e => paired K (snd e)) esp -> cut_all (cut_all esp) = cut_all esp.
Proof.
  induction 1 as [|[q s] esp Hp HP IH]; [reflexivity|]. cbn [snd] in Hp.
  unfold cut_all at 2 3. cbn [flat_map fst snd]. fold (cut_all esp). destruct (existsb relevant (s_vals K s)) eqn:E; [|exact IH].
  cbn [app]. unfold cut_all at 1. cbn [flat_map fst snd]. fold (cut_all (cut_all esp)). cbn [cut s_vals].
  rewrite existsb_filter, E, IH, cut_cut by auto. reflexivity.
Qed.
Lemma cut_all_wf esp : Forall (fun e => paired K (snd e)) esp -> NoDup (map fst esp) ->
  Forall (fun e => paired K (snd e)) (cut_all esp) /\ NoDup (map fst (cut_all esp)).
Proof.
  induction 1 as [|[q s] esp Hp HP IH]; intros ND; [split; constructor|]. cbn [map fst snd] in *.
  inversion ND as [|? ? Hni ND']; subst. destruct (IH ND') as [A B].
  unfold cut_all. cbn [flat_map fst snd]. fold (cut_all esp). destruct (existsb relevant (s_vals K s)); [|auto].
  cbn [app map fst]. split; constructor; auto.
  - now apply cut_paired.
  - intros I. apply Hni. apply in_map_iff in I. destruct I as [[q' s'] [<- I]]. apply in_cut_all in I.
    destruct I as [s0 [I _]]. apply in_map_iff. exists (q', s0). auto.
Qed.

(** The screened space, in the words of the property. *)
Lemma screen_spec esp : Forall (fun e => paired K (snd e)) esp -> NoDup (map fst esp) ->
  exists esp', screen_espace K relevant esp = (Ok tt, esp') /\
    Forall (fun e => paired K (snd e)) esp' /\ NoDup (map fst esp') /\
    map fst esp' = map fst (filter (fun e => existsb relevant (s_vals K (snd e))) esp) /\
    (forall q s', In (q, s') esp' -> exists s, In (q, s) esp /\ s_states K s' = s_states K s /\
       s_vals K s' = filter relevant (s_vals K s) /\
       pairs K s' = filter (fun p => relevant (fst p)) (pairs K s)) /\
    screen_espace K relevant esp' = (Ok tt, esp').
Proof.
  intros HP ND. destruct (cut_all_wf esp HP ND) as [HP' ND']. exists (cut_all esp).
  split; [now apply screen_ok|]. split; [auto|]. split; [auto|]. split; [|split].
  - clear. induction esp as [|[q s] esp IH]; [reflexivity|]. unfold cut_all. cbn [flat_map filter fst snd]. fold (cut_all esp).
    destruct (existsb relevant (s_vals K s)); cbn [app map fst]; now rewrite IH.
  - intros q s' I. apply in_cut_all in I. destruct I as [s [I [E ->]]]. exists s. split; [auto|]. split; [reflexivity|].
    split; [reflexivity|]. apply cut_paired. rewrite Forall_forall in HP. apply (HP _ I).
  - rewrite screen_ok by auto. now rewrite cut_all_idem.
Qed.

(** A sector without eigenvectors makes the call raise, after the sectors
    before it have been cut. *)
Lemma screen_no_vecs esp q s rest : Forall (fun e => paired K (snd e)) esp -> NoDup (map fst esp) ->
  s_vecs K s = NoVecs K -> existsb relevant (s_vals K s) = true ->
  screen_espace K relevant (esp ++ (q, s) :: rest) =
  (Err AttributeError, map (fun e => if existsb relevant (s_vals K (snd e)) then (fst e, cut (snd e)) else e) esp ++ (q, s) :: rest).
Proof.
  intros HP ND Ev Ex. unfold screen_espace.
  assert (E : exists del, screen_loop K relevant (esp ++ (q, s) :: rest) =
    (Some AttributeError, map (fun e => if existsb relevant (s_vals K (snd e)) then (fst e, cut (snd e)) else e) esp ++ (q, s) :: rest, del)).
  { clear ND. induction HP as [|[q0 s0] esp Hp HP IH].
    - cbn [app map screen_loop]. unfold screen_sector. rewrite Ex, Ev. eauto.
    - destruct IH as [del E]. cbn [app screen_loop map fst snd]. cbn [snd] in Hp. rewrite screen_sector_ok by auto. rewrite E.
      destruct (existsb relevant (s_vals K s0)); eauto. }
  destruct E as [del ->]. reflexivity.
Qed.
End Screen.

(** ** Adjusting requests *)
Section Adjust.
Variable K : CRing.
Variable n : nat.

Notation valid := (qvalid SymSz n).
Notation pos := (qpos SymSz n).

Lemma qless_trans p : forall q r, qless p q -> qless q r -> qless p r.
Proof.
  induction p as [|a p IH]; intros [|b q] [|c r]; cbn [qless]; try tauto.
  intros [H|[-> H]] [H'|[-> H']]; [left; lia|left; auto|left; auto|right; split; auto]. eapply IH; eauto.
Qed.

Lemma dec_ok neig q x : valid q -> nth_error neig (pos q) = Some x ->
  neig_decrease n neig (nth 0 q 0) (nth 1 q 0) = Ok (upd_tot neig (pos q) (Z.max 1 (x - 1))).
Proof.
  intros [a [b [-> [Ha Hb]]]] E. cbn [nth qpos] in *. unfold neig_decrease. rewrite sector_index_ok by auto. cbn [bind].
  rewrite (pyget_ok _ _ _ E). cbn [bind]. rewrite Nat2Z.id. apply pyset_ok. apply nth_error_Some. congruence.
Qed.
Lemma inc_ok neig a b x : a <= n -> b <= n -> nth_error neig (a * (n + 1) + b) = Some x ->
  neig_increase n neig a b = Ok (upd_tot neig (a * (n + 1) + b) (Z.min (Z.of_nat (binom n a * binom n b)) (x + 1))).
Proof.
  intros Ha Hb E. unfold neig_increase. rewrite sector_index_ok by auto. cbn [bind].
  rewrite (pyget_ok _ _ _ E). cbn [bind]. rewrite Nat2Z.id. apply pyset_ok. apply nth_error_Some. congruence.
Qed.

Definition fits (neig : list Z) : Prop := qtotal SymSz n <= length neig.
Lemma fits_get neig q : fits neig -> valid q -> exists x, nth_error neig (pos q) = Some x.
Proof.
  intros F Hq. pose proof (qpos_lt SymSz n q Hq). unfold fits in F.
  destruct (nth_error neig (pos q)) eqn:E; eauto. apply nth_error_None in E. lia.
Qed.
Lemma fits_upd neig i x : fits neig -> fits (upd_tot neig i x).
Proof. unfold fits. now rewrite upd_tot_length. Qed.
Lemma get_upd neig p q x : fits neig -> valid p -> valid q ->
  nth_error (upd_tot neig (pos p) x) (pos q) = if qeqb q p then Some x else nth_error neig (pos q).
Proof.
  intros F Hp Hq. rewrite nth_error_upd_tot. pose proof (qpos_lt SymSz n p Hp). unfold fits in F.
  destruct (Nat.ltb_spec (pos p) (length neig)); [|lia]. rewrite andb_true_r.
  destruct (qeqb_spec q p) as [->|N]; [now rewrite Nat.eqb_refl|].
  destruct (Nat.eqb_spec (pos p) (pos q)) as [E|]; auto. exfalso. apply N. symmetry. eapply qpos_inj; eauto.
Qed.

Notation indec := (in_dec (list_eq_dec Nat.eq_dec)).
Definition decr (o : option Z) : option Z := option_map (fun x => Z.max 1 (x - 1)) o.

(** A run of decreases over distinct keys. *)
Lemma dec_run : forall l neig, fits neig -> Forall valid l -> NoDup l ->
  exists neig', foldM (fun neig q => neig_decrease n neig (nth 0 q 0) (nth 1 q 0)) l neig = Ok neig' /\
    length neig' = length neig /\
    forall p, valid p -> nth_error neig' (pos p) = if indec p l then decr (nth_error neig (pos p)) else nth_error neig (pos p).
Proof.
  induction l as [|q l IH]; intros neig F HV ND.
  - exists neig. split; [reflexivity|]. split; [reflexivity|]. intros p _. destruct (indec p []) as [[]|]. reflexivity.
  - inversion HV as [|? ? Hq HV']; subst. inversion ND as [|? ? Hni ND']; subst.
    destruct (fits_get neig q F Hq) as [x Ex]. cbn [foldM]. rewrite (dec_ok _ _ _ Hq Ex). cbn [bind].
    destruct (IH (upd_tot neig (pos q) (Z.max 1 (x - 1)))) as [neig' [E [L V]]]; auto using fits_upd.
    exists neig'. split; [exact E|]. split; [now rewrite L, upd_tot_length|].
    intros p Hp. rewrite V, get_upd by auto.
    destruct (qeqb_spec p q) as [->|N].
    + destruct (indec q l); [tauto|]. destruct (indec q (q :: l)) as [|N]; [|exfalso; apply N; now left]. now rewrite Ex.
    + destruct (indec p l) as [I|I]; destruct (indec p (q :: l)) as [I'|I']; auto.
      * exfalso. apply I'. now right.
      * destruct I' as [<-|]; [congruence|tauto].
Qed.

Lemma skip_ok q post : forall pre neig, fits neig -> Forall valid pre -> NoDup pre -> ~ In q pre ->
  exists neig', adjust_skip n (pre ++ q :: post) q neig = Ok (post, neig') /\
    foldM (fun neig q => neig_decrease n neig (nth 0 q 0) (nth 1 q 0)) pre neig = Ok neig'.
Proof.
  induction pre as [|p pre IH]; intros neig F HV ND Hq.
  - exists neig. cbn [app adjust_skip]. destruct (qeqb_spec q q); [|congruence]. auto.
  - inversion HV as [|? ? Hp HV']; subst. inversion ND as [|? ? Hni ND']; subst. cbn [app adjust_skip foldM].
    destruct (qeqb_spec q p) as [->|N]; [exfalso; apply Hq; now left|].
    destruct (fits_get neig p F Hp) as [x Ex]. rewrite (dec_ok _ _ _ Hp Ex). cbn [bind].
    apply IH; auto using fits_upd. intros I. apply Hq. now right.
Qed.
Lemma skip_stops q : forall iter neig, fits neig -> Forall valid iter -> ~ In q iter ->
  adjust_skip n iter q neig = Err StopIteration.
Proof.
  induction iter as [|p iter IH]; intros neig F HV Hq; [reflexivity|].
  inversion HV as [|? ? Hp HV']; subst. cbn [adjust_skip].
  destruct (qeqb_spec q p) as [->|N]; [exfalso; apply Hq; now left|].
  destruct (fits_get neig p F Hp) as [x Ex]. rewrite (dec_ok _ _ _ Hp Ex). cbn [bind].
  apply IH; auto using fits_upd. intros I. apply Hq. now right.
Qed.

(** One key: the iterator moves past it, the entries before it decrease, its
    own entry follows the rule. *)
Lemma key_ok pre q post neig s : fits neig -> Forall valid (pre ++ q :: post) -> NoDup (pre ++ q :: post) ->
  exists neig', adjust_key K n (pre ++ q :: post, neig) (q, s) = Ok (post, neig') /\ length neig' = length neig /\
    forall p, valid p -> nth_error neig' (pos p) =
      if indec p pre then decr (nth_error neig (pos p))
      else if qeqb p q then option_map (fun x => neig_rule (Z.of_nat (qdim n q)) x (Some (Z.of_nat (length (s_vals K s))))) (nth_error neig (pos p))
      else nth_error neig (pos p).
Proof.
  intros F HV ND. apply Forall_app in HV. destruct HV as [HV1 HV2]. inversion HV2 as [|? ? Hq HV3]; subst.
  assert (ND1 : NoDup pre).
  { clear - ND. induction pre as [|x pre IH]; [constructor|]. cbn [app] in ND. inversion ND; subst. constructor; auto.
    intros I. apply H1, in_app_iff. now left. }
  assert (Hni : ~ In q pre).
  { apply NoDup_remove_2 in ND. intros I. apply ND, in_app_iff. now left. }
  destruct (skip_ok q post pre neig F HV1 ND1 Hni) as [neig1 [E1 E2]].
  destruct (dec_run pre neig F HV1 ND1) as [neig1' [E3 [L1 V1]]]. rewrite E2 in E3. injection E3 as <-.
  assert (F1 : fits neig1) by (unfold fits in *; lia).
  destruct (fits_get neig q F Hq) as [x Ex].
  assert (Ex1 : nth_error neig1 (pos q) = Some x) by (rewrite V1 by auto; destruct (indec q pre); [tauto|auto]).
  destruct Hq as [a [b [-> [Ha Hb]]]].
  assert (Hv : valid [a; b]) by (exists a, b; auto).
  unfold adjust_key. cbn [fst snd]. rewrite E1. cbn [bind]. rewrite sector_index_ok by auto. cbn [bind]. cbn [qpos] in Ex, Ex1.
  rewrite (pyget_ok _ _ _ Ex1). cbn [bind].
  assert (G : forall y, (forall p, valid p -> nth_error (upd_tot neig1 (a * (n + 1) + b) y) (pos p) =
      if indec p pre then decr (nth_error neig (pos p)) else if qeqb p [a; b] then Some y else nth_error neig (pos p))).
  { intros y p Hp. change (a * (n + 1) + b) with (pos [a; b]). rewrite get_upd by auto.
    destruct (qeqb_spec p [a; b]) as [->|N].
    - destruct (indec [a; b] pre); [tauto|reflexivity].
    - rewrite V1 by auto. destruct (indec p pre); reflexivity. }
  destruct (Z.eqb_spec (Z.of_nat (length (s_vals K s))) x) as [Es|Es]; [|destruct (Z.ltb_spec (Z.of_nat (length (s_vals K s))) x) as [El|El]].
  - rewrite (inc_ok _ a b x) by auto. cbn [bind]. eexists. split; [reflexivity|]. split; [now rewrite upd_tot_length|].
    intros p Hp. rewrite G by auto. destruct (indec p pre); auto. destruct (qeqb_spec p [a; b]) as [->|]; auto.
    cbn [qpos]. rewrite Ex. cbn [option_map]. f_equal. unfold neig_rule. destruct (Z.eqb_spec (Z.of_nat (length (s_vals K s))) x); [|lia]. reflexivity.
  - pose proof (dec_ok neig1 [a; b] x Hv Ex1) as ED. cbn [nth] in ED. rewrite ED. cbn [bind]. eexists. split; [reflexivity|].
    split; [now rewrite upd_tot_length|].
    intros p Hp. rewrite G by auto. destruct (indec p pre); auto. destruct (qeqb_spec p [a; b]) as [->|]; auto.
    cbn [qpos]. rewrite Ex. cbn [option_map]. f_equal. unfold neig_rule. destruct (Z.eqb_spec (Z.of_nat (length (s_vals K s))) x); [lia|].
    destruct (Z.ltb_spec (Z.of_nat (length (s_vals K s))) x); [reflexivity|lia].
  - exists neig1. split; [reflexivity|]. split; [auto|]. intros p Hp. rewrite V1 by auto. destruct (indec p pre); auto.
    destruct (qeqb_spec p [a; b]) as [->|]; auto. cbn [qpos]. rewrite Ex. cbn [option_map]. f_equal. unfold neig_rule.
    destruct (Z.eqb_spec (Z.of_nat (length (s_vals K s))) x); [lia|].
    destruct (Z.ltb_spec (Z.of_nat (length (s_vals K s))) x); [lia|reflexivity].
Qed.

Lemma sorted_nodup l : StronglySorted qless l -> NoDup l.
Proof.
  induction 1 as [|q l H IH F]; constructor; auto. intros Hq. rewrite Forall_forall in F. apply (qless_irrefl q). auto.
Qed.
Lemma sorted_app_inv pre q post : StronglySorted qless (pre ++ q :: post) ->
  StronglySorted qless (q :: post) /\ (forall p, In p pre -> qless p q) /\ (forall p, In p post -> qless q p).
Proof.
  induction pre as [|a pre IH]; cbn [app]; intros H.
  - split; [auto|]. split; [intros ? []|]. inversion H; subst. now apply Forall_forall.
  - inversion H as [|? ? H1 H2]; subst. destruct (IH H1) as [A [B C]]. split; [auto|]. split; [|auto].
    intros p [<-|I]; auto. rewrite Forall_forall in H2. apply H2, in_app_iff. right. now left.
Qed.
Lemma find_size_notin (esp : espace K) q : ~ In q (map fst esp) -> find_size K esp q = None.
Proof.
  induction esp as [|[p s] esp IH]; intros H; [reflexivity|]. cbn [find_size map fst] in *.
  destruct (qeqb_spec q p) as [->|]; [exfalso; apply H; now left|]. apply IH. intros I. apply H. now right.
Qed.

Lemma adjust_loop : forall (esp : espace K) iter neig, fits neig -> Forall valid iter -> StronglySorted qless iter ->
  StronglySorted qless (map fst esp) -> incl (map fst esp) iter ->
  exists r neig', foldM (adjust_key K n) esp (iter, neig) = Ok r /\
    foldM (fun neig q => neig_decrease n neig (nth 0 q 0) (nth 1 q 0)) (fst r) (snd r) = Ok neig' /\
    length neig' = length neig /\
    forall p, valid p -> nth_error neig' (pos p) =
      if indec p iter then option_map (fun x => neig_rule (Z.of_nat (qdim n p)) x (find_size K esp p)) (nth_error neig (pos p))
      else nth_error neig (pos p).
Proof.
  induction esp as [|[q s] esp IH]; intros iter neig F HV HS HE HI.
  - destruct (dec_run iter neig F HV (sorted_nodup _ HS)) as [neig' [E [L V]]].
    exists (iter, neig), neig'. split; [reflexivity|]. split; [exact E|]. split; [exact L|].
    intros p Hp. rewrite V by auto. destruct (indec p iter); reflexivity.
  - cbn [map fst] in HE, HI. inversion HE as [|? ? HE' HF]; subst.
    destruct (in_split q iter) as [pre [post ->]]; [apply HI; now left|].
    destruct (sorted_app_inv pre q post HS) as [HS' [B1 B2]]. inversion HS' as [|? ? HS'' _]; subst.
    destruct (key_ok pre q post neig s F HV (sorted_nodup _ HS)) as [neig1 [E1 [L1 V1]]].
    cbn [foldM]. rewrite E1. cbn [bind].
    apply Forall_app in HV. destruct HV as [HV1 HV2]. inversion HV2 as [|? ? Hq HV3]; subst.
    assert (HI' : incl (map fst esp) post).
    { intros p Hp. rewrite Forall_forall in HF. pose proof (HF p Hp) as Lp.
      assert (I : In p (pre ++ q :: post)) by (apply HI; now right). apply in_app_iff in I. destruct I as [I|[<-|I]]; auto.
      - exfalso. apply (qless_irrefl p). eapply qless_trans; eauto.
      - exfalso. now apply (qless_irrefl q). }
    destruct (IH post neig1) as [r [neig' [E2 [E3 [L2 V2]]]]]; auto.
    { unfold fits in *. lia. }
    exists r, neig'. split; [exact E2|]. split; [exact E3|]. split; [lia|].
    intros p Hp. rewrite V2, V1 by auto. cbn [find_size].
    destruct (indec p (pre ++ q :: post)) as [I|I].
    + apply in_app_iff in I. destruct (indec p post) as [Ip|Ip].
      * pose proof (B2 p Ip) as Lp.
        destruct (indec p pre) as [Ip'|_].
        { exfalso. apply (qless_irrefl p). eapply qless_trans; [apply B1; auto|auto]. }
        destruct (qeqb_spec p q) as [->|]; [exfalso; now apply (qless_irrefl q)|]. reflexivity.
      * destruct (indec p pre) as [Ip'|Ip'].
        { pose proof (B1 p Ip') as Lp. destruct (qeqb_spec p q) as [->|]; [exfalso; now apply (qless_irrefl q)|].
          rewrite find_size_notin; [reflexivity|]. intros I'. apply Ip. auto. }
        destruct (qeqb_spec p q) as [->|N]; [reflexivity|]. destruct I as [I|[I|I]]; [tauto|congruence|tauto].
    + destruct (indec p post) as [Ip|Ip]; [exfalso; apply I, in_app_iff; right; now right|].
      destruct (indec p pre) as [Ip'|Ip']; [exfalso; apply I, in_app_iff; now left|].
      destruct (qeqb_spec p q) as [->|N]; [exfalso; apply I, in_app_iff; right; now left|]. reflexivity.
Qed.

Lemma adjust_rule (esp : espace K) neig : qtotal SymSz n <= length neig -> StronglySorted qless (map fst esp) ->
  Forall (fun e => valid (fst e)) esp ->
  exists neig', adjust_neigsector K n esp neig = Ok neig' /\ length neig' = length neig /\
    forall q, valid q -> nth_error neig' (pos q) =
      option_map (fun x => neig_rule (Z.of_nat (qdim n q)) x (find_size K esp q)) (nth_error neig (pos q)).
Proof.
  intros F HS HV.
  destruct (adjust_loop esp (iter_qns SymSz n) neig F) as [r [neig' [E1 [E2 [L V]]]]]; auto.
  - apply Forall_forall. intros q. apply in_iter.
  - apply iter_sorted.
  - intros q Hq. apply in_map_iff in Hq. destruct Hq as [e [<- I]]. apply in_iter. rewrite Forall_forall in HV. auto.
  - exists neig'. unfold adjust_neigsector. rewrite E1. cbn [bind]. split; [exact E2|]. split; [exact L|].
    intros q Hq. rewrite V by auto. destruct (indec q (iter_qns SymSz n)) as [|N]; auto. exfalso. apply N. now apply in_iter.
Qed.

(** Keys out of order exhaust the iterator. *)
Lemma adjust_loop_stops : forall (esp : espace K) iter neig, fits neig -> Forall valid iter -> StronglySorted qless iter ->
  Forall (fun e => valid (fst e)) esp -> ~ (StronglySorted qless (map fst esp) /\ incl (map fst esp) iter) ->
  foldM (adjust_key K n) esp (iter, neig) = Err StopIteration.
Proof.
  induction esp as [|[q s] esp IH]; intros iter neig F HV HS HQ HN.
  - exfalso. apply HN. split; [constructor|intros ? []].
  - inversion HQ as [|? ? Hq HQ']; subst. cbn [fst] in Hq. cbn [foldM].
    destruct (indec q iter) as [I|I].
    + destruct (in_split q iter I) as [pre [post ->]].
      destruct (sorted_app_inv pre q post HS) as [HS' [B1 B2]]. inversion HS' as [|? ? HS'' _]; subst.
      destruct (key_ok pre q post neig s F HV (sorted_nodup _ HS)) as [neig1 [E1 [L1 _]]]. rewrite E1. cbn [bind].
      apply Forall_app in HV. destruct HV as [HV1 HV2]. inversion HV2; subst.
      apply IH; auto. { unfold fits in *. lia. }
      intros [S Inc]. apply HN. cbn [map fst]. split.
      * constructor; auto. apply Forall_forall. intros p Hp. auto.
      * intros p [<-|Hp]; apply in_app_iff; right; [now left|right; auto].
    + assert (E : adjust_key K n (iter, neig) (q, s) = Err StopIteration).
      { unfold adjust_key. cbn [fst snd]. destruct Hq as [a [b [-> _]]]. now rewrite skip_stops. }
      now rewrite E.
Qed.
Lemma adjust_unsorted (esp : espace K) neig : qtotal SymSz n <= length neig ->
  Forall (fun e => valid (fst e)) esp -> ~ StronglySorted qless (map fst esp) ->
  adjust_neigsector K n esp neig = Err StopIteration.
Proof.
  intros F HV HS. unfold adjust_neigsector. rewrite adjust_loop_stops; auto.
  - apply Forall_forall. intros q. apply in_iter.
  - apply iter_sorted.
  - tauto.
Qed.

(** Requests within 1..dim stay there. *)
Lemma neig_rule_range d x size : (1 <= x <= d)%Z -> (1 <= neig_rule d x size <= d)%Z.
Proof.
  intros H. unfold neig_rule. destruct size as [m|]; [|lia].
  destruct (Z.eqb_spec m x); [lia|]. destruct (Z.ltb_spec m x); lia.
Qed.
Lemma adjust_repeated : forall (esps : list (espace K)) neig, qtotal SymSz n <= length neig -> in_range n neig ->
  Forall (fun esp => StronglySorted qless (map fst esp) /\ Forall (fun e => valid (fst e)) esp) esps ->
  exists neig', foldM (fun neig esp => adjust_neigsector K n esp neig) esps neig = Ok neig' /\
    length neig' = length neig /\ in_range n neig'.
Proof.
  induction esps as [|esp esps IH]; intros neig F R HE.
  - exists neig. auto.
  - inversion HE as [|? ? [HS HV] HE']; subst. destruct (adjust_rule esp neig F HS HV) as [neig1 [E [L V]]].
    cbn [foldM]. rewrite E. cbn [bind]. destruct (IH neig1) as [neig' [E' [L' R']]]; auto; [lia| |].
    + intros q x Hq Hx. rewrite V in Hx by auto. destruct (nth_error neig (pos q)) as [y|] eqn:Ey; [|discriminate].
      cbn [option_map] in Hx. injection Hx as <-. apply neig_rule_range. auto.
    + exists neig'. split; [auto|]. split; [lia|auto].
Qed.
End Adjust.

(** ** Independent particles *)
Section NonInt.
Variable K : CRing.
Add Ring Kring : (cth K).
Variable leb : K -> K -> bool.
Hypothesis leb_total : forall a b, leb a b = true \/ leb b a = true.
Hypothesis leb_trans : forall a b c, leb a b = true -> leb b c = true -> leb a c = true.
Variable wild : N -> nat -> N.
Local Open Scope cr_scope.

Lemma insert_perm a l : Permutation (a :: l) (insert K leb a l).
Proof.
  induction l as [|b l IH]; cbn [insert]; [auto|]. destruct (leb a b); [auto|].
  eapply perm_trans; [apply perm_swap|]. now constructor.
Qed.
Lemma sort_perm l : Permutation l (sort K leb l).
Proof.
  induction l as [|a l IH]; [constructor|]. cbn [sort fold_right]. fold (sort K leb l).
  eapply perm_trans; [|apply insert_perm]. now constructor.
Qed.
Definition ord (a b : K) : Prop := leb a b = true.
Lemma insert_sorted a l : StronglySorted ord l -> StronglySorted ord (insert K leb a l).
Proof.
  induction 1 as [|b l H IH F]; cbn [insert]; [repeat constructor|].
  destruct (leb a b) eqn:E.
  - constructor; [now constructor|]. constructor; [exact E|]. eapply Forall_impl; [|exact F].
    intros c Hc. eapply leb_trans; eauto.
  - constructor; [exact IH|]. apply Forall_forall. intros c Hc.
    apply (Permutation_in c (Permutation_sym (insert_perm a l))) in Hc. destruct Hc as [<-|Hc].
    + unfold ord. destruct (leb_total a b); congruence.
    + rewrite Forall_forall in F. auto.
Qed.
Lemma sort_sorted l : StronglySorted ord (sort K leb l).
Proof. induction l; [constructor|]. cbn [sort fold_right]. now apply insert_sorted. Qed.
Lemma sorted_ascending l : StronglySorted ord l -> ascending leb l.
Proof.
  induction 1 as [|x l H IH F]; intros i j a b Hij Ha Hb.
  - destruct i; discriminate.
  - destruct i as [|i], j as [|j]; cbn [nth_error] in *.
    + assert (a = b) by congruence. subst. destruct (leb_total b b); auto.
    + injection Ha as <-. rewrite Forall_forall in F. apply F. eapply nth_error_In; eauto.
    + lia.
    + eapply (IH i j); eauto. lia.
Qed.

Lemma land1 s i : (i < 64)%nat -> N.eqb (N.land (shr wild s i) 1) 0 = negb (N.testbit s (N.of_nat i)).
Proof.
  intros Hi. unfold shr. destruct (Nat.ltb_spec i 64); [|lia].
  replace (N.land (N.shiftr s (N.of_nat i)) 1) with (N.b2n (N.testbit s (N.of_nat i))).
  - now destruct (N.testbit s (N.of_nat i)).
  - apply N.bits_inj. intros k. rewrite N.land_spec. destruct k as [|k].
    + rewrite N.shiftr_spec'. cbn [N.add]. destruct (N.testbit s (N.of_nat i)); reflexivity.
    + assert (T : N.testbit 1 (Npos k) = false) by (apply (N.bits_above_log2 1); cbn; lia).
      rewrite T, andb_false_r. destruct (N.testbit s (N.of_nat i)); [exact T|apply N.bits_0].
Qed.

Lemma sum_diags diags s : (length diags <= 64)%nat ->
  sum_diags_contrib K wild diags s = nsum (length diags) (fun i => if N.testbit s (N.of_nat i) then nth i diags 0 else 0).
Proof.
  intros H. unfold sum_diags_contrib, nsum.
  assert (G : forall l r, (forall i, In i l -> (i < 64)%nat) ->
    fold_left (fun r i => if N.eqb (N.land (shr wild s i) 1) 0 then r else r + nth i diags 0) l r =
    r + bsum (fun i => if N.testbit s (N.of_nat i) then nth i diags 0 else 0) l).
  { induction l as [|i l IH]; intros r Hl; cbn [fold_left bsum]; [ring|].
    rewrite IH by (intros; apply Hl; now right). rewrite land1 by (apply Hl; now left).
    destruct (N.testbit s (N.of_nat i)); cbn [negb]; ring. }
  rewrite G; [ring|]. intros i Hi. apply in_seq in Hi. lia.
Qed.

Lemma tile_length k (l : list K) : length (tile K k l) = (k * length l)%nat.
Proof. unfold tile. induction k; [reflexivity|]. cbn [repeat concat]. rewrite app_length, IHk. reflexivity. Qed.
Lemma tile_nth k (l : list K) i : (0 < k)%nat -> (i < length l)%nat -> nth i (tile K k l) 0 = nth i l 0.
Proof. intros Hk Hi. destruct k; [lia|]. unfold tile. cbn [repeat concat]. now rewrite app_nth1. Qed.

Lemma high_bit s k : (s < 2 ^ k)%N -> N.testbit s k = false.
Proof.
  intros H. destruct (N.eq_dec s 0) as [->|Hs]; [apply N.bits_0|]. apply N.bits_above_log2, N.log2_lt_pow2; lia.
Qed.
Lemma tile_energy ek s : (length ek <= 8)%nat -> (s < 2 ^ N.of_nat (length ek))%N ->
  sum_diags_contrib K wild (tile K (length ek) ek) s = occupied_energy K ek s.
Proof.
  intros Hn Hs. rewrite sum_diags by (rewrite tile_length; nia). rewrite tile_length. unfold occupied_energy.
  destruct (Nat.eq_dec (length ek) 0) as [E0|E0]; [rewrite E0; reflexivity|].
  replace (length ek * length ek)%nat with (length ek + (length ek * length ek - length ek))%nat by nia.
  rewrite nsum_split.
  assert (Z0 : nsum (length ek * length ek - length ek) (fun i => if N.testbit s (N.of_nat (length ek + i)) then nth (length ek + i) (tile K (length ek) ek) 0 else 0) = 0).
  { apply nsum_0. intros i _. rewrite high_bit; [reflexivity| ].
    eapply N.lt_le_trans; [exact Hs|]. apply N.pow_le_mono_r; lia. }
  rewrite Z0. match goal with |- _ = ?r => transitivity (r + 0); [|ring] end. f_equal.
  apply nsum_ext. intros i Hi. rewrite tile_nth by lia. reflexivity.
Qed.
Lemma zero_diags k s : (k <= 64)%nat -> sum_diags_contrib K wild (repeat 0 k) s = 0.
Proof.
  intros Hk. rewrite sum_diags by (rewrite repeat_length; lia). apply nsum_0. intros i _.
  rewrite nth_repeat. now destruct (N.testbit s (N.of_nat i)).
Qed.

(** The energies of the basis states, before sorting. *)
Lemma onsites ek up dw : (length ek <= 8)%nat -> (forall s, In s up -> (s < 2 ^ N.of_nat (length ek))%N) ->
  (forall s, In s dw -> (s < 2 ^ N.of_nat (length ek))%N) ->
  add_onsites K wild (tile K (length ek) ek) (tile K (length ek) ek) (repeat 0 (length ek)) up dw 0 =
  flat_map (fun sdw => map (fun sup => occupied_energy K ek sup + occupied_energy K ek sdw) up) dw.
Proof.
  intros Hn Hu Hd. unfold add_onsites. rewrite !flat_map_concat_map. f_equal. apply map_ext_in. intros sdw Hs.
  apply map_ext_in. intros sup Hs'. rewrite !tile_energy by auto. rewrite zero_diags by lia. ring.
Qed.

Notation nstep ek := (non_interacting_step K leb wild (length ek) ek).
(** What the code stores for a sector, for any number of levels. *)
Definition raw_sector (ek : list K) (q : qnums) (s : sct K) : Prop :=
  exists up dw, qns_states (length ek) q = Ok (StSz up dw) /\
    s = mksct K (StSz up dw)
      (sort K leb (add_onsites K wild (tile K (length ek) ek) (tile K (length ek) ek) (repeat 0 (length ek)) up dw 0)) (NoVecs K).

Lemma nstep_ok ek acc q : (length ek <= 32)%nat -> qvalid SymSz (length ek) q ->
  exists s m, raw_sector ek q s /\ In m (s_vals K s) /\ (forall x, In x (s_vals K s) -> leb m x = true) /\
    nstep ek acc q = Ok (fst acc ++ [(q, s)], kmin_inf K leb m (snd acc)).
Proof.
  intros Hn [a [b [-> [Ha Hb]]]].
  destruct (generate_states_spec (length ek) a) as [up [Eu [_ [Lu Su]]]]; [lia|lia|].
  destruct (generate_states_spec (length ek) b) as [dw [Ed [_ [Ld Sd]]]]; [lia|lia|].
  assert (Eq : qns_states (length ek) [a; b] = Ok (StSz up dw)) by (cbn [qns_states]; now rewrite Eu, Ed).
  unfold non_interacting_step. rewrite Eq. cbn [bind].
  set (l := add_onsites _ _ _ _ _ up dw _). cbv zeta.
  assert (HL : l <> []).
  { pose proof (binom_pos (length ek) a Ha). pose proof (binom_pos (length ek) b Hb).
    destruct dw as [|sd dw]; [cbn [length] in Ld; lia|]. destruct up as [|su up]; [cbn [length] in Lu; lia|].
    unfold l, add_onsites. cbn [flat_map map app]. discriminate. }
  destruct (list_min K leb (sort K leb l)) as [m|] eqn:Em.
  - destruct (list_min_spec K leb leb_total leb_trans _ _ Em) as [I M].
    exists (mksct K (StSz up dw) (sort K leb l) (NoVecs K)), m. cbn [s_vals]. split; [|auto].
    exists up, dw. split; [exact Eq|reflexivity].
  - apply list_min_none in Em. exfalso. apply HL. apply Permutation_nil. rewrite <- Em. apply Permutation_sym, sort_perm.
Qed.

Lemma nfold_ok ek : (length ek <= 32)%nat -> forall qs acc, Forall (qvalid SymSz (length ek)) qs ->
  egs_ok K leb (fst acc) (snd acc) ->
  exists new egs, foldM (nstep ek) qs acc = Ok (fst acc ++ new, egs) /\ egs_ok K leb (fst acc ++ new) egs /\
    map fst new = qs /\ (forall q s, In (q, s) new -> raw_sector ek q s).
Proof.
  intros Hn. induction qs as [|q qs IH]; intros [acc e] HV HE; cbn [fst snd] in *.
  - exists [], e. rewrite app_nil_r. split; [reflexivity|]. split; [auto|]. split; [reflexivity|]. intros ? ? [].
  - inversion HV as [|? ? Hq HV']; subst. destruct (nstep_ok ek (acc, e) q Hn Hq) as [s [m [A [Hm [M E]]]]].
    cbn [foldM]. rewrite E. cbn [bind fst snd].
    destruct (IH (acc ++ [(q, s)], kmin_inf K leb m e) HV') as [new [egs [E' [HE' [MK P]]]]].
    { cbn [fst snd]. now apply egs_step. }
    cbn [fst snd] in E', HE'. exists ((q, s) :: new), egs. rewrite <- app_assoc in E', HE'. cbn [app] in E', HE'.
    split; [exact E'|]. split; [exact HE'|]. split; [cbn [map fst]; now rewrite MK|].
    intros q' s' [I|I]; [injection I as <- <-; auto|auto].
Qed.

Lemma raw_spectrum ek : (length ek <= 32)%nat ->
  exists esp egs, build_non_interacting_espace K leb wild ek = Ok (esp, egs) /\
    StronglySorted qless (map fst esp) /\ (forall q, In q (map fst esp) <-> qvalid SymSz (length ek) q) /\
    (forall q s, In (q, s) esp -> raw_sector ek q s) /\ egs_ok K leb esp egs.
Proof.
  intros Hn. unfold build_non_interacting_espace.
  destruct (nfold_ok ek Hn (iter_qns SymSz (length ek)) ([], None)) as [new [egs [E [HE [MK P]]]]].
  { apply Forall_forall. intros q. apply in_iter. }
  { reflexivity. }
  cbn [fst app] in E, HE. exists new, egs. split; [exact E|]. rewrite MK. split; [apply iter_sorted|]. split; [|split; auto].
  intros q. apply in_iter.
Qed.

Lemma free_spectrum ek : (length ek <= 8)%nat ->
  exists esp egs, build_non_interacting_espace K leb wild ek = Ok (esp, egs) /\
    StronglySorted qless (map fst esp) /\ (forall q, In q (map fst esp) <-> qvalid SymSz (length ek) q) /\
    (forall q s, In (q, s) esp -> exists up dw, qns_states (length ek) q = Ok (StSz up dw) /\
       s_states K s = StSz up dw /\ s_vecs K s = NoVecs K /\ ascending leb (s_vals K s) /\
       Permutation (s_vals K s)
         (flat_map (fun sdw => map (fun sup => occupied_energy K ek sup + occupied_energy K ek sdw) up) dw)) /\
    egs_ok K leb esp egs.
Proof.
  intros Hn. destruct (raw_spectrum ek ltac:(lia)) as [esp [egs [E [S [I [R HE]]]]]]. exists esp, egs.
  split; [auto|]. split; [auto|]. split; [auto|]. split; [|auto].
  intros q s Hq. destruct (R q s Hq) as [up [dw [Eq ->]]]. exists up, dw. cbn [s_states s_vecs s_vals].
  assert (Hv : qvalid SymSz (length ek) q) by (apply I, in_map_iff; eexists; split; [|exact Hq]; reflexivity).
  split; [exact Eq|]. split; [reflexivity|]. split; [reflexivity|]. split; [apply sorted_ascending, sort_sorted|].
  rewrite onsites; [apply Permutation_sym, sort_perm|exact Hn| |].
  - destruct Hv as [a [b [-> [Ha Hb]]]]. cbn [qns_states] in Eq.
    destruct (generate_states_spec (length ek) a) as [up' [Eu [_ [_ Su]]]]; [lia|lia|].
    rewrite Eu in Eq. destruct (generate_states (length ek) b); [|discriminate]. cbn [bind] in Eq.
    injection Eq as <- <-. intros x Hx. now apply Su.
  - destruct Hv as [a [b [-> [Ha Hb]]]]. cbn [qns_states] in Eq.
    destruct (generate_states_spec (length ek) b) as [dw' [Ed [_ [_ Sd]]]]; [lia|lia|].
    rewrite Ed in Eq. destruct (generate_states (length ek) a); [|discriminate]. cbn [bind] in Eq.
    injection Eq as <- <-. intros x Hx. now apply Sd.
Qed.
End NonInt.

(** With nine levels the tiled array is longer than the shift range; with the
    x86 behaviour (shift amount modulo 64) energies are counted twice. *)
Definition x86 (s : N) (i : nat) : N := N.shiftr s (N.of_nat (i mod 64)).
Definition ek9 : list ZRing := [1; 10; 100; 1000; 10000; 100000; 1000000; 10000000; 100000000]%Z.
Lemma nine_levels : exists esp egs s,
  build_non_interacting_espace ZRing Z.leb x86 ek9 = Ok (esp, egs) /\ In ([1; 0], s) esp /\
  s_vals ZRing s = [11; 110; 1100; 11000; 110000; 1100000; 11000000; 100000001; 110000000]%Z.
Proof.
  assert (T : forall a b, Z.leb a b = true \/ Z.leb b a = true) by (intros; rewrite !Z.leb_le; lia).
  assert (Tr : forall a b c, Z.leb a b = true -> Z.leb b c = true -> Z.leb a c = true) by (intros a b c; rewrite !Z.leb_le; lia).
  destruct (raw_spectrum ZRing Z.leb T Tr x86 ek9) as [esp [egs [E [_ [I [R _]]]]]]; [cbn; lia|].
  assert (Hv : qvalid SymSz (length ek9) [1; 0]) by (exists 1, 0; cbn; repeat split; lia).
  apply I, in_map_iff in Hv. destruct Hv as [[q s] [Eq Hq]]. cbn [fst] in Eq. subst q.
  exists esp, egs, s. split; [exact E|]. split; [exact Hq|].
  destruct (R _ _ Hq) as [up [dw [Es ->]]]. cbn [s_vals].
  assert (Es' : qns_states (length ek9) [1; 0] = Ok (StSz [1; 2; 4; 8; 16; 32; 64; 128; 256]%N [0]%N)) by (vm_compute; reflexivity).
  rewrite Es' in Es. injection Es as <- <-. vm_compute. reflexivity.
Qed.
