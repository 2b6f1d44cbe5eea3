(** Sequential elements extracted from the second-order ones. *)
From Coq Require Import Reals List Arith NArith ZArith Bool Lia Lra Sorted Permutation.
From Verif Require Import Base RBase RLin OperatorsSpec FockSpec LookupModel SectorModel LocalModel MatvecModel EspaceModel ProjModel ProjSpec
  GfModel GfSpec RateModel RateSpec RateProofs RateDictProofs TransModel TransSpec TransProofs CotModel CotSpec TnlModel TnlSpec TnlProofs TnlMatProofs CnlSpec CnlProofs CnlScreenProofs ExtModel ExtSpec.
Import ListNotations.
Local Open Scope R_scope.

(** * Dictionaries as collections *)
Definition ekey (e : labelled) : key2 := (g_F (snd e), g_I (snd e)).
Definition sel (k : key2) (l : list labelled) : list labelled := filter (fun e => key_eqb (ekey e) k) l.
Definition flat3 (D : list (key3 * list labelled)) (k : key2) : list labelled := flat_map (fun e => if key_eqb (fst (fst e)) k then snd e else []) D.
Definition flat2 (D : list (key2 * list labelled)) (k : key2) : list labelled := flat_map (fun e => if key_eqb (fst e) k then snd e else []) D.
Definition filled3 (D : list (key3 * list labelled)) : Prop := forall e, In e D -> snd e <> [].
Definition filled2 (D : list (key2 * list labelled)) : Prop := forall e, In e D -> snd e <> [].

Lemma sel_app k l l' : sel k (l ++ l') = sel k l ++ sel k l'.
Proof. apply filter_app. Qed.
Lemma sel_flat {X} k (f : X -> list labelled) l : sel k (flat_map f l) = flat_map (fun x => sel k (f x)) l.
Proof. induction l as [|x l IH]; cbn [flat_map]; [reflexivity|]. now rewrite sel_app, IH. Qed.
Lemma key3_spec a b : reflect (a = b) (key3_eqb a b).
Proof.
  destruct a as [a s], b as [b t]. unfold key3_eqb. cbn [fst snd]. destruct (key_eqb_spec a b) as [->|NE]; [destruct (Nat.eqb_spec s t) as [->|NE]|]; constructor; congruence.
Qed.
Lemma append3_flat D k v k2 : Permutation (flat3 (append3 D k v) k2) (flat3 D k2 ++ if key_eqb (fst k) k2 then [v] else []).
Proof.
  induction D as [|[k' l] D IH]; cbn [append3 flat3 flat_map fst snd].
  - rewrite app_nil_r. reflexivity.
  - destruct (key3_spec k' k) as [->|NE]; cbn [flat_map fst snd].
    + destruct (key_eqb (fst k) k2); [|now rewrite app_nil_r]. rewrite <- !app_assoc. apply Permutation_app_head. apply Permutation_app_comm.
    + rewrite <- app_assoc. apply Permutation_app_head. exact IH.
Qed.
Lemma append3_filled D k v : filled3 D -> filled3 (append3 D k v).
Proof.
  induction D as [|[k' l] D IH]; cbn [append3]; intros H e He.
  - destruct He as [<-|[]]. discriminate.
  - destruct (key3_eqb k' k); destruct He as [<-|He].
    + cbn. intros Q. apply app_eq_nil in Q. destruct Q. discriminate.
    + apply H. now right.
    + apply H. now left.
    + apply IH; [|exact He]. intros x Hx. apply H. now right.
Qed.
Lemma extend_flat D k l k2 : Permutation (flat2 (extend D k l) k2) (flat2 D k2 ++ if key_eqb k k2 then l else []).
Proof.
  induction D as [|[k' l'] D IH]; cbn [extend flat2 flat_map fst snd].
  - rewrite app_nil_r. reflexivity.
  - destruct (key_eqb_spec k' k) as [->|NE]; cbn [flat_map fst snd].
    + destruct (key_eqb k k2); [|now rewrite app_nil_r]. rewrite <- !app_assoc. apply Permutation_app_head. apply Permutation_app_comm.
    + rewrite <- app_assoc. apply Permutation_app_head. exact IH.
Qed.
Lemma extend_filled D k l : l <> [] -> filled2 D -> filled2 (extend D k l).
Proof.
  intros NE. induction D as [|[k' l'] D IH]; cbn [extend]; intros H e He.
  - destruct He as [<-|[]]. exact NE.
  - destruct (key_eqb k' k); destruct He as [<-|He].
    + cbn. intros Q. apply app_eq_nil in Q. tauto.
    + apply H. now right.
    + apply H. now left.
    + apply IH; [|exact He]. intros x Hx. apply H. now right.
Qed.
Lemma extend_keys D k l x : In x (map fst (extend D k l)) <-> x = k \/ In x (map fst D).
Proof. induction D as [|[k' l'] D IH]; cbn [extend map fst In]; [intuition|]. destruct (key_eqb_spec k' k) as [->|]; cbn [map fst In]; [|rewrite IH]; intuition. Qed.
Lemma extend_NoDup D k l : NoDup (map fst D) -> NoDup (map fst (extend D k l)).
Proof.
  induction D as [|[k' l'] D IH]; cbn [extend map fst]; intros H; [constructor; auto; constructor|]. inversion H as [|? ? N H']; subst.
  destruct (key_eqb_spec k' k) as [->|NE]; cbn [map fst]; constructor; auto. rewrite extend_keys. intros [->|?]; auto.
Qed.
Lemma merge_spec d : filled3 d -> forall D, filled2 D -> NoDup (map fst D) ->
  filled2 (ext_merge D d) /\ NoDup (map fst (ext_merge D d)) /\ forall k, Permutation (flat2 (ext_merge D d) k) (flat2 D k ++ flat3 d k).
Proof.
  unfold ext_merge. induction d as [|[[k s] l] d IH]; intros FD D F ND; cbn [fold_left].
  - repeat split; auto. intros k. cbn [flat3 flat_map]. now rewrite app_nil_r.
  - cbn [fst snd]. destruct (IH (fun e He => FD e (or_intror He)) (extend D k l)) as (A & B & C).
    + apply extend_filled; [|exact F]. apply (FD (k, s, l)). now left.
    + now apply extend_NoDup.
    + repeat split; auto. intros k2. rewrite C. cbn [flat3 flat_map fst snd]. rewrite extend_flat, <- app_assoc. reflexivity.
Qed.
Lemma flat2_In D k l : NoDup (map fst D) -> In (k, l) D -> flat2 D k = l.
Proof.
  induction D as [|[k' l'] D IH]; intros ND H; [destruct H|]. cbn [map fst] in ND. inversion ND as [|? ? N ND']; subst. cbn [flat2 flat_map fst snd].
  assert (OUT : forall D, ~ In k (map fst D) -> flat_map (fun e : key2 * list labelled => if key_eqb (fst e) k then snd e else []) D = []).
  { clear. induction D as [|[k' l'] D IH]; intros H; cbn [flat_map fst snd]; [reflexivity|]. cbn [map fst In] in H. destruct (key_eqb_spec k' k); [tauto|]. apply IH. tauto. }
  destruct H as [Q|H].
  - injection Q as -> ->. destruct (key_eqb_spec k k); [|congruence]. rewrite OUT by exact N. apply app_nil_r.
  - destruct (key_eqb_spec k' k) as [->|]; [exfalso; apply N; apply in_map_iff; exists (k, l); auto|]. apply IH; auto.
Qed.
Lemma flat2_out D k : flat2 D k <> [] -> exists l, In (k, l) D.
Proof.
  induction D as [|[k' l'] D IH]; cbn [flat2 flat_map fst snd]; intros H; [congruence|]. destruct (key_eqb_spec k' k) as [->|]; [exists l'; now left|].
  destruct (IH H) as (l & Hl). exists l. now right.
Qed.

(** * What is emitted *)
Definition holds (D : gfdicts) (L : list labelled) : Prop :=
  filled3 (fst D) /\ filled3 (snd D) /\ forall k, Permutation (flat3 (fst D) k ++ flat3 (snd D) k) (sel k L).
Lemma holds_e De Dh L k s x : holds (De, Dh) L -> ekey x = k -> holds (append3 De (k, s) x, Dh) (L ++ [x]).
Proof.
  intros (A & B & C) Q. split; [now apply append3_filled|]. split; [exact B|]. intros k2. cbn [fst snd] in *. rewrite append3_flat. cbn [fst]. rewrite sel_app. cbn [sel filter]. rewrite Q.
  rewrite <- app_assoc, (Permutation_app_comm _ (flat3 Dh k2)), app_assoc. apply Permutation_app; [apply C|destruct (key_eqb k k2); reflexivity].
Qed.
Lemma holds_h De Dh L k s x : holds (De, Dh) L -> ekey x = k -> holds (De, append3 Dh (k, s) x) (L ++ [x]).
Proof.
  intros (A & B & C) Q. split; [exact A|]. split; [now apply append3_filled|]. intros k2. cbn [fst snd] in *. rewrite append3_flat. cbn [fst]. rewrite sel_app. cbn [sel filter]. rewrite Q.
  rewrite app_assoc. apply Permutation_app; [apply C|destruct (key_eqb k k2); reflexivity].
Qed.
Definition row_emits (N f i : nat) (sp : nat * nat) (p : path) (j : nat) : list labelled :=
  match p_kind p with
  | Electron => [(snd sp, mkgfel Electron [N + 1; j]%nat [N; i] (nth j (p_vI p) []) (nth j (p_E p) 0)); (fst sp, mkgfel Hole [N; f] [N + 1; j]%nat (nth j (p_vF p) []) (nth j (p_E p) 0))]
  | Hole => [(snd sp, mkgfel Hole [N - 1; j]%nat [N; i] (nth j (p_vI p) []) (nth j (p_E p) 0)); (fst sp, mkgfel Electron [N; f] [N - 1; j]%nat (nth j (p_vF p) []) (nth j (p_E p) 0))]
  end.
Definition path_emits (N f i : nat) (sp : nat * nat) (p : path) : list labelled := flat_map (row_emits N f i sp p) (seq 0 (length (p_vI p))).
Definition sigma_emits (N f i : nat) (s : nsigma) : list labelled := flat_map (path_emits N f i (n_spins s)) (n_gf2 s).
Definition entry_emits (e : key2 * list nsigma) : list labelled :=
  match e with (([N; f], [_; i]), l) => if (i =? f)%nat then flat_map (sigma_emits N f i) l else [] | _ => [] end.
(** Arrays with the same number of rows. *)
Definition regular (p : path) : Prop := length (p_vF p) = length (p_vI p) /\ length (p_E p) = length (p_vI p).
Lemma row_ok {X} (l : list X) j x : (j < length l)%nat -> row_of_path l j = Ok (nth j l x).
Proof. intros H. unfold row_of_path. now rewrite (nth_error_nth' l x H). Qed.
Lemma ext_row_ok N f i sp p D L j : regular p -> (j < length (p_vI p))%nat -> holds D L -> exists D', ext_row N f i sp p D j = Ok D' /\ holds D' (L ++ row_emits N f i sp p j).
Proof.
  intros [R1 R2] Hj H. destruct D as [De Dh]. unfold ext_row, row_emits. destruct (p_kind p);
    rewrite (row_ok (p_vI p) j []), (row_ok (p_E p) j 0), (row_ok (p_vF p) j []) by lia; cbn [bind]; eexists; (split; [reflexivity|]).
  - match goal with |- holds _ (L ++ [?x; ?y]) => change (L ++ [x; y]) with (L ++ [x] ++ [y]) end. rewrite app_assoc. apply holds_h; [|reflexivity]. apply holds_e; auto.
  - match goal with |- holds _ (L ++ [?x; ?y]) => change (L ++ [x; y]) with (L ++ [x] ++ [y]) end. rewrite app_assoc. apply holds_e; [|reflexivity]. apply holds_h; auto.
Qed.
Lemma foldM_emits {X} (f : gfdicts -> X -> res gfdicts) (em : X -> list labelled) l :
  (forall x D L, In x l -> holds D L -> exists D', f D x = Ok D' /\ holds D' (L ++ em x)) ->
  forall D L, holds D L -> exists D', foldM f l D = Ok D' /\ holds D' (L ++ flat_map em l).
Proof.
  induction l as [|x l IH]; intros H D L HD; cbn [foldM flat_map].
  - exists D. rewrite app_nil_r. auto.
  - destruct (H x D L (or_introl eq_refl) HD) as (D1 & -> & H1). cbn [bind]. rewrite app_assoc. apply IH; auto. intros y D' L' Hy. apply H. now right.
Qed.
Definition regular_entry (e : key2 * list nsigma) : Prop :=
  (exists N f N' i, fst e = ([N; f], [N'; i])) /\ forall s p, In s (snd e) -> In p (n_gf2 s) -> regular p.
Lemma ext_entry_ok e D L : regular_entry e -> holds D L -> exists D', ext_entry D e = Ok D' /\ holds D' (L ++ entry_emits e).
Proof.
  intros [(N & f & N' & i & K) R] H. destruct e as [k l]. cbn [fst snd] in *. subst k. unfold ext_entry, entry_emits. cbn [fst snd]. destruct (i =? f)%nat.
  - apply foldM_emits; [|exact H]. intros s D0 L0 Hs H0. unfold ext_sigma, sigma_emits. apply foldM_emits; [|exact H0]. intros p D1 L1 Hp H1. unfold ext_path, path_emits.
    apply foldM_emits; [|exact H1]. intros j D2 L2 Hj H2. apply in_seq in Hj. apply ext_row_ok; [exact (R s p Hs Hp)|lia|exact H2].
  - exists D. rewrite app_nil_r. auto.
Qed.
Theorem extract_ok d : (forall e, In e d -> regular_entry e) -> exists D, extract_sequential d = Ok D /\ NoDup (map fst D) /\
  (forall k l, In (k, l) D -> l <> [] /\ Permutation l (sel k (flat_map entry_emits d))) /\
  (forall k, sel k (flat_map entry_emits d) <> [] -> exists l, In (k, l) D).
Proof.
  intros R. unfold extract_sequential.
  destruct (foldM_emits ext_entry entry_emits d) with (D := (@nil (key3 * list labelled), @nil (key3 * list labelled))) (L := @nil labelled) as ([De Dh] & -> & A & B & C).
  - intros e D L He H. apply ext_entry_ok; auto.
  - split; [intros e []|]. split; [intros e []|]. intros k. reflexivity.
  - cbn [bind fst snd app] in *. destruct (merge_spec De A []) as (F1 & N1 & P1); [intros e []|constructor|]. destruct (merge_spec Dh B (ext_merge [] De) F1 N1) as (F2 & N2 & P2).
    assert (P : forall k, Permutation (flat2 (ext_merge (ext_merge [] De) Dh) k) (sel k (flat_map entry_emits d))).
    { intros k. rewrite P2, P1. cbn [flat2 flat_map app]. apply C. }
    eexists. split; [reflexivity|]. split; [exact N2|]. split.
    + intros k l H. split; [exact (F2 _ H)|]. rewrite <- (flat2_In _ _ _ N2 H). apply P.
    + intros k H. apply flat2_out. intros Q. apply H. specialize (P k). rewrite Q in P. now apply Permutation_nil in P.
Qed.
