(** The lattice Green's function of several sites. *)
From Coq Require Import Reals List Arith Lia Lra Bool.
From Verif Require Import Base RBase RLin CBase ProjModel EspaceModel DmftModel FermiModel NanoModel NanoSpec NanoMatProofs.
Import ListNotations.
Local Open Scope R_scope.
Add Ring cxr : cx_ring.

Lemma take_ok {A} (d : A) v idx : (forall i, In i idx -> (i < length v)%nat) -> take v idx = Ok (map (fun i => nth i v d) idx).
Proof.
  unfold take. induction idx as [|i idx IH]; intros H; cbn [mapM map]; [reflexivity|].
  unfold elem_at at 1. rewrite (nth_error_nth' v d) by (apply H; now left). cbn [bind]. rewrite IH by (intros; apply H; now right). reflexivity.
Qed.
Lemma take_err {A} (v : list A) idx i : In i idx -> (length v <= i)%nat -> take v idx = Err IndexError.
Proof.
  unfold take. induction idx as [|k idx IH]; intros H L; [destruct H|]. cbn [mapM]. destruct H as [->|H].
  - unfold elem_at. now rewrite (proj2 (nth_error_None v i) L).
  - unfold elem_at at 1. destruct (nth_error v k); [|reflexivity]. cbn [bind]. now rewrite IH.
Qed.
Lemma upd_ok {A} (d : A) v i x : (i < length v)%nat -> exists v', upd v i x = Some v' /\ length v' = length v /\ nth i v' d = x /\ forall j, j <> i -> nth j v' d = nth j v d.
Proof.
  revert i; induction v as [|y v IH]; intros i H; [cbn in H; lia|]. destruct i as [|i].
  - exists (x :: v). repeat split; auto. intros [|j] N; [congruence|reflexivity].
  - cbn [upd]. destruct (IH i ltac:(cbn in H; lia)) as (v' & E & L & N1 & N2). rewrite E. exists (y :: v'). cbn [length nth]. repeat split; auto.
    intros [|j] N; [reflexivity|]. apply N2. congruence.
Qed.
Lemma upd_none {A} v i (x : A) : (length v <= i)%nat -> upd v i x = None.
Proof. revert i; induction v as [|y v IH]; intros [|i] H; cbn in *; auto; try lia. rewrite IH by lia. reflexivity. Qed.
Lemma put_ok {A} (d : A) idx : forall v e, NoDup idx -> length e = length idx -> (forall i, In i idx -> (i < length v)%nat) ->
  exists v', put_at v idx e = Ok v' /\ length v' = length v /\
    (forall a, (a < length idx)%nat -> nth (nth a idx 0%nat) v' d = nth a e d) /\ forall i, ~ In i idx -> nth i v' d = nth i v d.
Proof.
  induction idx as [|i idx IH]; intros v e ND L H.
  - exists v. unfold put_at. repeat split; auto. intros a Ha. cbn in Ha. lia.
  - destruct e as [|x e]; [discriminate|]. inversion_clear ND as [|? ? NI ND']. destruct (upd_ok d v i x) as (v1 & E1 & L1 & A1 & B1); [apply H; now left|].
    destruct (IH v1 e ND') as (v' & E & L' & A' & B'); [now injection L| intros; rewrite L1; apply H; now right|].
    exists v'. unfold put_at in *. cbn [combine foldM fst snd]. unfold upd_at at 1. rewrite E1. cbn [bind]. rewrite E. repeat split; auto; [congruence| |].
    + intros [|a] Ha; cbn [nth].
      * rewrite B' by auto. auto.
      * apply A'. cbn in Ha. lia.
    + intros j N. rewrite B' by (intros I; apply N; now right). apply B1. intros ->. apply N. now left.
Qed.
Lemma put_err {A} idx : forall (v e : list A) i, length e = length idx -> In i idx -> (length v <= i)%nat -> put_at v idx e = Err IndexError.
Proof.
  induction idx as [|k idx IH]; intros v e i L I H; [destruct I|]. destruct e as [|x e]; [discriminate|].
  unfold put_at in *. cbn [combine foldM fst snd]. unfold upd_at at 1. destruct (Nat.lt_ge_cases k (length v)) as [K|K].
  - destruct (upd_ok x v k x K) as (v1 & E1 & L1 & _). rewrite E1. cbn [bind]. destruct I as [->|I]; [lia|]. apply (IH v1 e i); auto. lia.
  - now rewrite upd_none.
Qed.
Lemma put_length {A} idx : forall (v e v' : list A), put_at v idx e = Ok v' -> length v' = length v.
Proof.
  induction idx as [|i idx IH]; intros v e v' E; unfold put_at in *; cbn [combine foldM] in E; [now injection E as <-|].
  destruct e as [|x e]; cbn [combine foldM fst snd] in E; [now injection E as <-|]. unfold upd_at in E at 1.
  destruct (Nat.lt_ge_cases i (length v)) as [K|K]; [|now rewrite upd_none in E].
  destruct (upd_ok x v i x K) as (v1 & E1 & L1 & _). rewrite E1 in E. cbn [bind] in E. rewrite (IH v1 e v' E). exact L1.
Qed.
Lemma nth_map_seq {A} (f : nat -> A) n i d : (i < n)%nat -> nth i (map f (seq 0 n)) d = f i.
Proof. intros H. rewrite (nth_indep _ d (f 0%nat)) by (rewrite map_length, seq_length; auto). rewrite map_nth, seq_nth by auto. reflexivity. Qed.
Lemma nth_map {A B} (f : A -> B) l i d d' : (i < length l)%nat -> nth i (map f l) d' = f (nth i l d).
Proof. intros H. rewrite (nth_indep _ d' (f d)) by now rewrite map_length. apply map_nth. Qed.
Lemma nth_diagonal n x i d : (i < n)%nat -> nth i (diagonal n x) d = x i i.
Proof. intros H. unfold diagonal. now rewrite nth_map_seq. Qed.
Lemma diagonal_length n x : length (diagonal n x) = n.
Proof. unfold diagonal. now rewrite map_length, seq_length. Qed.

Lemma mapM_enum {A B} (d : A) (f : nat * A -> res B) (g : nat -> B) l : (forall c, (c < length l)%nat -> f (c, nth c l d) = Ok (g c)) ->
  mapM f (enum l) = Ok (map g (seq 0 (length l))).
Proof.
  unfold enum. intros H.
  assert (G : forall s l, (forall c, (c < length l)%nat -> f ((s + c)%nat, nth c l d) = Ok (g (s + c)%nat)) -> mapM f (combine (seq s (length l)) l) = Ok (map g (seq s (length l)))).
  { clear. intros s l. revert s. induction l as [|a l IH]; intros s H; cbn [length seq combine mapM map]; [reflexivity|].
    pose proof (H 0%nat ltac:(cbn; lia)) as H0. rewrite Nat.add_0_r in H0. cbn [nth] in H0. rewrite H0. cbn [bind]. rewrite IH; [reflexivity|].
    intros c Hc. replace (S s + c)%nat with (s + S c)%nat by lia. apply (H (S c)). cbn. lia. }
  apply (G 0%nat). exact H.
Qed.
Lemma mapM_in {A B} (f : A -> res B) l r : mapM f l = Ok r -> length r = length l /\ forall i d d', (i < length l)%nat -> f (nth i l d) = Ok (nth i r d').
Proof.
  revert r; induction l as [|a l IH]; intros r E; cbn [mapM] in E.
  - injection E as <-. split; auto. intros i d d' H. cbn in H. lia.
  - destruct (f a) as [b|] eqn:Eb; [|discriminate]. cbn [bind] in E. destruct (mapM f l) as [bs|] eqn:El; [|discriminate]. injection E as <-.
    destruct (IH bs eq_refl) as [L N]. split; [cbn; congruence|]. intros [|i] d d' H; cbn [nth]; auto. apply N. cbn in H. lia.
Qed.
Lemma mapM_err {A B} (f : A -> res B) l e : mapM f l = Err e -> exists a, In a l /\ f a = Err e.
Proof.
  induction l as [|a l IH]; intros E; cbn [mapM] in E; [discriminate|]. destruct (f a) as [b|x] eqn:Eb; cbn [bind] in E.
  - destruct (mapM f l) as [bs|x] eqn:El; cbn [bind] in E; [discriminate|]. injection E as ->. destruct (IH eq_refl) as (a' & I & F). exists a'. split; [now right|auto].
  - injection E as ->. exists a. split; [now left|auto].
Qed.
Lemma mapM_first_err {A B} (f : A -> res B) a l e : f a = Err e -> mapM f (a :: l) = Err e.
Proof. intros E. cbn [mapM]. now rewrite E. Qed.
Lemma mapM_ext {A B} (f g : A -> res B) l : (forall a, In a l -> f a = g a) -> mapM f l = mapM g l.
Proof. induction l as [|a l IH]; intros H; cbn [mapM]; [reflexivity|]. rewrite H by now left. now rewrite IH by (intros; apply H; now right). Qed.

Section Call.
Variable inv : nat -> mat -> res mat.
Hypothesis INV : inverts inv.
Variable l : nloc.
Variable mu : R.
Hypothesis MU : nl_mu l = Some mu.

(** The self-energy on every site, from the values of the classes. *)
Definition site_sigma (s : list cx) (i : nat) : cx := nth (nth i (nl_inv l) 0%nat) s (rcx 0).
Definition the_lat (s : list cx) (z : cx) : mat := lat mu (nl_H l) (nl_S l) (nl_Hyb l) (site_sigma s) z.

Hypothesis LEN : length (nl_inv l) = nl_n l.

(** One chunk. *)
Lemma chunk_ok s z rest out : (forall i, In i (nl_inv l) -> (i < length s)%nat) ->
  (forall i, In i (nl_neq l) -> (i < nl_n l)%nat) -> NoDup (nl_neq l) -> (forall i, In i (nl_neq l) -> (i < length out)%nat) ->
  match loc_chunk inv l s (z :: rest) out with
  | Ok out' => exists g, inverse (nl_n l) (the_lat s z) g /\ length out' = length out /\
      (forall i, In i (nl_neq l) -> nth i out' (rcx 0) = g i i) /\ forall i, ~ In i (nl_neq l) -> nth i out' (rcx 0) = nth i out (rcx 0)
  | Err _ => ~ exists g, inverse (nl_n l) (the_lat s z) g
  end.
Proof.
  intros HI HN ND HO. unfold loc_chunk, nl_free_inv. cbn [elem_at nth_error bind]. rewrite MU. cbn [attr bind].
  rewrite (take_ok (rcx 0) s (nl_inv l) HI). cbn [bind]. unfold bcast. rewrite map_length, LEN, Nat.eqb_refl. cbn [bind].
  set (x := fun i j => if (i =? j)%nat then _ else _).
  assert (X : forall i j, (i < nl_n l)%nat -> (j < nl_n l)%nat -> x i j = the_lat s z i j).
  { intros i j Hi Hj. unfold x, the_lat, lat, delta, site_sigma. destruct (Nat.eqb_spec i j) as [->|N].
    - rewrite (nth_map (fun i => nth i s (rcx 0)) (nl_inv l) j 0%nat) by lia. ring.
    - ring. }
  pose proof (INV (nl_n l) x) as IX. destruct (inv (nl_n l) x) as [g|e]; cbn [bind].
  - rewrite (take_ok (rcx 0)) by (intros i Hi; rewrite diagonal_length; auto). cbn [bind].
    destruct (put_ok (rcx 0) (nl_neq l) out (map (fun i => nth i (diagonal (nl_n l) g) (rcx 0)) (nl_neq l)) ND) as (v' & E & L & A & B); [apply map_length|auto|].
    rewrite E. exists g. repeat split; auto.
    + apply (inverse_ext _ _ _ _ X IX); auto.
    + apply (inverse_ext _ _ _ _ X IX); auto.
    + intros i Hi. destruct (In_nth _ _ 0%nat Hi) as (a & Ha & <-). rewrite A by auto. rewrite (nth_map (fun i => nth i (diagonal (nl_n l) g) (rcx 0)) (nl_neq l) a 0%nat) by auto. apply nth_diagonal. auto.
  - intros (g & I). apply IX. exists g. apply (inverse_ext _ (the_lat s z)); auto. intros; symmetry; auto.
Qed.
Lemma chunk_err s z rest out i : (forall i, In i (nl_inv l) -> (i < length s)%nat) -> (forall i, In i (nl_neq l) -> (i < nl_n l)%nat) ->
  In i (nl_neq l) -> (length out <= i)%nat -> (exists g, inverse (nl_n l) (the_lat s z) g) ->
  loc_chunk inv l s (z :: rest) out = Err IndexError.
Proof.
  intros HI HN II LO (g0 & I0). unfold loc_chunk, nl_free_inv. cbn [elem_at nth_error bind]. rewrite MU. cbn [attr bind].
  rewrite (take_ok (rcx 0) s (nl_inv l) HI). cbn [bind]. unfold bcast. rewrite map_length, LEN, Nat.eqb_refl. cbn [bind].
  set (x := fun i j => if (i =? j)%nat then _ else _).
  assert (X : forall i j, (i < nl_n l)%nat -> (j < nl_n l)%nat -> x i j = the_lat s z i j).
  { intros i' j Hi Hj. unfold x, the_lat, lat, delta, site_sigma. destruct (Nat.eqb_spec i' j) as [->|N].
    - rewrite (nth_map (fun i => nth i s (rcx 0)) (nl_inv l) j 0%nat) by lia. ring.
    - ring. }
  pose proof (INV (nl_n l) x) as IX. destruct (inv (nl_n l) x) as [g|e]; cbn [bind].
  - rewrite (take_ok (rcx 0)) by (intros k Hk; rewrite diagonal_length; auto). cbn [bind]. apply (put_err _ _ _ i); auto. apply map_length.
  - exfalso. apply IX. exists g0. apply (inverse_ext _ (the_lat s z)); auto. intros; symmetry; auto.
Qed.
Lemma chunk_class_err s z rest out i : In i (nl_inv l) -> (length s <= i)%nat -> loc_chunk inv l s (z :: rest) out = Err IndexError.
Proof.
  intros HI L. unfold loc_chunk, nl_free_inv. cbn [elem_at nth_error bind]. rewrite MU. cbn [attr bind]. now rewrite (take_err s _ i).
Qed.

Lemma chunk_length s z out out' : loc_chunk inv l s z out = Ok out' -> length out' = length out.
Proof.
  unfold loc_chunk. intros E. repeat (match type of E with bind ?a _ = _ => destruct a; cbn [bind] in E; [|discriminate E] end). now apply put_length in E.
Qed.

Variable mem : nat -> nat -> cx.
Variables (sigma : rows) (zs : list cx).
Hypothesis SIG : nl_get_sigma l zs = Ok sigma.
Hypothesis ROWS : forall r, In r sigma -> length r = length zs.
Hypothesis NZ : zs <> [].
Hypothesis NS : sigma <> [].

Lemma shape_ok : negb (forallb (fun r => length r =? length zs)%nat sigma) || (length zs =? 0)%nat || (length sigma =? 0)%nat = false.
Proof.
  assert (forallb (fun r => length r =? length zs)%nat sigma = true) as -> by (apply forallb_forall; intros r Hr; apply Nat.eqb_eq; auto).
  destruct zs; [congruence|]. destruct sigma; [congruence|]. reflexivity.
Qed.
Definition entry_at (j : nat) (i : nat) : cx := nth j (nth i sigma []) (rcx 0).
Lemma column_length (m : rows) j : length (column m j) = length m.
Proof. unfold column. apply map_length. Qed.
Lemma column_nth (m : rows) j i : (i < length m)%nat -> nth i (column m j) (rcx 0) = nth j (nth i m []) (rcx 0).
Proof. intros H. unfold column. now rewrite (nth_map (fun r => nth j r (rcx 0)) m i []). Qed.

(** The call with one chunk per frequency. *)
Definition generic_chunks := map (fun j => (column sigma j, repeat (nth j zs (rcx 0)) (length sigma))) (seq 0 (length zs)).
Definition generic_call : res rows :=
  do outs <- mapM (fun p => let '(c, (sigma_, z_)) := p in loc_chunk inv l sigma_ z_ (map (mem c) (seq 0 (length sigma_)))) (enum generic_chunks);
  take (map (fun i => column outs i) (seq 0 (length sigma))) (nl_neq l).
Lemma call_generic : (length sigma <> 1 \/ length zs = 1)%nat -> nl_call inv mem l zs = generic_call.
Proof.
  intros C. unfold nl_call. rewrite SIG. cbn [bind]. rewrite shape_ok. unfold generic_call, generic_chunks.
  destruct sigma as [|r [|r' m]] eqn:E; [congruence| |reflexivity].
  destruct C as [C|C]; [cbn in C; lia|]. destruct zs as [|z [|? ?]]; try discriminate C.
  pose proof (ROWS r (or_introl eq_refl)) as L. destruct r as [|s [|? ?]]; try discriminate L.
  cbn [chunks enum combine length seq map mapM repeat nth column]. destruct (loc_chunk inv l [s] [z] [mem 0%nat 0%nat]) as [o|] eqn:EC; cbn [bind]; [|reflexivity].
  apply chunk_length in EC. cbn [length] in EC.
  destruct o as [|o [|? ?]]; try discriminate. reflexivity.
Qed.

Hypothesis CLS : forall i, In i (nl_inv l) -> (i < length sigma)%nat.
Hypothesis SITES : forall i, In i (nl_neq l) -> (i < nl_n l)%nat.
Hypothesis ND : NoDup (nl_neq l).

Definition lat_at (j : nat) : mat := lat mu (nl_H l) (nl_S l) (nl_Hyb l) (fun i => entry_at j (nth i (nl_inv l) 0%nat)) (nth j zs (rcx 0)).
Lemma the_lat_at j i k : (i < nl_n l)%nat -> the_lat (column sigma j) (nth j zs (rcx 0)) i k = lat_at j i k.
Proof.
  intros Hi. unfold the_lat, lat_at, lat, site_sigma, entry_at. rewrite column_nth; auto. apply CLS. apply nth_In. lia.
Qed.
Lemma lat_at_inverse j g : inverse (nl_n l) (the_lat (column sigma j) (nth j zs (rcx 0))) g <-> inverse (nl_n l) (lat_at j) g.
Proof. split; apply inverse_ext; intros i k Hi Hk; [|symmetry]; now apply the_lat_at. Qed.
Lemma repeat_cons {A} (a : A) n : (0 < n)%nat -> exists r, repeat a n = a :: r.
Proof. destruct n; [lia|]. intros _. now exists (repeat a n). Qed.
Lemma nth_generic c d : (c < length zs)%nat -> nth c generic_chunks d = (column sigma c, repeat (nth c zs (rcx 0)) (length sigma)).
Proof. intros H. unfold generic_chunks. now rewrite nth_map_seq. Qed.
Lemma sigma_pos : (0 < length sigma)%nat.
Proof. destruct sigma; [congruence|cbn; lia]. Qed.

Theorem call_values : (length sigma <> 1 \/ length zs = 1)%nat -> (forall i, In i (nl_neq l) -> (i < length sigma)%nat) ->
  match nl_call inv mem l zs with
  | Ok G => length G = length (nl_neq l) /\ (forall r, In r G -> length r = length zs) /\
      forall j, (j < length zs)%nat -> exists g, inverse (nl_n l) (lat_at j) g /\
        forall a, (a < length (nl_neq l))%nat -> nth j (nth a G []) (rcx 0) = g (nth a (nl_neq l) 0%nat) (nth a (nl_neq l) 0%nat)
  | Err _ => exists j, (j < length zs)%nat /\ ~ exists g, inverse (nl_n l) (lat_at j) g
  end.
Proof.
  intros C NK. rewrite (call_generic C). unfold generic_call.
  assert (GL : length generic_chunks = length zs) by (unfold generic_chunks; now rewrite map_length, seq_length).
  assert (EL : length (enum generic_chunks) = length zs) by (unfold enum; rewrite combine_length, seq_length, GL; lia).
  assert (EN : forall c, (c < length zs)%nat -> nth c (enum generic_chunks) (0%nat, ([], [])) = (c, (column sigma c, repeat (nth c zs (rcx 0)) (length sigma)))).
  { intros c Hc. unfold enum. rewrite combine_nth by now rewrite seq_length. rewrite seq_nth by lia. rewrite nth_generic by auto. reflexivity. }
  destruct (mapM _ (enum generic_chunks)) as [outs|e] eqn:EM; cbn [bind].
  - apply mapM_in in EM. destruct EM as [LO NO]. rewrite EL in *.
    rewrite (take_ok []) by (intros i Hi; rewrite map_length, seq_length; auto).
    assert (V : forall j, (j < length zs)%nat -> exists g, inverse (nl_n l) (lat_at j) g /\ forall i, In i (nl_neq l) -> nth i (nth j outs []) (rcx 0) = g i i).
    { intros j Hj. specialize (NO j (0%nat, ([], [])) [] Hj). rewrite EN in NO by auto. destruct (repeat_cons (nth j zs (rcx 0)) (length sigma) sigma_pos) as (r & Er). rewrite Er in NO.
      pose proof (chunk_ok (column sigma j) (nth j zs (rcx 0)) r (map (mem j) (seq 0 (length (column sigma j)))) ltac:(intros i Hi; rewrite column_length; auto) SITES ND ltac:(intros i Hi; rewrite map_length, seq_length, column_length; auto)) as K.
      rewrite NO in K. destruct K as (g & I & _ & A & _). exists g. split; [now apply lat_at_inverse|auto]. }
    split; [now rewrite map_length|]. split.
    + intros r Hr. apply in_map_iff in Hr. destruct Hr as (i & <- & Hi). rewrite nth_map_seq by auto. rewrite column_length. exact LO.
    + intros j Hj. destruct (V j Hj) as (g & I & A). exists g. split; auto. intros a Ha.
      rewrite (nth_map (fun i => nth i (map (fun i => column outs i) (seq 0 (length sigma))) []) (nl_neq l) a 0%nat) by auto.
      assert (Hin : In (nth a (nl_neq l) 0%nat) (nl_neq l)) by now apply nth_In.
      rewrite nth_map_seq by auto. rewrite column_nth by lia. now apply A.
  - apply mapM_err in EM. destruct EM as (p & Hp & Ep). destruct (In_nth _ _ (0%nat, ([], [])) Hp) as (c & Hc & <-). rewrite EL in Hc. rewrite EN in Ep by auto.
    destruct (repeat_cons (nth c zs (rcx 0)) (length sigma) sigma_pos) as (r & Er). rewrite Er in Ep. exists c. split; auto.
    pose proof (chunk_ok (column sigma c) (nth c zs (rcx 0)) r (map (mem c) (seq 0 (length (column sigma c)))) ltac:(intros i Hi; rewrite column_length; auto) SITES ND ltac:(intros i Hi; rewrite map_length, seq_length, column_length; auto)) as K.
    rewrite Ep in K. intros (g & I). apply K. exists g. now apply lat_at_inverse.
Qed.

(** A representative beyond the number of classes. *)
Theorem call_index i : (length sigma <> 1 \/ length zs = 1)%nat -> In i (nl_neq l) -> (length sigma <= i)%nat -> (exists g, inverse (nl_n l) (lat_at 0) g) ->
  nl_call inv mem l zs = Err IndexError.
Proof.
  intros C Hi Li (g & I). rewrite (call_generic C). unfold generic_call, generic_chunks.
  assert (exists z zs', zs = z :: zs') as (z & zs' & Ez) by (destruct zs as [|z zs']; [congruence|eauto]).
  destruct (repeat_cons z (length sigma) sigma_pos) as (r & Er).
  assert (K : loc_chunk inv l (column sigma 0) (z :: r) (map (mem 0%nat) (seq 0 (length (column sigma 0)))) = Err IndexError); [|
    rewrite Ez; unfold enum; cbn [length seq map combine]; rewrite mapM_first_err with (e := IndexError); [reflexivity|cbn [nth]; rewrite Er; exact K]].
  apply (chunk_err _ _ _ _ i); auto.
  - intros k Hk. rewrite column_length. auto.
  - rewrite map_length, seq_length, column_length. auto.
  - exists g. replace z with (nth 0 zs (rcx 0)) by now rewrite Ez. now apply lat_at_inverse.
Qed.
End Call.
