(** Sectors within reach of the ground states. *)
From Coq Require Import Reals List Arith ZArith Bool Lia.
From Verif Require Import Base RBase LookupModel EspaceModel EspaceProofs RateModel RateSpec.
Import ListNotations.
Local Open Scope Z_scope.

Lemma dns_all_eq : dns_all = [(-1, 0); (0, -1); (1, 0); (0, 1)].
Proof. reflexivity. Qed.

Lemma in_range_spec n s : in_range (Z.of_nat n) s = true <-> legal n s.
Proof. unfold in_range, legal. rewrite !andb_true_iff, !Z.leb_le. tauto. Qed.

Theorem active_iff n ngs s : In s (find_active_sectors (Z.of_nat n) ngs) <-> active n ngs s.
Proof.
  unfold find_active_sectors, active. rewrite in_app_iff, filter_In, in_range_spec, in_flat_map, dns_all_eq.
  assert (N : forall g, In s (map (fun d => (fst g + fst d, snd g + snd d)) [(-1, 0); (0, -1); (1, 0); (0, 1)]) <-> one_electron g s).
  { intros [a b]. destruct s as [c d]. unfold one_electron. simpl. split.
    - intros [H|[H|[H|[H|[]]]]]; injection H as <- <-; lia.
    - intros H. assert (D : (c = a - 1 /\ d = b) \/ (c = a /\ d = b - 1) \/ (c = a + 1 /\ d = b) \/ (c = a /\ d = b + 1)) by lia.
      destruct D as [[-> ->]|[[-> ->]|[[-> ->]|[-> ->]]]]; [left|right; left|right; right; left|right; right; right; left]; f_equal; lia. }
  split.
  - intros [[(g & Hg & H) L]|H]; [right|left; exact H]. exists g. split; [exact Hg|]. split; [apply N; exact H|exact L].
  - intros [H|(g & Hg & H & L)]; [right; exact H|left]. split; [|exact L]. exists g. split; [exact Hg|]. now apply N.
Qed.

Lemma index_legal n s : legal n s -> exists k, get_sector_index (Z.of_nat n) (fst s) (snd s) = Ok (Z.of_nat k) /\ (k < (n + 1) * (n + 1))%nat /\ k = (Z.to_nat (fst s) * (n + 1) + Z.to_nat (snd s))%nat.
Proof.
  intros [A B]. exists (Z.to_nat (fst s) * (n + 1) + Z.to_nat (snd s))%nat. split; [|split; [|reflexivity]].
  - rewrite <- (sector_index_ok n (Z.to_nat (fst s)) (Z.to_nat (snd s))) by lia. rewrite !Z2Nat.id by lia. reflexivity.
  - assert (Z.to_nat (fst s) <= n)%nat by lia. assert (Z.to_nat (snd s) <= n)%nat by lia. nia.
Qed.
Definition spos (n : nat) (s : Z * Z) : nat := (Z.to_nat (fst s) * (n + 1) + Z.to_nat (snd s))%nat.

Lemma mapM_legal n l : (forall s, In s l -> legal n s) -> mapM (fun s => get_sector_index (Z.of_nat n) (fst s) (snd s)) l = Ok (map (fun s => Z.of_nat (spos n s)) l).
Proof.
  induction l as [|s l IH]; intros H; [reflexivity|]. cbn [mapM map]. destruct (index_legal n s (H s (or_introl eq_refl))) as (k & E & _ & K).
  rewrite E. cbn [bind]. rewrite IH by (intros; apply H; now right). cbn [bind]. unfold spos. now rewrite <- K.
Qed.
Lemma pyset_fold n val l : (forall s, In s l -> legal n s) -> forall neig, length neig = ((n + 1) * (n + 1))%nat ->
  exists out, foldM (fun neig i => pyset neig (Z.to_nat i) val) (map (fun s => Z.of_nat (spos n s)) l) neig = Ok out /\ length out = ((n + 1) * (n + 1))%nat /\
  forall k, (k < (n + 1) * (n + 1))%nat -> (In k (map (spos n) l) -> nth k out 0 = val) /\ (~ In k (map (spos n) l) -> nth k out 0 = nth k neig 0).
Proof.
  induction l as [|s l IH]; intros H neig L; [exists neig; cbn; repeat split; auto; intros []|].
  cbn [map foldM]. rewrite Nat2Z.id. destruct (index_legal n s (H s (or_introl eq_refl))) as (p & _ & P & K). fold (spos n s) in K. subst p.
  rewrite pyset_ok by lia. cbn [bind]. destruct (IH (fun s' h => H s' (or_intror h)) (upd_tot neig (spos n s) val)) as (out & E & LO & V); [now rewrite upd_tot_length|].
  exists out. split; [exact E|]. split; [exact LO|]. intros k Hk. destruct (V k Hk) as [V1 V2]. cbn [In].
  destruct (in_dec Nat.eq_dec k (map (spos n) l)) as [I|I].
  - split; [auto|]. intros NI. exfalso. apply NI. now right.
  - rewrite V2 by exact I. rewrite nth_upd_tot by lia. destruct (Nat.eqb_spec (spos n s) k) as [<-|NE].
    + split; [reflexivity|]. intros NI. exfalso. apply NI. now left.
    + split; [intros [Q|Q]; [congruence|contradiction]|reflexivity].
Qed.

Lemma enc_inj n a b a' b' : (b <= n -> b' <= n -> a * (n + 1) + b = a' * (n + 1) + b' -> a = a' /\ b = b')%nat.
Proof.
  intros B B' E. destruct (lt_eq_lt_dec a a') as [[L|Q]|L].
  - pose proof (Nat.mul_le_mono_r (a + 1) a' (n + 1) ltac:(lia)). lia.
  - subst. lia.
  - pose proof (Nat.mul_le_mono_r (a' + 1) a (n + 1) ltac:(lia)). lia.
Qed.
Theorem active_neig_ok n ngs val : (forall g, In g ngs -> legal n g) ->
  exists neig, get_active_neig n ngs val = Ok neig /\ length neig = ((n + 1) * (n + 1))%nat /\
  forall s, legal n s -> exists k, get_sector_index (Z.of_nat n) (fst s) (snd s) = Ok (Z.of_nat k) /\
    (active n ngs s -> nth k neig 0 = val) /\ (~ active n ngs s -> nth k neig 0 = 0).
Proof.
  intros HL. unfold get_active_neig.
  assert (AL : forall s, In s (find_active_sectors (Z.of_nat n) ngs) -> legal n s).
  { intros s Hs. apply active_iff in Hs. destruct Hs as [Hs|(g & _ & _ & L)]; auto. }
  rewrite mapM_legal by exact AL. cbn [bind].
  destruct (pyset_fold n val _ AL (repeat 0 ((n + 1) * (n + 1)))) as (out & E & LO & V); [apply repeat_length|].
  exists out. split; [exact E|]. split; [exact LO|]. intros s L. destruct (index_legal n s L) as (k & EK & KB & K). exists k. split; [exact EK|].
  destruct (V k KB) as [V1 V2]. split.
  - intros A. apply V1. apply in_map_iff. exists s. split; [symmetry; exact K|]. now apply active_iff.
  - intros NA. rewrite V2; [apply nth_repeat|]. intros I. apply in_map_iff in I. destruct I as (s' & E' & I'). apply NA.
    replace s with s'; [now apply active_iff|]. pose proof (AL s' I') as [A' B']. destruct L as [A B]. unfold spos in E'.
    subst k. assert (D : Z.to_nat (fst s') = Z.to_nat (fst s) /\ Z.to_nat (snd s') = Z.to_nat (snd s)) by (apply (enc_inj n); [lia|lia|exact E']).
    destruct D as [D1 D2]. apply Z2Nat.inj in D1; [|lia|lia]. apply Z2Nat.inj in D2; [|lia|lia]. destruct s, s'. simpl in *. congruence.
Qed.

(** The two encodings of adding or removing one electron are inverse. *)
Theorem getdns_getdud dn spin : (dn = 1 \/ dn = -1) -> (spin = 1 \/ spin = -1) -> getdns (fst (getdud dn spin)) (snd (getdud dn spin)) = Ok (dn, spin).
Proof. intros [-> | ->] [-> | ->]; reflexivity. Qed.
Theorem getdud_getdns a b : (Z.abs a + Z.abs b = 1) -> exists dn spin, getdns a b = Ok (dn, spin) /\ (dn = 1 \/ dn = -1) /\ (spin = 1 \/ spin = -1) /\ getdud dn spin = (a, b).
Proof.
  intros H. assert (D : (a = 1 /\ b = 0) \/ (a = -1 /\ b = 0) \/ (a = 0 /\ b = 1) \/ (a = 0 /\ b = -1)) by lia.
  destruct D as [[-> ->]|[[-> ->]|[[-> ->]|[-> ->]]]]; do 2 eexists; repeat split; auto.
Qed.

(** ** The cotunnelling variant does not filter *)
Lemma mapM_raises {A B} (f : A -> res B) e l x : In x l -> f x = Err e -> (forall y e', f y = Err e' -> e' = e) -> mapM f l = Err e.
Proof.
  induction l as [|y l IH]; intros Hx E U; [destruct Hx|]. cbn [mapM]. destruct (f y) as [b|e'] eqn:Ey.
  - cbn [bind]. destruct Hx as [->|Hx]; [congruence|]. now rewrite IH.
  - cbn [bind]. f_equal. eapply U; eauto.
Qed.
Lemma index_err n a b e : get_sector_index n a b = Err e -> e = ValueError.
Proof. unfold get_sector_index. destruct (_ && _); congruence. Qed.
Lemma index_illegal n s : ~ legal n s -> get_sector_index (Z.of_nat n) (fst s) (snd s) = Err ValueError.
Proof.
  intros H. unfold get_sector_index. match goal with |- (if ?b then _ else _) = _ => destruct b eqn:E end; [|reflexivity].
  exfalso. apply H. rewrite !andb_true_iff, !Z.leb_le in E. unfold legal. lia.
Qed.
Theorem co_neig_raises n ngs val s : In s (co_active_sectors ngs) -> ~ legal n s -> co_active_neig n ngs val = Err ValueError.
Proof.
  intros I L. unfold co_active_neig. rewrite (mapM_raises _ ValueError _ s I); [reflexivity| |].
  - now apply index_illegal.
  - intros y e'. apply index_err.
Qed.
Lemma co_reach ngs g d : In g ngs -> In d (dS3 ++ dN4) -> In (zadd2 g d) (co_active_sectors ngs).
Proof.
  intros G D. unfold co_active_sectors. apply in_app_iff in D. apply in_app_iff. destruct D as [D|D].
  - left. apply in_flat_map. exists g. split; [exact G|]. now apply in_map.
  - right. assert (R : In g (flat_map (fun g => map (zadd2 g) dS3) ngs)).
    { apply in_flat_map. exists g. split; [exact G|]. left. unfold zadd2. destruct g. simpl. f_equal; lia. }
    apply in_flat_map. exists g. split; [exact R|]. apply in_flat_map. exists (0, 0). split; [now left|].
    replace (existsb _ _) with true; [now apply in_map|]. symmetry. apply existsb_exists. exists g. split; [exact R|].
    unfold z2_eqb, zadd2. simpl. rewrite !Z.add_0_r, !Z.eqb_refl. reflexivity.
Qed.
Theorem co_neig_edge n ngs val g : In g ngs -> legal n g -> (fst g = 0 \/ fst g = Z.of_nat n \/ snd g = 0 \/ snd g = Z.of_nat n) ->
  co_active_neig n ngs val = Err ValueError.
Proof.
  intros G L E. destruct g as [a b]. simpl in E. unfold legal in L. simpl in L.
  assert (X : exists d, In d dN4 /\ ~ legal n (zadd2 (a, b) d)).
  { destruct E as [-> | [-> | [-> | ->]]]; [exists (-1, 0)|exists (1, 0)|exists (0, -1)|exists (0, 1)]; (split; [unfold dN4; simpl; tauto|unfold legal, zadd2; simpl; lia]). }
  destruct X as (d & D & X). apply (co_neig_raises n ngs val (zadd2 (a, b) d)); [|exact X]. apply co_reach; [exact G|]. apply in_app_iff. now right.
Qed.

(** ** The set it asks for *)
Lemma spin_flip_iff g r : In r (map (zadd2 g) dS3) <-> spin_flip g r.
Proof.
  destruct g as [a b]. unfold spin_flip, zadd2, dS3. simpl. split.
  - intros [<-|[<-|[<-|[]]]]; [exists 0|exists (-1)|exists 1]; (split; [tauto|f_equal; lia]).
  - intros (k & [->|[->| ->]] & ->); [right; left|left|right; right; left]; f_equal; lia.
Qed.
Lemma one_electron_iff r s : In s (map (zadd2 r) dN4) <-> one_electron r s.
Proof.
  destruct r as [a b], s as [c d]. unfold one_electron, zadd2, dN4. simpl. split.
  - intros [H|[H|[H|[H|[]]]]]; injection H as <- <-; lia.
  - intros H. assert (D : (c = a /\ d = b + 1) \/ (c = a /\ d = b - 1) \/ (c = a + 1 /\ d = b) \/ (c = a - 1 /\ d = b)) by lia.
    destruct D as [[-> ->]|[[-> ->]|[[-> ->]|[-> ->]]]]; [left|right; left|right; right; left|right; right; right; left]; f_equal; lia.
Qed.
Theorem co_active_iff ngs s : In s (co_active_sectors ngs) <-> co_active ngs s.
Proof.
  unfold co_active_sectors, co_active. set (reached := flat_map (fun g => map (zadd2 g) dS3) ngs).
  assert (R : forall r, In r reached <-> exists g, In g ngs /\ spin_flip g r).
  { intros r. unfold reached. rewrite in_flat_map. split; intros (g & G & H); exists g; (split; [exact G|]); now apply spin_flip_iff. }
  rewrite in_app_iff, in_flat_map. split.
  - intros [H|(r & Hr & H)].
    + apply R in H. destruct H as (g & G & H). exists g, s. auto.
    + apply R in Hr. destruct Hr as (g & G & Hr). exists g, r. split; [exact G|]. split; [exact Hr|]. right.
      apply in_flat_map in H. destruct H as (d & _ & H). match goal with H : In s (if ?b then _ else _) |- _ => destruct b; [|destruct H] end. now apply one_electron_iff.
  - intros (g & r & G & F & [->|H]); [left; apply R; eauto|right]. assert (RR : In r reached) by (apply R; eauto).
    exists r. split; [exact RR|]. apply in_flat_map. exists (0, 0). split; [now left|].
    replace (existsb _ _) with true; [now apply one_electron_iff|]. symmetry. apply existsb_exists. exists r. split; [exact RR|].
    unfold z2_eqb, zadd2. simpl. rewrite !Z.add_0_r, !Z.eqb_refl. reflexivity.
Qed.
Theorem co_neig_ok n ngs val : (forall s, co_active ngs s -> legal n s) ->
  exists neig, co_active_neig n ngs val = Ok neig /\ length neig = ((n + 1) * (n + 1))%nat /\
  forall s, legal n s -> exists k, get_sector_index (Z.of_nat n) (fst s) (snd s) = Ok (Z.of_nat k) /\
    (co_active ngs s -> nth k neig 0 = val) /\ (~ co_active ngs s -> nth k neig 0 = 0).
Proof.
  intros HL. unfold co_active_neig.
  assert (AL : forall s, In s (co_active_sectors ngs) -> legal n s) by (intros s Hs; apply HL; now apply co_active_iff).
  rewrite mapM_legal by exact AL. cbn [bind].
  destruct (pyset_fold n val _ AL (repeat 0 ((n + 1) * (n + 1)))) as (out & E & LO & V); [apply repeat_length|].
  exists out. split; [exact E|]. split; [exact LO|]. intros s L. destruct (index_legal n s L) as (k & EK & KB & K). exists k. split; [exact EK|].
  destruct (V k KB) as [V1 V2]. split.
  - intros A. apply V1. apply in_map_iff. exists s. split; [symmetry; exact K|]. now apply co_active_iff.
  - intros NA. rewrite V2; [apply nth_repeat|]. intros I. apply in_map_iff in I. destruct I as (s' & E' & I'). apply NA.
    replace s with s'; [now apply co_active_iff|]. pose proof (AL s' I') as [A' B']. destruct L as [A B]. unfold spos in E'.
    subst k. assert (D : Z.to_nat (fst s') = Z.to_nat (fst s) /\ Z.to_nat (snd s') = Z.to_nat (snd s)) by (apply (enc_inj n); [lia|lia|exact E']).
    destruct D as [D1 D2]. apply Z2Nat.inj in D1; [|lia|lia]. apply Z2Nat.inj in D2; [|lia|lia]. destruct s, s'. simpl in *. congruence.
Qed.
Theorem co_neig_illegal n ngs val s : co_active ngs s -> ~ legal n s -> co_active_neig n ngs val = Err ValueError.
Proof. intros A. apply co_neig_raises. now apply co_active_iff. Qed.
