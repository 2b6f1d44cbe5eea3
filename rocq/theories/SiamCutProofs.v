(** A screened dictionary consists of sectors with eigenstates and keeps the ground state. *)
From Coq Require Import String Reals List Arith NArith ZArith Bool Lia Lra Psatz.
From Verif Require Import Base RBase RLin CBase OperatorsModel SectorModel SectorSpec FockSpec LocalModel MatvecModel MbModel EspaceModel EspaceSpec EspaceRealModel EspaceProofs EspaceMoreProofs EspaceRealProofs
  ProjModel ProjSpec CfSpec GfSpec GflModel GflSpec VisSpec VisMainProofs SiamSpec SiamFormProofs.
Import ListNotations.
Local Open Scope R_scope.

Lemma filter_nth {A} (f : A -> bool) (d : A) l : exists g, (forall i, (i < length (filter f l))%nat -> (g i < length l)%nat /\ nth i (filter f l) d = nth (g i) l d) /\
  (forall i j, (i < j)%nat -> (g i < g j)%nat).
Proof.
  induction l as [|a l (g & G1 & G2)].
  - exists (fun i => i). cbn. split; [intros; lia|auto].
  - cbn [filter]. destruct (f a).
    + exists (fun i => match i with 0 => 0 | S i => S (g i) end)%nat. cbn [length]. split.
      * intros [|i] Hi; cbn [nth]; [split; [lia|reflexivity]|]. destruct (G1 i ltac:(lia)). split; [lia|auto].
      * intros [|i] [|j] Hij; try lia. specialize (G2 i j ltac:(lia)). lia.
    + exists (fun i => S (g i)). cbn [length nth]. split.
      * intros i Hi. destruct (G1 i Hi). split; [lia|auto].
      * intros i j Hij. specialize (G2 i j Hij). lia.
Qed.
Lemma nth_combine {A B} (l : list A) (l' : list B) i da db : length l = length l' -> nth i (List.combine l l') (da, db) = (nth i l da, nth i l' db).
Proof. intros E. now apply combine_nth. Qed.

Section Cut.
Variables (n : nat) (relevant : R -> bool).
Lemma sector_paired p q s : is_sector RRing n p q s -> paired RRing s.
Proof. intros (_ & _ & _ & _ & _ & _ & cs & E & L & _). exists cs. auto. Qed.
Lemma sectors_paired es : sectors n es -> Forall (fun e => paired RRing (snd e)) es.
Proof. intros (_ & HI). apply Forall_forall. intros [k s] I. destruct (HI k s I) as (p & q & _ & IS). cbn. exact (sector_paired p q s IS). Qed.

Lemma screened M es : sectors n es -> eigenstates n M es -> exists es', screen_espace RRing relevant es = (Ok tt, es') /\ sectors n es' /\ eigenstates n M es' /\
  (forall key s', In (key, s') es' -> exists s, In (key, s) es /\ s_vals RRing s' = filter relevant (s_vals RRing s)).
Proof.
  intros HS HE. destruct (screen_spec RRing relevant es (sectors_paired es HS) (proj1 HS)) as (es' & E & HP & ND & _ & SP & _).
  exists es'. split; [exact E|].
  assert (KEY : forall key s', In (key, s') es' -> exists p q s cs cs' g, key = [p; q] /\ In (key, s) es /\ is_sector RRing n p q s /\ s_states RRing s' = s_states RRing s /\
    s_vecs RRing s = Cols RRing cs /\ s_vecs RRing s' = Cols RRing cs' /\ length cs' = length (s_vals RRing s') /\ length cs = length (s_vals RRing s) /\
    (forall i j, (i < j)%nat -> (g i < g j)%nat) /\
    (forall i, (i < length (s_vals RRing s'))%nat -> (g i < length (s_vals RRing s))%nat /\ nth i (s_vals RRing s') 0 = nth (g i) (s_vals RRing s) 0 /\ nth i cs' [] = nth (g i) cs [])).
  { intros key s' I. destruct (SP key s' I) as (s & Is & ST & SV & PR). destruct (proj2 HS key s Is) as (p & q & EK & IS).
    rewrite Forall_forall in HP. destruct (HP _ I) as (cs' & V' & L'). cbn [snd] in V', L'. destruct (sector_paired p q s IS) as (cs & V & L).
    unfold pairs in PR. rewrite V', V in PR. destruct (filter_nth (fun p => relevant (fst p)) (0, []) (List.combine (s_vals RRing s) cs)) as (g & G1 & G2).
    change (Base.car RRing) with R in *. rewrite <- PR in G1. rewrite !combine_length, L, L', !Nat.min_id in G1.
    exists p, q, s, cs, cs', g. split; [auto|]. split; [auto|]. split; [auto|]. split; [auto|]. split; [auto|]. split; [auto|]. split; [auto|]. split; [auto|]. split; [auto|].
    intros i Hi. destruct (G1 i Hi) as [B Q]. rewrite !nth_combine in Q by auto. injection Q as Q1 Q2. auto. }
  split; [|split].
  - split; [exact ND|]. intros key s' I. destruct (KEY key s' I) as (p & q & s & cs & cs' & g & EK & Is & IS & ST & V & V' & L' & L & G2 & G1). exists p, q. split; [exact EK|].
    destruct IS as (Hp & Hq & Hn & SZ & GU & GD & cs0 & V0 & _ & LN). rewrite V in V0. injection V0 as <-.
    assert (UE : ups RRing s' = ups RRing s) by (unfold ups; now rewrite ST). assert (DE : dws RRing s' = dws RRing s) by (unfold dws; now rewrite ST).
    unfold is_sector. rewrite UE, DE, ST. do 6 (split; [assumption|]). exists cs'. split; [exact V'|]. split; [exact L'|].
    intros x Hx. apply (In_nth _ _ []) in Hx. destruct Hx as (i & Hi & <-). rewrite L' in Hi. destruct (G1 i Hi) as (B & _ & ->). apply LN, nth_In. now rewrite L.
  - intros p q s' I. destruct (KEY [p; q] s' I) as (p0 & q0 & s & cs & cs' & g & EK & Is & IS & ST & V & V' & L' & L & G2 & G1). injection EK as <- <-.
    destruct (HE p q s Is) as [ON EV].
    assert (VE : forall i, (i < nvals s')%nat -> (g i < nvals s)%nat /\ vec RRing s' i = vec RRing s (g i) /\ energy s' i = energy s (g i)).
    { intros i Hi. destruct (G1 i Hi) as (B & Q1 & Q2). unfold nvals, vec, energy. rewrite V, V'. auto. }
    split.
    + intros i j Hi Hj. destruct (VE i Hi) as (B1 & E1 & _). destruct (VE j Hj) as (B2 & E2 & _).
      rewrite (rsum_ext _ _ (fun a => nth a (vec RRing s (g i)) 0 * nth a (vec RRing s (g j)) 0)) by (intros a _; now rewrite E1, E2).
      rewrite (ON (g i) (g j) B1 B2). destruct (Nat.eqb_spec i j) as [->|NE]; [now rewrite Nat.eqb_refl|].
      destruct (Nat.eqb_spec (g i) (g j)) as [EQ|]; [|reflexivity]. destruct (Nat.lt_total i j) as [H|[H|H]]; [apply G2 in H; lia|lia|apply G2 in H; lia].
    + intros i a Hi Ha. destruct (VE i Hi) as (B1 & -> & ->). now apply EV.
  - intros key s' I. destruct (SP key s' I) as (s & Is & _ & SV & _). exists s. auto.
Qed.
End Cut.

Lemma weight_sum_pos beta egs es : (exists key s, In (key, s) es /\ s_vals RRing s <> []) -> 0 < Zof beta egs es.
Proof.
  assert (NN : forall s : sct RRing, 0 <= rsum (nvals s) (fun i => weight beta egs (energy s i))) by (intros s; apply rsum_nonneg; intros i _; left; apply weight_pos).
  intros (key & s & I & NE). induction es as [|e es IH]; [destruct I|].
  change (0 < rsum (nvals (snd e)) (fun i => weight beta egs (energy (snd e) i)) + Zof beta egs es).
  assert (NZ : 0 <= Zof beta egs es) by (apply rsuml_nonneg; intros e' _; apply NN).
  destruct I as [->|I]; [|specialize (IH I); specialize (NN (snd e)); lra]. cbn [snd].
  enough (0 < rsum (nvals s) (fun i => weight beta egs (energy s i))) by lra.
  unfold nvals. destruct (s_vals RRing s) as [|x l]; [congruence|]. cbn [length]. rewrite rsum_S.
  assert (0 <= rsum (length l) (fun i => weight beta egs (energy s i))) by (apply rsum_nonneg; intros i _; left; apply weight_pos).
  pose proof (weight_pos beta egs (energy s (length l))). lra.
Qed.
Lemma screened_pos n beta egs cutoff beta' es es' : cutoff < 1 -> sectors n es -> (exists key s, In (key, s) es /\ In egs (s_vals RRing s)) ->
  screen_espace RRing (boltzmann beta egs cutoff) es = (Ok tt, es') -> 0 < Zof beta' egs es'.
Proof.
  intros Hc HS HI E. destruct (gs_survives beta egs cutoff es Hc (sectors_paired n es HS) (proj1 HS) HI) as (es0 & E0 & key & s' & I & IV).
  rewrite E in E0. injection E0 as <-. apply weight_sum_pos. exists key, s'. split; [exact I|]. intros Q. rewrite Q in IV. destruct IV.
Qed.
