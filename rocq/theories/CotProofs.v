From Coq Require Import Reals List Arith NArith ZArith Bool Lia Lra Sorted.
From Verif Require Import Base RBase RLin OperatorsSpec FockSpec SectorModel MatvecModel MatvecProofs EspaceModel ProjModel ProjSpec ProjFinalProofs
  GfModel GfSpec GfProofs RateModel RateSpec RateProofs RateActiveProofs TransModel TransSpec TransProofs TransBuildProofs CotModel CotSpec.
Import ListNotations.
Local Open Scope R_scope.

(** * Amplitudes *)
Lemma pow_parity q : (-1) ^ q = @z2k RRing (parity_sign q).
Proof.
  unfold parity_sign. induction q as [|q IH]; [reflexivity|]. rewrite Nat.even_succ, <- Nat.negb_even. cbn [pow]. rewrite IH. destruct (Nat.even q); simpl; ring.
Qed.
Lemma nth_scaled s v j i : nth i (nth j (scaled s v) []) 0 = s * nth i (nth j v []) 0.
Proof.
  unfold scaled. change (@nil R) with (map (Rmult s) []) at 1. rewrite map_nth. replace (nth i (map (Rmult s) (nth j v [])) 0) with (nth i (map (Rmult s) (nth j v [])) (s * 0)) by (now rewrite Rmult_0_r).
  now rewrite (map_nth (Rmult s)).
Qed.

Section Paths.
Variables (n : nat) (es : espace RRing).
Hypothesis ND : NoDup (map fst es).

Lemma vals_any s op p q p' q' I J : moved op s p q p' q' -> is_sector RRing n p q I -> is_sector RRing n p' q' J ->
  exists vs, signed_project (Z.of_nat s) (sgn_of (Z.of_nat s) q) n op I J = Ok vs /\
  forall j i, (j < nvals J)%nat -> (i < nvals I)%nat -> map (fun m : list (list R) => nth i (nth j m []) 0) vs = map (fun pos => amp n op s J I j i pos) (seq 0 n).
Proof.
  intros M HI HJ. unfold signed_project.
  destruct (mapM_exists (fun k => do v <- project_exact (Z.of_nat s) k n op I J; Ok (scaled (sgn_of (Z.of_nat s) q) v))
     (fun pos v => forall j i, (j < nvals J)%nat -> (i < nvals I)%nat -> nth i (nth j v []) 0 = amp n op s J I j i pos) (seq 0 n)) as (vs & E & F).
  { intros pos Hp. apply in_seq in Hp. destruct s as [|[|s]]; cbn in M; [| |destruct M].
    - destruct M as [Hn <-]. destruct (project_exact_up_spec RRing n p p' q pos op I J HI HJ Hn ltac:(lia)) as (v & E & _ & _ & H). change (project_exact (Z.of_nat 0)) with (project_exact_up RRing).
      rewrite E. cbn [bind]. eexists. split; [reflexivity|]. intros j i Hj Hi. rewrite nth_scaled. change (nth i (nth j v []) 0) with (nth i (nth j v []) (c0 RRing)). rewrite (H j i Hj Hi).
      unfold sgn_of. cbn [Z.of_nat Z.eqb]. rewrite pow_parity. unfold amp. rewrite Nat.add_0_r. cbn [cmul RRing]. rewrite <- Rmult_assoc, sgn_sq, Rmult_1_l. reflexivity.
    - destruct M as [<- Hn]. destruct (project_exact_dw_spec RRing n p q q' pos op I J HI HJ Hn ltac:(lia)) as (v & E & _ & _ & H). change (project_exact (Z.of_nat 1)) with (project_exact_dw RRing).
      rewrite E. cbn [bind]. eexists. split; [reflexivity|]. intros j i Hj Hi. rewrite nth_scaled. change (nth i (nth j v []) 0) with (nth i (nth j v []) (c0 RRing)). rewrite (H j i Hj Hi).
      unfold sgn_of. cbn [Z.of_nat Z.eqb]. unfold amp. rewrite Nat.mul_1_l. apply Rmult_1_l. }
  exists vs. split; [exact E|]. intros j i Hj Hi. apply (Forall2_map _ _ _ _ _ F). intros a b _ P. now apply P.
Qed.

(** What follows once the sectors are known. *)
Definition tail (op : fop) (s1 s2 : Z) (p q pj qj p' q' : nat) : res (list gf2) :=
  do sctI <- es_get es [p; q];
  do sctJ <- es_get es [pj; qj];
  do sctF <- es_get es [p'; q'];
  do v_JI <- signed_project s1 (sgn_of s1 q) n op sctI sctJ;
  do v_FJ <- signed_project s2 (sgn_of s2 qj) n (opp_op op) sctJ sctF;
  let EI := s_vals RRing sctI in let EJ := s_vals RRing sctJ in let EF := s_vals RRing sctF in
  Ok (map (fun fi : nat * nat => let '(f, i) := fi in
    mkgf2 [p'; q'; f] [p; q; i] (row_of v_FJ f (length EJ)) (col_of v_JI i (length EJ))
      (map (fun e => match op with OpCdg => e - nth i EI 0 | OpC => - e + nth i EI 0 end) EJ) (nth f EF 0 - nth i EI 0) (pj, qj)) (ndindex (length EF) (length EI))).
Lemma add_tail si sj p q : project_add si sj n p q es =
  (do J <- get_cdg_sector (Z.of_nat n) (Z.of_nat p) (Z.of_nat q) sj; do F <- get_c_sector (fst J) (snd J) si;
   tail OpCdg sj si p q (Z.to_nat (fst J)) (Z.to_nat (snd J)) (Z.to_nat (fst F)) (Z.to_nat (snd F))).
Proof. reflexivity. Qed.
Lemma sub_tail si sj p q : project_sub si sj n p q es =
  (do J <- get_c_sector (Z.of_nat p) (Z.of_nat q) sj; do F <- get_cdg_sector (Z.of_nat n) (fst J) (snd J) si;
   tail OpC sj si p q (Z.to_nat (fst J)) (Z.to_nat (snd J)) (Z.to_nat (fst F)) (Z.to_nat (snd F))).
Proof. reflexivity. Qed.

Lemma map_seq_nth {A} (f : R -> A) (l : list R) : map f l = map (fun j => f (nth j l 0)) (seq 0 (length l)).
Proof.
  induction l as [|x l IH]; [reflexivity|]. cbn [length seq map nth]. f_equal. rewrite <- seq_shift, map_map. exact IH.
Qed.
Lemma tail_ok op s1 s2 p q pj qj p' q' I J F : moved op s1 p q pj qj -> moved (opp_op op) s2 pj qj p' q' ->
  In ([p; q], I) es -> In ([pj; qj], J) es -> In ([p'; q'], F) es -> is_sector RRing n p q I -> is_sector RRing n pj qj J -> is_sector RRing n p' q' F ->
  exists G, tail op (Z.of_nat s1) (Z.of_nat s2) p q pj qj p' q' = Ok (map G (ndindex (nvals F) (nvals I))) /\
  forall f i, (f < nvals F)%nat -> (i < nvals I)%nat -> c_F (G (f, i)) = [p'; q'; f] /\ c_I (G (f, i)) = [p; q; i] /\ exact_path n es op s1 s2 (G (f, i)).
Proof.
  intros M1 M2 HI HJ HF SI SJ SF. unfold tail. rewrite (es_get_In _ _ _ ND HI), (es_get_In _ _ _ ND HJ), (es_get_In _ _ _ ND HF). cbn [bind].
  destruct (vals_any s1 op p q pj qj I J M1 SI SJ) as (v1 & -> & V1). destruct (vals_any s2 (opp_op op) pj qj p' q' J F M2 SJ SF) as (v2 & -> & V2). cbn [bind].
  eexists. split; [reflexivity|]. intros f i Hf Hi. cbn [c_F c_I]. split; [reflexivity|]. split; [reflexivity|].
  exists p, q, i, pj, qj, p', q', f, I, J, F. cbn [c_F c_I c_vF c_vI c_E c_dE c_nsJ]. repeat split; auto.
  - unfold col_of. apply map_ext_in. intros j Hj. apply in_seq in Hj. apply V1; auto. exact (proj2 Hj).
  - unfold row_of. apply map_ext_in. intros j Hj. apply in_seq in Hj. apply V2; auto. exact (proj2 Hj).
  - rewrite map_seq_nth. apply map_ext. intros j. unfold energy, side. change R with (car RRing). set (x := nth j (s_vals RRing J) _). set (y := nth i _ _). destruct op; change (car RRing) with R in *; cbn; ring.
Qed.
End Paths.

(** * One channel *)
Lemma zip_both {A X} (f g : X -> A) l : zip_longest (map Some (map f l)) (map Some (map g l)) = map (fun x => (Some (f x), Some (g x))) l.
Proof. induction l as [|x l IH]; [reflexivity|]. cbn [map zip_longest]. now rewrite IH. Qed.
Lemma zip_left0 {A X} (f : X -> A) l : zip_longest (map Some (map f l)) [] = map (fun x => (Some (f x), None)) l.
Proof. induction l as [|x l IH]; [reflexivity|]. cbn [map zip_longest]. now rewrite IH. Qed.
Lemma zip_left {A X} (f : X -> A) l : l <> [] -> zip_longest (map Some (map f l)) [None] = map (fun x => (Some (f x), None)) l.
Proof. destruct l as [|x l]; [congruence|]. intros _. cbn [map zip_longest]. now rewrite zip_left0. Qed.
Lemma zip_right {A X} (f : X -> A) l : l <> [] -> zip_longest [None] (map Some (map f l)) = map (fun x => (None, Some (f x))) l.
Proof.
  destruct l as [|x l]; [congruence|]. intros _. cbn [map zip_longest]. f_equal.
  destruct l as [|y l]; [reflexivity|]. cbn [map zip_longest]. f_equal. induction l as [|z l IH]; [reflexivity|]. cbn [map]. now rewrite IH.
Qed.
Lemma mapM_all {A B} (f : A -> res B) (g : A -> B) l : (forall a, In a l -> f a = Ok (g a)) -> mapM f l = Ok (map g l).
Proof. induction l as [|a l IH]; intros H; cbn [mapM map]; [reflexivity|]. rewrite (H a (or_introl eq_refl)), IH by (intros; apply H; now right). reflexivity. Qed.
Lemma mapM_map {A B X} (f : A -> res B) (h : X -> A) l : mapM f (map h l) = mapM (fun x => f (h x)) l.
Proof. induction l as [|a l IH]; cbn [mapM map]; [reflexivity|]. now rewrite IH. Qed.

(** Change of the electron numbers. *)
Definition delta (c : nat * nat) : Z * Z :=
  match c with (0, 1)%nat => (-1, 1)%Z | (1, 0)%nat => (1, -1)%Z | _ => (0, 0)%Z end.
Definition zsp (c : nat * nat) : Z * Z := (Z.of_nat (fst c), Z.of_nat (snd c)).
Definition spins : list (nat * nat) := [(0, 0); (0, 1); (1, 0); (1, 1)]%nat.

Section Moves.
Variable n : nat.
Definition one_of (s : nat) : Prop := s = 0%nat \/ s = 1%nat.
Lemma cdg_sector p q s : one_of s -> (count s p q < n)%nat -> exists p' q', moved OpCdg s p q p' q' /\
  get_cdg_sector (Z.of_nat n) (Z.of_nat p) (Z.of_nat q) (Z.of_nat s) = Ok (zz p' q') /\ apart p q p' q' /\ ((p <= n)%nat -> (p' <= n)%nat) /\ ((q <= n)%nat -> (q' <= n)%nat).
Proof.
  intros [-> | ->] L; cbn [count] in L; unfold get_cdg_sector; cbn [Z.of_nat Z.eqb].
  - exists (S p), q. split; [split; reflexivity|]. destruct (Z.ltb_spec (Z.of_nat n) (Z.of_nat p + 1)); [lia|]. split; [apply f_equal; unfold zz; f_equal; lia|]. split; [exists OpCdg; left; split; reflexivity|lia].
  - exists p, (S q). split; [split; reflexivity|]. destruct (Z.ltb_spec (Z.of_nat n) (Z.of_nat q + 1)); [lia|]. split; [apply f_equal; unfold zz; f_equal; lia|]. split; [exists OpCdg; right; split; reflexivity|lia].
Qed.
Lemma c_sector p q s : one_of s -> (0 < count s p q)%nat -> exists p' q', moved OpC s p q p' q' /\
  get_c_sector (Z.of_nat p) (Z.of_nat q) (Z.of_nat s) = Ok (zz p' q') /\ apart p q p' q' /\ (p' <= p)%nat /\ (q' <= q)%nat.
Proof.
  intros [-> | ->] L; cbn [count] in L; unfold get_c_sector; cbn [Z.of_nat Z.eqb].
  - exists (p - 1)%nat, q. split; [split; [cbn; lia|reflexivity]|]. destruct (Z.ltb_spec (Z.of_nat p - 1) 0); [lia|]. split; [apply f_equal; unfold zz; f_equal; lia|]. split; [exists OpC; left; split; [cbn; lia|reflexivity]|lia].
  - exists p, (q - 1)%nat. split; [split; [reflexivity|cbn; lia]|]. destruct (Z.ltb_spec (Z.of_nat q - 1) 0); [lia|]. split; [apply f_equal; unfold zz; f_equal; lia|]. split; [exists OpC; right; split; [reflexivity|cbn; lia]|lia].
Qed.
Lemma cdg_none p q s : one_of s -> (n <= count s p q)%nat -> get_cdg_sector (Z.of_nat n) (Z.of_nat p) (Z.of_nat q) (Z.of_nat s) = Err OutOfHilbertError.
Proof.
  intros [-> | ->] L; cbn [count] in L; unfold get_cdg_sector; cbn [Z.of_nat Z.eqb].
  - destruct (Z.ltb_spec (Z.of_nat n) (Z.of_nat p + 1)); [reflexivity|lia].
  - destruct (Z.ltb_spec (Z.of_nat n) (Z.of_nat q + 1)); [reflexivity|lia].
Qed.
Lemma c_none p q s : one_of s -> count s p q = 0%nat -> get_c_sector (Z.of_nat p) (Z.of_nat q) (Z.of_nat s) = Err OutOfHilbertError.
Proof.
  intros [-> | ->] L; cbn [count] in L; subst; reflexivity.
Qed.

End Moves.

Section Channel.
Variables (n : nat) (es : espace RRing) (egs : R).
Hypothesis Hn : (0 < n)%nat.
Hypothesis HS : co_solved n es egs.
Let ND : NoDup (map fst es) := proj1 HS.
Let SEC := proj1 (proj2 HS).
Let REACH := proj1 (proj2 (proj2 HS)).
Let NEXT := proj2 (proj2 (proj2 HS)).

Lemma co_sector_of p q s : In ([p; q], s) es -> is_sector RRing n p q s.
Proof. intros H. destruct (SEC _ _ H) as (_ & p' & q' & E & S). injection E as <- <-. exact S. Qed.
Lemma co_stored_unique k s s' : In (k, s) es -> In (k, s') es -> s = s'.
Proof. intros A B. pose proof (es_get_In _ _ _ ND A). pose proof (es_get_In _ _ _ ND B). congruence. Qed.
Lemma ndindex_nonempty a b : (0 < a)%nat -> (0 < b)%nat -> ndindex a b <> [].
Proof. intros A B E. pose proof (proj2 (in_ndindex a b 0 0) (conj A B)) as H. rewrite E in H. destruct H. Qed.

Lemma add_ok si sj p q p' q' I F : one_of si -> one_of sj -> co_reach n es egs p q -> (count sj p q < n)%nat -> zz p' q' = zadd2 (zz p q) (delta (si, sj)) ->
  In ([p; q], I) es -> In ([p'; q'], F) es ->
  exists G, project_add (Z.of_nat si) (Z.of_nat sj) n p q es = Ok (map G (ndindex (nvals F) (nvals I))) /\
  forall f i, (f < nvals F)%nat -> (i < nvals I)%nat -> c_F (G (f, i)) = [p'; q'; f] /\ c_I (G (f, i)) = [p; q; i] /\ exact_path n es OpCdg sj si (G (f, i)).
Proof.
  intros Oi Oj RC L D HI HF. pose proof RC as (Lp & Lq & _). destruct (cdg_sector n p q sj Oj L) as (pj & qj & M & E & AP & Rp & Rq).
  destruct (NEXT p q pj qj RC AP (Rp Lp) (Rq Lq)) as (J & HJ).
  assert (C : exists a b, moved OpC si pj qj a b /\ get_c_sector (Z.of_nat pj) (Z.of_nat qj) (Z.of_nat si) = Ok (zz a b) /\ a = p' /\ b = q').
  { unfold zz, zadd2 in D. cbn [fst snd] in D. injection D as D1 D2.
    assert (POS : (0 < count si pj qj)%nat) by (destruct Oi as [-> | ->], Oj as [-> | ->]; cbn in *; destruct M; lia).
    destruct (c_sector pj qj si Oi POS) as (a & b & M' & E' & _). exists a, b. split; [exact M'|]. split; [exact E'|].
    destruct Oi as [-> | ->], Oj as [-> | ->]; cbn in *; lia. }
  destruct C as (a & b & M' & E' & -> & ->).
  rewrite add_tail, E. unfold bind at 1. change (fst (zz pj qj)) with (Z.of_nat pj). change (snd (zz pj qj)) with (Z.of_nat qj). rewrite E'. unfold bind at 1. unfold zz. cbn [fst snd]. rewrite !Nat2Z.id.
  apply (tail_ok n es ND OpCdg sj si p q pj qj p' q' I J F); auto using co_sector_of.
Qed.
Lemma sub_ok si sj p q p' q' I F : one_of si -> one_of sj -> co_reach n es egs p q -> (0 < count si p q)%nat -> zz p' q' = zadd2 (zz p q) (delta (si, sj)) ->
  In ([p; q], I) es -> In ([p'; q'], F) es ->
  exists G, project_sub (Z.of_nat sj) (Z.of_nat si) n p q es = Ok (map G (ndindex (nvals F) (nvals I))) /\
  forall f i, (f < nvals F)%nat -> (i < nvals I)%nat -> c_F (G (f, i)) = [p'; q'; f] /\ c_I (G (f, i)) = [p; q; i] /\ exact_path n es OpC si sj (G (f, i)).
Proof.
  intros Oi Oj RC L D HI HF. pose proof RC as (Lp & Lq & _). destruct (c_sector p q si Oi L) as (pj & qj & M & E & AP & Rp & Rq).
  destruct (NEXT p q pj qj RC AP ltac:(lia) ltac:(lia)) as (J & HJ). pose proof (co_sector_of _ _ _ HF) as (Fp & Fq & _).
  assert (C : exists a b, moved OpCdg sj pj qj a b /\ get_cdg_sector (Z.of_nat n) (Z.of_nat pj) (Z.of_nat qj) (Z.of_nat sj) = Ok (zz a b) /\ a = p' /\ b = q').
  { unfold zz, zadd2 in D. cbn [fst snd] in D. injection D as D1 D2.
    assert (POS : (count sj pj qj < n)%nat) by (destruct Oi as [-> | ->], Oj as [-> | ->]; cbn in *; destruct M; lia).
    destruct (cdg_sector n pj qj sj Oj POS) as (a & b & M' & E' & _). exists a, b. split; [exact M'|]. split; [exact E'|].
    destruct Oi as [-> | ->], Oj as [-> | ->]; cbn in *; lia. }
  destruct C as (a & b & M' & E' & -> & ->).
  rewrite sub_tail, E. unfold bind at 1. change (fst (zz pj qj)) with (Z.of_nat pj). change (snd (zz pj qj)) with (Z.of_nat qj). rewrite E'. unfold bind at 1. unfold zz. cbn [fst snd]. rewrite !Nat2Z.id.
  apply (tail_ok n es ND OpC si sj p q pj qj p' q' I J F); auto using co_sector_of.
Qed.
Lemma add_none si sj p q : one_of sj -> (n <= count sj p q)%nat -> project_add (Z.of_nat si) (Z.of_nat sj) n p q es = Err OutOfHilbertError.
Proof. intros Oj L. rewrite add_tail, cdg_none by auto. reflexivity. Qed.
Lemma sub_none si sj p q : one_of si -> count si p q = 0%nat -> project_sub (Z.of_nat sj) (Z.of_nat si) n p q es = Err OutOfHilbertError.
Proof. intros Oi L. rewrite sub_tail, c_none by auto. reflexivity. Qed.

Lemma channel_ok c p q p' q' I F : In c spins -> co_reach n es egs p q -> zz p' q' = zadd2 (zz p q) (delta c) -> In ([p; q], I) es -> In ([p'; q'], F) es ->
  exists G, channel n p q es (zsp c) = Ok (map G (ndindex (nvals F) (nvals I))) /\
  forall f i, (f < nvals F)%nat -> (i < nvals I)%nat -> skey (G (f, i)) = ([p'; q'; f], [p; q; i]) /\ exact_sigma n es [p'; q'; f] [p; q; i] c (G (f, i)).
Proof.
  intros Hc RC D HI HF. destruct c as [si sj]. assert (O : one_of si /\ one_of sj) by (unfold one_of; cbn in Hc; destruct Hc as [E|[E|[E|[E|[]]]]]; injection E as <- <-; auto). destruct O as [Oi Oj].
  assert (Pf : (0 < nvals F)%nat) by (now apply (SEC _ _ HF)). assert (Pi : (0 < nvals I)%nat) by (now apply (SEC _ _ HI)).
  pose proof (ndindex_nonempty _ _ Pf Pi) as NE. unfold channel, zsp. cbn [fst snd].
  destruct (Nat.lt_ge_cases (count sj p q) n) as [L1|L1], (Nat.eq_dec (count si p q) 0) as [L2|L2].
  - destruct (add_ok si sj p q p' q' I F Oi Oj RC L1 D HI HF) as (G & EA & HG). rewrite EA, (sub_none si sj p q Oi L2). cbn [or_none bind]. rewrite zip_left, mapM_map by auto.
    exists (fun x => SE (G x)). split; [apply mapM_all; reflexivity|]. intros f i Hf Hi. destruct (HG f i Hf Hi) as (A & B & C). unfold skey. cbn [base]. rewrite A, B. split; [reflexivity|].
    exists p, q, i. repeat split; auto.
  - destruct (add_ok si sj p q p' q' I F Oi Oj RC L1 D HI HF) as (G & EA & HG). destruct (sub_ok si sj p q p' q' I F Oi Oj RC ltac:(lia) D HI HF) as (H & EH & HH).
    rewrite EA, EH. cbn [or_none bind]. rewrite zip_both, mapM_map. exists (fun x => SEH (G x) (H x)). split.
    + apply mapM_all. intros [f i] Hx. apply in_ndindex in Hx. destruct (HG f i ltac:(tauto) ltac:(tauto)) as (A & B & _). destruct (HH f i ltac:(tauto) ltac:(tauto)) as (A' & B' & _).
      cbn [fst snd mk_sigma]. rewrite A, B, A', B'. destruct (label_eqb_spec [p'; q'; f] [p'; q'; f]); [|congruence]. destruct (label_eqb_spec [p; q; i] [p; q; i]); [reflexivity|congruence].
    + intros f i Hf Hi. destruct (HG f i Hf Hi) as (A & B & C). destruct (HH f i Hf Hi) as (A' & B' & C'). unfold skey. cbn [base]. rewrite A, B. split; [reflexivity|]. exists p, q, i. repeat split; auto.
  - exfalso. pose proof (co_sector_of _ _ _ HF) as (Fp & Fq & _). unfold zz, zadd2 in D. cbn [fst snd] in D. injection D as D1 D2.
    destruct Oi as [-> | ->], Oj as [-> | ->]; cbn in *; lia.
  - destruct (sub_ok si sj p q p' q' I F Oi Oj RC ltac:(lia) D HI HF) as (H & EH & HH). rewrite EH, (add_none si sj p q Oj L1). cbn [or_none bind]. rewrite zip_right, mapM_map by auto.
    exists (fun x => SH (H x)). split; [apply mapM_all; reflexivity|]. intros f i Hf Hi. destruct (HH f i Hf Hi) as (A & B & C). unfold skey. cbn [base]. rewrite A, B. split; [reflexivity|].
    exists p, q, i. repeat split; auto; [|lia]. pose proof RC as (Lp & Lq & _). destruct Oj as [-> | ->]; cbn in *; lia.
Qed.
End Channel.
