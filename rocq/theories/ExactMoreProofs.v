(** Consequences of complete diagonalisation: thermal weights, Green's functions,
    the lookup of the ground state and the trials of dedlib. *)
From Coq Require Import String Reals List Arith NArith ZArith Bool Lia Lra Psatz Ring Sorted.
From Verif Require Import Base RBase RLin CBase OperatorsModel OperatorsSpec LookupModel LookupSpec SectorModel SectorSpec SectorProofs FockSpec FockProofs LocalModel LocalSpec HoppingModel
  CsrSpec NonLocalModel NonLocalSpec MatvecModel MatvecSpec MatvecProofs MbModel MbSpec MbProofs EspaceModel EspaceSpec EspaceProofs EspaceMoreProofs EspaceEigProofs
  ProjModel ProjSpec ProjProofs ProjFinalProofs CfModel GfModel GfSpec GfMoreProofs GmSpec SpectralProofs ExactSpec EighProofs ConserveProofs ExactProofs
  RateStatProofs DedModel DedSpec DedFitProofs DedProofs DedMoreProofs.
Import ListNotations.
Local Open Scope R_scope.

(** ** Ascending spectra are unique *)
Lemma span_upper n A v e k x c : orthonormal n n v -> (forall j i, (j < n)%nat -> (i < n)%nat -> mv n A (v j) i = e j * v j i) -> (k < n)%nat ->
  (forall j, (j <= k)%nat -> e j <= e k) -> (forall i, (i < n)%nat -> x i = rsum (S k) (fun j => c j * v j i)) ->
  dot n x x = rsum (S k) (fun j => c j * c j) /\ qf n A x <= e k * dot n x x.
Proof.
  intros O EV Hk LE X.
  assert (C : forall j, (j < S k)%nat -> dot n (v j) x = c j).
  { intros j Hj. rewrite (dot_ext n (v j) (v j) x (fun i => rsum (S k) (fun l => c l * v l i))) by auto. unfold dot.
    rewrite (rsum_ext n _ (fun i => rsum (S k) (fun l => c l * (v j i * v l i)))) by (intros; rewrite <- rsum_scal_l; apply rsum_ext; intros; ring).
    rewrite rsum_swap, (rsum_single (S k) _ j Hj).
    - rewrite rsum_scal_l, (O j j), Nat.eqb_refl by lia. ring.
    - intros l Hl N. rewrite rsum_scal_l, (O j l) by lia. destruct (Nat.eqb_spec j l); [congruence|ring]. }
  assert (P : forall w, dot n x w = rsum (S k) (fun j => c j * dot n (v j) w)).
  { intros w. unfold dot. rewrite (rsum_ext n _ (fun i => rsum (S k) (fun j => c j * (v j i * w i)))).
    - rewrite rsum_swap. apply rsum_ext. intros j Hj. now rewrite rsum_scal_l.
    - intros i Hi. rewrite (X i Hi) at 1. rewrite <- rsum_scal_r. apply rsum_ext. intros. ring. }
  assert (D : dot n x x = rsum (S k) (fun j => c j * c j)) by (rewrite P; apply rsum_ext; intros j Hj; now rewrite C).
  split; [exact D|]. rewrite D, <- rsum_scal_l. unfold qf. rewrite P.
  assert (M : forall i, (i < n)%nat -> mv n A x i = rsum (S k) (fun j => c j * (e j * v j i))).
  { intros i Hi. unfold mv. rewrite (rsum_ext n _ (fun b => rsum (S k) (fun j => c j * (A i b * v j b)))).
    - rewrite rsum_swap. apply rsum_ext. intros j Hj. rewrite rsum_scal_l. f_equal. apply EV; lia.
    - intros b Hb. rewrite (X b Hb), <- rsum_scal_l. apply rsum_ext. intros. ring. }
  apply rsum_le. intros j Hj.
  assert (Q : dot n (v j) (mv n A x) = c j * e j).
  { rewrite (dot_ext n (v j) (v j) _ (fun i => rsum (S k) (fun l => c l * (e l * v l i)))) by auto. unfold dot.
    rewrite (rsum_ext n _ (fun i => rsum (S k) (fun l => c l * e l * (v j i * v l i)))) by (intros; rewrite <- rsum_scal_l; apply rsum_ext; intros; ring).
    rewrite rsum_swap, (rsum_single (S k) _ j Hj).
    - rewrite rsum_scal_l, (O j j), Nat.eqb_refl by lia. ring.
    - intros l Hl N. rewrite rsum_scal_l, (O j l) by lia. destruct (Nat.eqb_spec j l); [congruence|ring]. }
  rewrite Q. pose proof (LE j ltac:(lia)). pose proof (Rle_0_sqr (c j)) as S. unfold Rsqr in S. nra.
Qed.
(** x orthogonal to the first [k] vectors: at least the k-th value. *)
Lemma span_lower n A w f k x : orthonormal n n w -> (forall j i, (j < n)%nat -> (i < n)%nat -> mv n A (w j) i = f j * w j i) -> (k < n)%nat ->
  (forall j l, (j <= l)%nat -> (l < n)%nat -> f j <= f l) -> (forall j, (j < k)%nat -> dot n (w j) x = 0) -> f k * dot n x x <= qf n A x.
Proof.
  intros O EV Hk LE Z. set (b := f k - f 0%nat).
  assert (Q : f k * dot n x x <= qf n (fun i j => A i j + b * rsum k (fun l => w l i * w l j)) x).
  { apply (spectral_bound n _ w (fun j => if (j <? k)%nat then f j + b else f j) (f k) x O).
    - intros j i Hj Hi. unfold mv. rewrite (rsum_ext n _ (fun l => A i l * w j l + b * rsum k (fun m => w m i * (w m l * w j l)))).
      2:{ intros l Hl. rewrite Rmult_plus_distr_r, Rmult_assoc, <- rsum_scal_r. do 2 f_equal. apply rsum_ext. intros. ring. }
      rewrite rsum_add, rsum_scal_l, rsum_swap. change (rsum n (fun l => A i l * w j l)) with (mv n A (w j) i). rewrite EV by auto.
      destruct (Nat.ltb_spec j k) as [L|L].
      + rewrite (rsum_single k _ j L).
        * rewrite rsum_scal_l, (O j j), Nat.eqb_refl by lia. ring.
        * intros m Hm N. rewrite rsum_scal_l, (O m j) by lia. destruct (Nat.eqb_spec m j); [congruence|ring].
      + rewrite (rsum_0 k); [ring|]. intros m Hm. rewrite rsum_scal_l, (O m j) by lia. destruct (Nat.eqb_spec m j); [lia|ring].
    - intros j Hj. destruct (Nat.ltb_spec j k); [|apply LE; lia]. unfold b. pose proof (LE 0%nat j ltac:(lia) Hj). lra. }
  eapply Rle_trans; [exact Q|]. apply Req_le. unfold qf. apply dot_ext; auto. intros i Hi. unfold mv.
  rewrite (rsum_ext n _ (fun l => A i l * x l + b * rsum k (fun m => w m i * (w m l * x l)))).
  2:{ intros l Hl. rewrite Rmult_plus_distr_r, Rmult_assoc, <- rsum_scal_r. do 2 f_equal. apply rsum_ext. intros. ring. }
  rewrite rsum_add, rsum_scal_l, rsum_swap. rewrite (rsum_0 k); [ring|]. intros m Hm. rewrite rsum_scal_l. fold (dot n (w m) x). rewrite Z by auto. ring.
Qed.
Lemma spectrum_le n A v e w f k : orthonormal n n v -> (forall j i, (j < n)%nat -> (i < n)%nat -> mv n A (v j) i = e j * v j i) -> (forall j l, (j <= l)%nat -> (l < n)%nat -> e j <= e l) ->
  orthonormal n n w -> (forall j i, (j < n)%nat -> (i < n)%nat -> mv n A (w j) i = f j * w j i) -> (forall j l, (j <= l)%nat -> (l < n)%nat -> f j <= f l) -> (k < n)%nat -> f k <= e k.
Proof.
  intros O EV LE O' EV' LE' Hk. destruct (homogeneous (S k) k (fun r j => dot n (w r) (v j)) ltac:(lia)) as (c & (i0 & Hi0 & NZ) & H).
  set (x := fun i => rsum (S k) (fun j => c j * v j i)).
  destruct (span_upper n A v e k x c O EV Hk ltac:(intros; apply LE; auto) ltac:(auto)) as [D Q1].
  assert (Q2 : f k * dot n x x <= qf n A x).
  { apply (span_lower n A w f k x O' EV' Hk LE'). intros j Hj. rewrite <- (H j Hj). unfold dot, x.
    rewrite (rsum_ext n _ (fun i => rsum (S k) (fun l => c l * (w j i * v l i)))) by (intros; rewrite <- rsum_scal_l; apply rsum_ext; intros; ring).
    rewrite rsum_swap. apply rsum_ext. intros l Hl. rewrite rsum_scal_l. ring. }
  assert (P : 0 < dot n x x).
  { rewrite D. pose proof (rsum_term_le (S k) (fun j => c j * c j) i0) as T. cbv beta in T.
    assert (c i0 * c i0 <= rsum (S k) (fun j => c j * c j)) by (apply T; [intros; apply Rle_0_sqr|exact Hi0]).
    assert (0 < c i0 * c i0) by (apply Rsqr_pos_lt; exact NZ). lra. }
  apply (Rmult_le_reg_r (dot n x x)); [exact P|]. lra.
Qed.
Lemma spectrum_unique n A v e w f k : orthonormal n n v -> (forall j i, (j < n)%nat -> (i < n)%nat -> mv n A (v j) i = e j * v j i) -> (forall j l, (j <= l)%nat -> (l < n)%nat -> e j <= e l) ->
  orthonormal n n w -> (forall j i, (j < n)%nat -> (i < n)%nat -> mv n A (w j) i = f j * w j i) -> (forall j l, (j <= l)%nat -> (l < n)%nat -> f j <= f l) -> (k < n)%nat -> e k = f k.
Proof. intros. apply Rle_antisym; [apply (spectrum_le n A w f v e k)|apply (spectrum_le n A v e w f k)]; auto. Qed.

Section More.
Variables (big : R -> bool) (half : R) (n : nat) (h : hmat RRing) (fl : hflags) (V : inter RRing) (hf : bool) (mu : R) (z : option (nat -> R)).
Variable U : nat -> nat -> R.
Hypothesis Hn : (1 < n)%nat. Hypothesis Hn' : (n <= 32)%nat. Hypothesis Hh2 : half + half = 1.
Hypothesis HU : inter_U RRing V = Some U. Hypothesis HJ : inter_Jx RRing V = None -> inter_Jp RRing V = None.
Hypothesis HSx : osymm RRing n (inter_Jx RRing V). Hypothesis HSp : osymm RRing n (inter_Jp RRing V).
Hypothesis HS : forall sp, symm RRing n (hspin RRing h sp). Hypothesis Hset : settable RRing h fl = true.

(** Two solvers that meet the contract store the same eigenvalues. *)
Theorem solver_independent eigh eigsh eigh' eigsh' es egs es' egs' : eigh_contract eigh -> eigh_contract eigh' ->
  build_espace RRing Rleb big half eigh eigsh n h fl V hf mu z None "sz" = Ok (es, egs) ->
  build_espace RRing Rleb big half eigh' eigsh' n h fl V hf mu z None "sz" = Ok (es', egs') ->
  egs = egs' /\ forall key s s', In (key, s) es -> In (key, s') es' -> s_states RRing s = s_states RRing s' /\ s_vals RRing s = s_vals RRing s'.
Proof.
  intros C C' B B'.
  assert (VAL : forall p q s s', (p <= n)%nat -> (q <= n)%nat -> In ([p; q], s) es -> In ([p; q], s') es' -> s_states RRing s = s_states RRing s' /\ s_vals RRing s = s_vals RRing s').
  { intros p q s s' Hp Hq I I'.
    destruct (exact_sector big half n h fl V hf mu z U eigh eigsh Hn Hn' Hh2 HU HJ HSx HSp HS Hset C es egs B p q s I) as (S1 & cols & _ & LV & _ & _ & ON & EV & AS).
    destruct (exact_sector big half n h fl V hf mu z U eigh' eigsh' Hn Hn' Hh2 HU HJ HSx HSp HS Hset C' es' egs' B' p q s' I') as (S2 & cols' & _ & LV' & _ & _ & ON' & EV' & AS').
    split; [now rewrite S1, S2|]. apply (nth_ext _ _ 0 0); [exact (eq_trans LV (eq_sym LV'))|]. intros k Hk.
    assert (Hk' : (k < length (cand n p) * length (cand n q))%nat) by exact (eq_ind _ (fun m => (k < m)%nat) Hk _ LV).
    exact (spectrum_unique _ _ _ (fun k => nth k (s_vals RRing s) 0) _ (fun k => nth k (s_vals RRing s') 0) k ON EV AS ON' EV' AS' Hk'). }
  split.
  - destruct (exact_egs big half n h fl V hf mu z U eigh eigsh Hn Hn' Hh2 HU HJ HSx HSp HS Hset C es egs B) as (e & -> & (p & q & s & I & E) & LB).
    destruct (exact_egs big half n h fl V hf mu z U eigh' eigsh' Hn Hn' Hh2 HU HJ HSx HSp HS Hset C' es' egs' B') as (e' & -> & (p' & q' & s' & I' & E') & LB').
    f_equal.
    assert (K1 : In [p; q] (map fst es)) by (apply in_map_iff; exists ([p; q], s); auto). apply (exact_keys big half n h fl V hf mu z U eigh eigsh Hn Hn' Hh2 HU HJ HSx HSp HS Hset C es _ B) in K1.
    assert (K2 : In [p'; q'] (map fst es')) by (apply in_map_iff; exists ([p'; q'], s'); auto). apply (exact_keys big half n h fl V hf mu z U eigh' eigsh' Hn Hn' Hh2 HU HJ HSx HSp HS Hset C' es' _ B') in K2.
    destruct K1 as (a & b & Hp & Hq & Q). injection Q as <- <-. destruct K2 as (a & b & Hp' & Hq' & Q). injection Q as <- <-.
    destruct (exact_stored big half n h fl V hf mu z U eigh' eigsh' Hn Hn' Hh2 HU HJ HSx HSp HS Hset C' es' _ B' p q Hp Hq) as [t It].
    destruct (exact_stored big half n h fl V hf mu z U eigh eigsh Hn Hn' Hh2 HU HJ HSx HSp HS Hset C es _ B p' q' Hp' Hq') as [t' It'].
    destruct (VAL p q s t Hp Hq I It) as [_ V1]. destruct (VAL p' q' t' s' Hp' Hq' It' I') as [_ V2].
    destruct (exact_sector big half n h fl V hf mu z U eigh eigsh Hn Hn' Hh2 HU HJ HSx HSp HS Hset C es _ B p q s I) as (_ & _ & _ & LV & _).
    destruct (exact_sector big half n h fl V hf mu z U eigh eigsh Hn Hn' Hh2 HU HJ HSx HSp HS Hset C es _ B p' q' t' It') as (_ & _ & _ & LV' & _).
    pose proof (dim_pos n p q Hp Hq) as D1. pose proof (dim_pos n p' q' Hp' Hq') as D2.
    apply Rle_antisym.
    + rewrite <- E', <- V2. apply (LB p' q' t' 0%nat It'). exact (eq_ind_r (fun m => (0 < m)%nat) D2 LV').
    + rewrite <- E, V1. apply (LB' p q t 0%nat It). rewrite <- V1. exact (eq_ind_r (fun m => (0 < m)%nat) D1 LV).
  - intros key s s' I I'. assert (K1 : In key (map fst es)) by (apply in_map_iff; exists (key, s); auto).
    apply (exact_keys big half n h fl V hf mu z U eigh eigsh Hn Hn' Hh2 HU HJ HSx HSp HS Hset C es _ B) in K1. destruct K1 as (p & q & Hp & Hq & ->). now apply (VAL p q).
Qed.

Variable eigh : dense RRing -> res (list R * list (list R)).
Variable eigsh : nat -> Z -> (list R -> res (list R)) -> res (list R * list (list R)).
Hypothesis HC : eigh_contract eigh.
Variables (es : espace RRing) (egs : option R).
Hypothesis HB : build_espace RRing Rleb big half eigh eigsh n h fl V hf mu z None "sz" = Ok (es, egs).

Lemma exact_nodup : NoDup (map fst es).
Proof.
  destruct (build_espace_spec RRing Rleb Rleb_total Rleb_trans big half eigh eigsh n h fl V hf mu z None "sz" es egs HB) as (sym & req & _ & _ & SS & _).
  induction SS as [|k l H IH Q]; constructor; auto. intros Hk. rewrite Forall_forall in Q. exact (qless_irrefl k (Q k Hk)).
Qed.
Theorem exact_family : exists F, lists_family n es F /\ (forall p q, (p <= n)%nat -> (q <= n)%nat -> eigenbasis (F p q)) /\
  (forall p q, (p <= n)%nat -> (q <= n)%nat -> sdim RRing (F p q) = (binom n p * binom n q)%nat) /\
  (forall p q k, (p <= n)%nat -> (q <= n)%nat -> (k < nvals (F p q))%nat -> exists e, egs = Some e /\ e <= energy (F p q) k) /\
  exists p q, (p <= n)%nat /\ (q <= n)%nat /\ (0 < nvals (F p q))%nat /\ egs = Some (energy (F p q) 0).
Proof.
  assert (UNI : forall key s s', In (key, s) es -> In (key, s') es -> s = s').
  { generalize exact_nodup. clear. induction es as [|[k x] l IH]; intros ND key s s' H H'; [destruct H|]. cbn [map fst] in ND. inversion ND as [|? ? NI ND']; subst.
    destruct H as [E|H], H' as [E'|H'].
    - congruence.
    - injection E as -> ->. exfalso. apply NI. apply in_map_iff. exists (key, s'). auto.
    - injection E' as -> ->. exfalso. apply NI. apply in_map_iff. exists (key, s). auto.
    - eauto. }
  set (F := fun p q => match es_find es [p; q] with Some s => s | None => mksct RRing (StN []) [] (Cols RRing []) end).
  assert (FV : forall p q s, In ([p; q], s) es -> F p q = s).
  { intros p q s I. unfold F, es_find. match goal with |- context[find ?f es] => destruct (find f es) as [[k x]|] eqn:E end.
    - apply find_some in E. destruct E as [I' E]. cbn [fst snd] in *. destruct (list_eq_dec _ k [p; q]) as [->|]; [|discriminate]. now apply (UNI [p; q]).
    - exfalso. apply (find_none _ _ E) in I. cbn [fst] in I. destruct (list_eq_dec _ [p; q] [p; q]); [discriminate|congruence]. }
  assert (ST : forall p q, (p <= n)%nat -> (q <= n)%nat -> In ([p; q], F p q) es).
  { intros p q Hp Hq. destruct (exact_stored big half n h fl V hf mu z U eigh eigsh Hn Hn' Hh2 HU HJ HSx HSp HS Hset HC es egs HB p q Hp Hq) as [s I]. now rewrite (FV p q s I). }
  assert (KEY : forall key s, In (key, s) es -> exists p q, (p <= n)%nat /\ (q <= n)%nat /\ key = [p; q]).
  { intros key s I. apply (exact_keys big half n h fl V hf mu z U eigh eigsh Hn Hn' Hh2 HU HJ HSx HSp HS Hset HC es egs HB). apply in_map_iff. exists (key, s). auto. }
  assert (OK : forall p q, (p <= n)%nat -> (q <= n)%nat -> sector_ok big half n h V hf mu z U p q (F p q)).
  { intros p q Hp Hq. apply (exact_sector big half n h fl V hf mu z U eigh eigsh Hn Hn' Hh2 HU HJ HSx HSp HS Hset HC es egs HB), ST; auto. }
  assert (UD : forall p q, (p <= n)%nat -> (q <= n)%nat -> ups RRing (F p q) = cand n p /\ dws RRing (F p q) = cand n q).
  { intros p q Hp Hq. destruct (OK p q Hp Hq) as (S & _). unfold ups, dws. now rewrite S. }
  assert (SDIM : forall p q, (p <= n)%nat -> (q <= n)%nat -> sdim RRing (F p q) = (length (cand n p) * length (cand n q))%nat).
  { intros p q Hp Hq. unfold sdim. destruct (UD p q Hp Hq) as [-> ->]. apply Nat.mul_comm. }
  exists F. split; [split; [exact exact_nodup|split]|split; [|split; [|split]]].
  - intros key s. split.
    + intros I. destruct (KEY key s I) as (p & q & Hp & Hq & ->). exists p, q. rewrite (FV p q s I). auto.
    + intros (p & q & Hp & Hq & -> & ->). auto.
  - intros p q Hp Hq. destruct (UD p q Hp Hq) as [EU ED]. destruct (OK p q Hp Hq) as (S & cols & SV & LV & LC & LN & _). split; [exact Hp|]. split; [exact Hq|]. split; [exact Hn'|]. rewrite EU, ED.
    split; [exact S|]. split; [now apply states_at|]. split; [now apply states_at|]. exists cols. split; [exact SV|]. split; [exact (eq_trans LC (eq_sym LV))|].
    intros x Hx. apply (In_nth _ _ []) in Hx. destruct Hx as (k & Hk & <-). apply LN. exact (eq_ind _ (fun m => (k < m)%nat) Hk _ LC).
  - intros p q Hp Hq. destruct (OK p q Hp Hq) as (_ & cols & SV & LV & LC & LN & ON & _). split; [unfold nvals; rewrite SDIM by auto; exact LV|].
    rewrite SDIM by auto. intros j k Hj Hk. rewrite <- (ON j k Hj Hk). unfold vec. rewrite SV. reflexivity.
  - intros p q Hp Hq. rewrite SDIM by auto. now rewrite !cand_length.
  - intros p q k Hp Hq Hk. destruct (exact_egs big half n h fl V hf mu z U eigh eigsh Hn Hn' Hh2 HU HJ HSx HSp HS Hset HC es egs HB) as (e & E & _ & LB).
    exists e. split; [exact E|]. apply (LB p q _ k (ST p q Hp Hq) Hk).
  - destruct (exact_egs big half n h fl V hf mu z U eigh eigsh Hn Hn' Hh2 HU HJ HSx HSp HS Hset HC es egs HB) as (e & E & (p & q & s & I & EE) & _).
    destruct (KEY _ _ I) as (a & b & Hp & Hq & Q). injection Q as <- <-. exists p, q. split; [exact Hp|]. split; [exact Hq|]. rewrite (FV p q s I). split.
    + destruct (OK p q Hp Hq) as (_ & _ & _ & LV & _). rewrite (FV p q s I) in LV. unfold nvals. exact (eq_ind_r (fun m => (0 < m)%nat) (dim_pos n p q Hp Hq) LV).
    + rewrite E. f_equal. symmetry. exact EE.
Qed.

(** [next(... if abs(v.eigvals[0]-egs)<tol)] finds a sector. *)
Lemma gs_found tol l e : 0 < tol -> (forall key s, In (key, s) l -> s_vals RRing s <> []) -> (exists key s, In (key, s) l /\ nth 0 (s_vals RRing s) 0 = e) ->
  exists key s, gs_sector tol l (Some e) = Ok (key, s) /\ In (key, s) l /\ Rabs (nth 0 (s_vals RRing s) 0 - e) < tol.
Proof.
  intros HT. induction l as [|[k x] l IH]; intros NE (key & s & I & E); [destruct I|]. cbn [gs_sector].
  destruct (s_vals RRing x) as [|v vs] eqn:SV; [exfalso; apply (NE k x); [now left|exact SV]|].
  destruct (Rltb (Rabs (v - e)) tol) eqn:L.
  - exists k, x. split; [reflexivity|]. split; [now left|]. rewrite SV. now apply Rltb_spec.
  - destruct I as [I|I].
    + exfalso. injection I as -> ->. rewrite SV in E. cbn [nth] in E. subst v. assert (Q : Rltb (Rabs (e - e)) tol = true); [|congruence]. apply Rltb_spec. rewrite Rminus_eq_0, Rabs_R0. exact HT.
    + destruct IH as (k' & s' & G & I' & L'); [intros key' s' I'; apply (NE key'); now right|exists key, s; auto|]. exists k', s'. split; [exact G|]. split; [now right|exact L'].
Qed.
Theorem gs_total tol : 0 < tol -> exists key s e, egs = Some e /\ gs_sector tol es egs = Ok (key, s) /\ In (key, s) es /\ Rabs (nth 0 (s_vals RRing s) 0 - e) < tol /\
  exists v cols up dw, s_vecs RRing s = Cols RRing (v :: cols) /\ s_states RRing s = StSz up dw /\ (length v = length dw * length up)%nat.
Proof.
  intros HT. destruct exact_family as (F & (_ & FI & FS) & FB & FD & _ & (p & q & Hp & Hq & NV & E)).
  assert (NE : forall key s, In (key, s) es -> s_vals RRing s <> []).
  { intros key s I Z. apply FI in I. destruct I as (a & b & Ha & Hb & -> & ->). destruct (FB a b Ha Hb) as [NV' _]. unfold nvals in NV'. rewrite Z in NV'. cbn [length] in NV'.
    rewrite FD in NV' by auto. pose proof (binom_pos n a Ha). pose proof (binom_pos n b Hb). nia. }
  destruct (gs_found tol es (energy (F p q) 0) HT NE) as (key & s & G & I & L).
  { exists [p; q], (F p q). split; [apply FI; exists p, q; auto|reflexivity]. }
  exists key, s, (energy (F p q) 0). split; [exact E|]. split; [rewrite E; exact G|]. split; [exact I|]. split; [exact L|].
  apply FI in I. destruct I as (a & b & Ha & Hb & -> & ->). destruct (FS a b Ha Hb) as (_ & _ & _ & SS & _ & _ & cs & SV & LC & LX).
  assert (NN : s_vals RRing (F a b) <> []) by (apply (NE [a; b]), FI; exists a, b; auto).
  destruct cs as [|v cols]; [exfalso; apply NN; destruct (s_vals RRing (F a b)); [reflexivity|discriminate LC]|].
  exists v, cols, (ups RRing (F a b)), (dws RRing (F a b)). split; [exact SV|]. split; [exact SS|]. rewrite (LX v) by (now left). apply Nat.mul_comm.
Qed.
End More.

(** ** A trial of siam_solve always ends *)
Lemma mapM_ok {A B} (f : A -> res B) l : (forall a, In a l -> exists b, f a = Ok b) -> exists r, mapM f l = Ok r.
Proof.
  induction l as [|a l IH]; intros H; [exists []; reflexivity|]. cbn [mapM]. destruct (H a ltac:(now left)) as [b ->]. cbn [bind].
  destruct IH as [r ->]; [intros; apply H; now right|]. cbn [bind]. eauto.
Qed.
Section Trial.
Variables (big : R -> bool) (half : R).
Variable eigh : dense RRing -> res (list R * list (list R)).
Variable eigsh : nat -> Z -> (list R -> res (list R)) -> res (list R * list (list R)).
Variables (fsolve : (R -> R) -> R -> R) (kB : R) (wild : N -> nat -> N).
Variables (n : nat) (U sigma0 beta : R) (zs : list cx).
Hypothesis Hn : (1 < n)%nat. Hypothesis Hn' : (n <= 32)%nat. Hypothesis Hh : half + half = 1. Hypothesis HC : eigh_contract eigh.
Theorem trial_total poles : length poles = n -> DedSpec.increasing n (pole poles) -> finds_roots fsolve n (pole poles) ->
  exists r, siam_trial big half eigh eigsh fsolve kB wild n U sigma0 beta zs poles = Ok r.
Proof.
  intros L I FR. subst n. assert (H0 : (0 < length poles)%nat) by lia.
  destruct (siam_ok fsolve poles H0 I FR 0) as (H & V & ES & HH & HV). unfold siam_trial. cbv zeta. rewrite ES. cbn [bind fst snd].
  assert (SY : forall sp : nat, symm RRing (length poles) (hspin RRing (H2 RRing H) sp)).
  { intros sp i j Hi Hj. cbn [hspin]. rewrite !HH by auto. apply star_sym. }
  set (H' := fun i j => match i, j with O, O => H 0%nat 0%nat - sigma0 | _, _ => H i j end).
  assert (SY' : forall sp : nat, symm RRing (length poles) (hspin RRing (H2 RRing H') sp)).
  { intros sp i j Hi Hj. cbn [hspin]. unfold H'. destruct i as [|i], j as [|j]; auto; rewrite !HH by auto; apply star_sym. }
  set (V' := fun i j => match i, j with O, O => U | _, _ => V i j end).
  destruct (exact_runs big half (length poles) (H2 RRing H) (mkflags true true true) (VArray RRing V) false 0 None V eigh eigsh Hn Hn' Hh eq_refl ltac:(auto) Logic.I Logic.I SY eq_refl HC) as (es0 & egs0 & E0).
  destruct (exact_runs big half (length poles) (H2 RRing H') (mkflags true true true) (VArray RRing V') false 0 None V' eigh eigsh Hn Hn' Hh eq_refl ltac:(auto) Logic.I Logic.I SY' eq_refl HC) as (es1 & egs1 & E1).
  assert (D0 : ded_espace big half eigh eigsh (length poles) H V = Ok (es0, egs0)) by exact E0.
  assert (D1 : ded_espace big half eigh eigsh (length poles) H' V' = Ok (es1, egs1)) by exact E1.
  rewrite D0. cbn [bind fst snd].
  destruct (gs_total big half (length poles) (H2 RRing H) (mkflags true true true) (VArray RRing V) false 0 None V Hn Hn' Hh eq_refl ltac:(auto) Logic.I Logic.I SY eq_refl eigh eigsh HC es0 egs0 E0 (/ 10000000) ltac:(lra))
    as (k0 & s0 & e0 & -> & G0 & _ & _ & v0 & c0 & u0 & d0 & SV0 & SS0 & L0).
  rewrite G0. cbn [bind fst snd]. unfold gs_occupation at 1. rewrite SV0, SS0, (ded_occupation_spec _ _ _ _ L0). cbn [bind].
  fold H' V'. rewrite D1. cbn [bind fst snd].
  destruct (gs_total big half (length poles) (H2 RRing H') (mkflags true true true) (VArray RRing V') false 0 None V' Hn Hn' Hh eq_refl ltac:(auto) Logic.I Logic.I SY' eq_refl eigh eigsh HC es1 egs1 E1 (/ 10000000) ltac:(lra))
    as (k1 & s1 & e1 & EE1 & G1 & _ & _ & v1 & c1 & u1 & d1 & SV1 & SS1 & L1).
  rewrite EE1 in E1, G1 |- *. rewrite G1. cbn [bind fst snd]. destruct (list_eq_dec Nat.eq_dec k1 k0); [|eauto].
  destruct (exact_family big half (length poles) (H2 RRing H') (mkflags true true true) (VArray RRing V') false 0 None V' Hn Hn' Hh eq_refl ltac:(auto) Logic.I Logic.I SY' eq_refl eigh eigsh HC es1 (Some e1) E1) as (F & HF & _).
  destruct (gf_exact_lehmann (length poles) es1 F beta e1 0 HF H0) as (g & EG & GC). rewrite EG. cbn [bind].
  match goal with |- context[mapM ?f zs] => destruct (mapM_ok f zs) as [ds ->] end; [intros a _; rewrite GC; cbn [bind]; eauto|]. cbn [bind].
  unfold gs_occupation. rewrite SV1, SS1, (ded_occupation_spec _ _ _ _ L1). cbn [bind].
  destruct (g_lengths fsolve poles) as [LE _]. assert (L32 : (length poles - 1 <= 32)%nat) by lia.
  destruct (raw_spectrum RRing Rleb Rleb_total Rleb_trans wild (g_ek (gfimp_fit fsolve poles)) (eq_ind_r (fun m => (m <= 32)%nat) L32 LE)) as (eb & egb & EB & _ & KB & RB & OB). rewrite EB. cbn [bind fst snd].
  destruct egb as [egb|]; [eauto|]. exfalso. cbn [egs_ok] in OB. subst eb. assert (X : In [0; 0]%nat (map fst ([] : espace RRing))) by (apply KB; exists 0%nat, 0%nat; split; [reflexivity|lia]). destruct X.
Qed.
End Trial.
