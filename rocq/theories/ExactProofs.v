(** Complete exact diagonalisation: it succeeds, and egs is the ground state energy. *)
From Coq Require Import String Reals List Arith NArith ZArith Bool Lia Lra Psatz Ring Sorted.
From Verif Require Import Base RBase RLin CBase OperatorsModel OperatorsSpec LookupModel LookupSpec SectorModel SectorSpec SectorProofs FockSpec FockProofs LocalModel LocalSpec HoppingModel
  CsrSpec NonLocalModel NonLocalSpec MatvecModel MatvecSpec MatvecProofs MbModel MbSpec MbProofs EspaceModel EspaceSpec EspaceProofs EspaceEigProofs
  ProjModel ProjSpec ProjProofs ProjFinalProofs CfModel GfModel GfSpec GmSpec SpectralProofs ExactSpec EighProofs ConserveProofs.
Import ListNotations.
Local Open Scope R_scope.

Lemma dim_pos n p q : (p <= n)%nat -> (q <= n)%nat -> (0 < length (cand n p) * length (cand n q))%nat.
Proof. intros Hp Hq. rewrite !cand_length. pose proof (binom_pos n p Hp). pose proof (binom_pos n q Hq). nia. Qed.
Lemma states_at n p : (n <= 32)%nat -> (p <= n)%nat -> generate_states n p = Ok (cand n p).
Proof. intros Hn Hp. apply generate_states_cand; auto. Qed.

Section Exact.
Variables (big : R -> bool) (half : R) (n : nat) (h : hmat RRing) (fl : hflags) (V : inter RRing) (hf : bool) (mu : R) (z : option (nat -> R)).
Variable U : nat -> nat -> R.
Variable eigh : dense RRing -> res (list R * list (list R)).
Variable eigsh : nat -> Z -> (list R -> res (list R)) -> res (list R * list (list R)).
Hypothesis Hn : (1 < n)%nat. Hypothesis Hn' : (n <= 32)%nat. Hypothesis Hh2 : half + half = 1.
Hypothesis HU : inter_U RRing V = Some U. Hypothesis HJ : inter_Jx RRing V = None -> inter_Jp RRing V = None.
Hypothesis HSx : osymm RRing n (inter_Jx RRing V). Hypothesis HSp : osymm RRing n (inter_Jp RRing V).
Hypothesis HS : forall sp, symm RRing n (hspin RRing h sp). Hypothesis Hset : settable RRing h fl = true.
Hypothesis HC : eigh_contract eigh.
Notation solve := (solve_sector RRing big half eigh eigsh n h fl V hf mu z).
Definition ham (ub db ua da : N) : R := hamiltonian RRing half (- 1) n (fun s i => hspin RRing h s i i + mu) U (zfun RRing hf z) hf (fun s => offdiag RRing big (hspin RRing h s))
  (opt_offdiag RRing big (inter_Jx RRing V)) (opt_offdiag RRing big (inter_Jp RRing V)) ub db ua da.
(** Matrix of the sector in the code's order of states. *)
Definition smat (up dw : list N) (a b : nat) : R :=
  ham (nth (b mod length up) up 0%N) (nth (b / length up) dw 0%N) (nth (a mod length up) up 0%N) (nth (a / length up) dw 0%N).

Lemma sector_solved p q up dw : (p <= n)%nat -> (q <= n)%nat -> generate_states n p = Ok up -> generate_states n q = Ok dw ->
  let d := (length up * length dw)%nat in
  exists vals cols, solve (StSz up dw) (Some (Z.of_nat d)) = Ok (vals, cols) /\ length vals = d /\ length cols = d /\ (forall k, (k < d)%nat -> length (nth k cols []) = d) /\
    orthonormal d d (fun k i => nth i (nth k cols []) 0) /\
    (forall k a, (k < d)%nat -> (a < d)%nat -> rsum d (fun b => smat up dw a b * nth b (nth k cols []) 0) = nth k vals 0 * nth a (nth k cols []) 0) /\
    forall j k, (j <= k)%nat -> (k < d)%nat -> nth j vals 0 <= nth k vals 0.
Proof.
  intros Hp Hq GU GD d. unfold solve_sector. cbv zeta. cbn [states_dim]. fold d. rewrite Z.eqb_refl. cbn [orb]. rewrite Z.ltb_irrefl.
  unfold solve_lapack, sector_ops.
  destruct (mb_matvec RRing big half n p q h fl V U hf mu z up dw (fun _ => true) (repeat 0 d) (repeat 0 d) Hn Hn' Hp Hq Hh2 HU HJ HSx Hset GU GD (repeat_length _ _) (repeat_length _ _))
    as (ops & f & y & D & EB & ED & _ & _ & H).
  rewrite EB. cbn [fst bind]. rewrite ED. cbn [bind].
  assert (SEC : sector_of n (StSz up dw)) by (split; [auto|]; exists p, q; auto).
  destruct (mb_symmetric RRing big half n h fl V (StSz up dw) hf mu z ops false f D ltac:(lia) SEC Hh2 HS HSx HSp EB ED) as (DR & DC & DS).
  cbn [states_dim] in DR, DC, DS. fold d in DR, DC, DS.
  destruct (HC D ltac:(congruence) ltac:(rewrite DR; exact DS)) as (vals & cols & E & LV & LC & LN & ON & EV & AS). rewrite DR in *.
  rewrite E. cbn [bind]. exists vals, cols. split; [reflexivity|]. split; [exact LV|]. split; [exact LC|]. split; [exact LN|]. split; [exact ON|]. split; [|exact AS].
  intros k a Hk Ha. etransitivity; [|exact (EV k a Hk Ha)]. apply rsum_ext. intros b Hb. f_equal. symmetry.
  assert (LU : (0 < length up)%nat) by nia.
  assert (A1 : (a mod length up < length up)%nat) by (apply Nat.mod_upper_bound; lia). assert (A2 : (a / length up < length dw)%nat) by (apply Nat.div_lt_upper_bound; lia).
  assert (B1 : (b mod length up < length up)%nat) by (apply Nat.mod_upper_bound; lia). assert (B2 : (b / length up < length dw)%nat) by (apply Nat.div_lt_upper_bound; lia).
  pose proof (proj1 (H _ _ _ _ (nth_error_nth' up 0%N A1) (nth_error_nth' dw 0%N A2)) _ _ _ _ (nth_error_nth' up 0%N B1) (nth_error_nth' dw 0%N B2)) as Q.
  replace (a mod length up + a / length up * length up)%nat with a in Q by (rewrite (Nat.div_mod a (length up)) at 1 by lia; lia).
  replace (b mod length up + b / length up * length up)%nat with b in Q by (rewrite (Nat.div_mod b (length up)) at 1 by lia; lia).
  exact Q.
Qed.


Lemma exact_runs : exists es egs, build_espace RRing Rleb big half eigh eigsh n h fl V hf mu z None "sz" = Ok (es, egs).
Proof.
  destruct (espace_dims n None "sz" SymSz eq_refl) as (req & ER & LR & DIM).
  destruct (build_espace_total RRing Rleb big half eigh eigsh n h fl V hf mu z None "sz" SymSz req eq_refl Hn' ER ltac:(lia)) as [[es egs] E]; [|eauto].
  intros q st k QV QS QK _. rewrite (DIM q QV) in QK.
  destruct (qns_states_ok RRing Rleb big eigsh n mu SymSz q Hn' QV) as (st' & QS' & SD). rewrite QS in QS'. injection QS' as <-.
  apply (f_equal (fun o => match o with Some v => v | None => 0%Z end)) in QK. cbv beta iota in QK. subst k.
  destruct QV as (p & p' & -> & Hp & Hq). cbn [qns_states] in QS. rewrite !(states_at n) in QS by auto. cbn [bind] in QS. injection QS as <-. cbn [states_dim] in SD. rewrite <- SD.
  destruct (sector_solved p p' _ _ Hp Hq (states_at n p Hn' Hp) (states_at n p' Hn' Hq)) as (vals & cols & E & _). eauto.
Qed.

Variables (es : espace RRing) (egs : option R).
Hypothesis HB : build_espace RRing Rleb big half eigh eigsh n h fl V hf mu z None "sz" = Ok (es, egs).

(** What is stored for a sector. *)
Definition sector_ok (p q : nat) (s : sct RRing) : Prop :=
  let up := cand n p in let dw := cand n q in let d := (length up * length dw)%nat in
  s_states RRing s = StSz up dw /\ exists cols, s_vecs RRing s = Cols RRing cols /\
    length (s_vals RRing s) = d /\ length cols = d /\ (forall k, (k < d)%nat -> length (nth k cols []) = d) /\ orthonormal d d (fun k i => nth i (nth k cols []) 0) /\
    (forall k a, (k < d)%nat -> (a < d)%nat -> rsum d (fun b => smat up dw a b * nth b (nth k cols []) 0) = nth k (s_vals RRing s) 0 * nth a (nth k cols []) 0) /\
    forall j k, (j <= k)%nat -> (k < d)%nat -> nth j (s_vals RRing s) 0 <= nth k (s_vals RRing s) 0.

Lemma exact_keys key : In key (map fst es) <-> exists p q, (p <= n)%nat /\ (q <= n)%nat /\ key = [p; q].
Proof.
  destruct (build_espace_spec RRing Rleb Rleb_total Rleb_trans big half eigh eigsh n h fl V hf mu z None "sz" es egs HB) as (sym & req & ES & ER & _ & HI & _ & _).
  change (symmetry_of "sz") with (Ok SymSz) in ES. injection ES as <-. rewrite HI. split.
  - intros [(p & q & -> & Hp & Hq) _]. exists p, q. auto.
  - intros (p & q & Hp & Hq & ->). assert (QV : qvalid SymSz n [p; q]) by (exists p, q; auto). split; [exact QV|].
    destruct (espace_dims n None "sz" SymSz eq_refl) as (req' & ER' & _ & DIM). rewrite ER in ER'. injection ER' as <-. specialize (DIM [p; q] QV).
    destruct (sector_solved p q _ _ Hp Hq (states_at n p Hn' Hp) (states_at n q Hn' Hq)) as (vals & cols & E & LV & _). rewrite !cand_length in E, LV.
    exists (mksct RRing (StSz (cand n p) (cand n q)) vals (Cols RRing cols)). exists (Z.of_nat (qdim n [p; q])), cols. cbn [s_states s_vals s_vecs qns_states]. rewrite !(states_at n) by auto. cbn [bind].
    split; [reflexivity|]. split; [exact DIM|]. cbn [qdim] in *. pose proof (binom_pos n p Hp). pose proof (binom_pos n q Hq).
    split; [nia|]. split; [exact E|]. split; [reflexivity|]. intros ->. cbn [length] in LV. nia.
Qed.
Lemma exact_sector p q s : In ([p; q], s) es -> sector_ok p q s.
Proof.
  intros I. destruct (build_espace_spec RRing Rleb Rleb_total Rleb_trans big half eigh eigsh n h fl V hf mu z None "sz" es egs HB) as (sym & req & ES & ER & _ & HI & HAns & _).
  change (symmetry_of "sz") with (Ok SymSz) in ES. injection ES as <-.
  assert (Q : qvalid SymSz n [p; q]) by (apply HI, in_map_iff; exists ([p; q], s); auto). pose proof Q as QV.
  destruct Q as (p0 & q0 & E0 & Hp & Hq). injection E0 as <- <-.
  destruct (HAns _ _ I) as (k & c & QS & QK & _ & SOL & SV & _).
  destruct (espace_dims n None "sz" SymSz eq_refl) as (req' & ER' & _ & DIM). rewrite ER in ER'. injection ER' as <-. rewrite (DIM [p; q] QV) in QK.
  apply (f_equal (fun o => match o with Some v => v | None => 0%Z end)) in QK. cbv beta iota in QK. subst k.
  cbn [qns_states] in QS. rewrite !(states_at n) in QS by auto. cbn [bind] in QS. injection QS as QS. rewrite <- QS in SOL.
  destruct (sector_solved p q _ _ Hp Hq (states_at n p Hn' Hp) (states_at n q Hn' Hq)) as (vals & cols & E & P).
  unfold sector_ok. cbv zeta. split; [now symmetry|]. exists c. split; [exact SV|].
  rewrite !cand_length in E. cbn [qdim] in SOL. rewrite E in SOL. injection SOL as -> ->. exact P.
Qed.
Lemma exact_stored p q : (p <= n)%nat -> (q <= n)%nat -> exists s, In ([p; q], s) es.
Proof.
  intros Hp Hq. assert (X : In [p; q] (map fst es)) by (apply exact_keys; eauto). apply in_map_iff in X. destruct X as ([k s] & <- & I). eauto.
Qed.

(** egs exists; it is the least of the first eigenvalues. *)
Lemma exact_egs : exists e, egs = Some e /\
  (exists p q s, In ([p; q], s) es /\ nth 0 (s_vals RRing s) 0 = e) /\
  forall p q s k, In ([p; q], s) es -> (k < length (s_vals RRing s))%nat -> e <= nth k (s_vals RRing s) 0.
Proof.
  destruct (build_espace_spec RRing Rleb Rleb_total Rleb_trans big half eigh eigsh n h fl V hf mu z None "sz" es egs HB) as (sym & req & _ & _ & _ & _ & _ & EO).
  case_eq egs; [intros e EG|intros EG]; rewrite EG in EO; cbn [egs_ok] in EO.
  - destruct EO as [(key & s & I & IV) LB]. exists e. split; [reflexivity|].
    assert (LB' : forall p q s k, In ([p; q], s) es -> (k < length (s_vals RRing s))%nat -> e <= nth k (s_vals RRing s) 0).
    { intros p q s' k I' Hk. apply Rleb_spec. apply (LB _ _ _ I'). apply nth_In. exact Hk. }
    split; [|exact LB'].
    assert (X : In key (map fst es)) by (apply in_map_iff; exists (key, s); auto). apply exact_keys in X. destruct X as (p & q & Hp & Hq & ->).
    exists p, q, s. split; [exact I|]. destruct (exact_sector p q s I) as (_ & cols & _ & LV & _ & _ & _ & _ & AS). pose proof (dim_pos n p q Hp Hq) as DP.
    apply Rle_antisym; [|apply (LB' p q s 0%nat I); exact (eq_ind_r (fun m => (0 < m)%nat) DP LV)]. apply (In_nth _ _ 0) in IV. destruct IV as (k & Hk & <-). apply AS; [lia|exact (eq_ind _ (fun m => (k < m)%nat) Hk _ LV)].
  - exfalso. destruct (exact_stored 0 0 ltac:(lia) ltac:(lia)) as [s I]. rewrite EO in I. destruct I.
Qed.

(** ** Energies of arbitrary states *)
Lemma in_cand_lt p s : In s (cand n p) -> (s < 2 ^ N.of_nat n)%N /\ popcount s = p.
Proof. apply cand_In. Qed.
Definition over_sector (p q : nat) (f : N -> N -> R) : R := lsum (fun u => lsum (f u) (cand n q)) (cand n p).
Lemma over2 f : over_states n (fun u => over_states n (f u)) = rsum (S n) (fun p => rsum (S n) (fun q => over_sector p q f)).
Proof.
  rewrite over_sectors. apply rsum_ext. intros p _. rewrite (lsum_ext _ (fun u => rsum (S n) (fun q => lsum (f u) (cand n q)))) by (intros; apply over_sectors). apply lsum_rsum.
Qed.
Lemma over_sector_ext p q f g : (forall u d, In u (cand n p) -> In d (cand n q) -> f u d = g u d) -> over_sector p q f = over_sector p q g.
Proof. intros H. apply lsum_ext. intros u Hu. apply lsum_ext. auto. Qed.
Lemma over_sector_0 p q f : (forall u d, In u (cand n p) -> In d (cand n q) -> f u d = 0) -> over_sector p q f = 0.
Proof. intros H. apply lsum_0. intros u Hu. apply lsum_0. auto. Qed.
Lemma over_sector_flat p q f : over_sector p q f = rsum (length (cand n p) * length (cand n q)) (fun a => f (nth (a mod length (cand n p)) (cand n p) 0%N) (nth (a / length (cand n p)) (cand n q) 0%N)).
Proof.
  unfold over_sector. rewrite lsum_nth, (Nat.mul_comm (length (cand n p))).
  unfold rsum at 2. rewrite (nsum_mul RRing). change (@nsum RRing) with rsum. rewrite rsum_swap.
  transitivity (rsum (length (cand n p)) (fun i => rsum (length (cand n q)) (fun j => f (nth i (cand n p) 0%N) (nth j (cand n q) 0%N)))); [apply rsum_ext; intros; apply lsum_nth|].
  apply rsum_ext. intros i Hi. apply rsum_ext. intros j Hj. now rewrite Nat.mod_add, Nat.mod_small, Nat.div_add, Nat.div_small, Nat.add_0_l by lia.
Qed.
Lemma energy_sectors psi : energy_of n ham psi = rsum (S n) (fun p => rsum (S n) (fun q => over_sector p q (fun u d => over_sector p q (fun u' d' => psi u' d' * ham u' d' u d * psi u d)))).
Proof.
  unfold energy_of. rewrite (over2 (fun u d => over_states n (fun u' => over_states n (fun d' => psi u' d' * ham u' d' u d * psi u d)))).
  apply rsum_ext. intros p Hp. apply rsum_ext. intros q Hq. apply over_sector_ext. intros u d Hu Hd. apply in_cand_lt in Hu, Hd.
  rewrite (over2 (fun u' d' => psi u' d' * ham u' d' u d * psi u d)).
  assert (Z : forall p' q', p' <> p \/ q' <> q -> over_sector p' q' (fun u' d' => psi u' d' * ham u' d' u d * psi u d) = 0).
  { intros p' q' N. apply over_sector_0. intros u' d' Hu' Hd'. apply in_cand_lt in Hu', Hd'. destruct Hu as [Hu Pu], Hd as [Hd Pd], Hu' as [Hu' Pu'], Hd' as [Hd' Pd'].
    assert (H0 : ham u' d' u d = 0) by (apply (hamiltonian_conserves RRing); auto; rewrite Pu, Pd, Pu', Pd'; exact N). rewrite H0. ring. }
  rewrite (rsum_single (S n) _ p Hp).
  - rewrite (rsum_single (S n) _ q Hq); [reflexivity|]. intros q' _ N. apply Z. auto.
  - intros p' _ N. apply rsum_0. intros q' _. apply Z. auto.
Qed.
Lemma sector_bound p q s e psi : (p <= n)%nat -> (q <= n)%nat -> In ([p; q], s) es -> (forall k, (k < length (s_vals RRing s))%nat -> e <= nth k (s_vals RRing s) 0) ->
  e * over_sector p q (fun u d => psi u d * psi u d) <= over_sector p q (fun u d => over_sector p q (fun u' d' => psi u' d' * ham u' d' u d * psi u d)).
Proof.
  intros Hp Hq I LB. destruct (exact_sector p q s I) as (_ & cols & _ & LV & LC & LN & ON & EV & _). set (d := (length (cand n p) * length (cand n q))%nat) in *.
  set (x := fun a => psi (nth (a mod length (cand n p)) (cand n p) 0%N) (nth (a / length (cand n p)) (cand n q) 0%N)).
  rewrite !over_sector_flat. fold d.
  rewrite (rsum_ext d (fun a => over_sector p q _) (fun a => x a * mv d (smat (cand n p) (cand n q)) x a)).
  2:{ intros a Ha. rewrite over_sector_flat. fold d. unfold mv. rewrite <- rsum_scal_l. apply rsum_ext. intros b Hb. unfold x, smat. ring. }
  apply (spectral_bound d (smat (cand n p) (cand n q)) (fun k i => nth i (nth k cols []) 0) (fun k => nth k (s_vals RRing s) 0) e x ON).
  - intros k i Hk Hi. apply EV; auto.
  - intros k Hk. apply LB. exact (eq_ind_r (fun m => (k < m)%nat) Hk LV).
Qed.

Theorem variational e psi : egs = Some e -> e * norm2 n psi <= energy_of n ham psi.
Proof.
  intros E. destruct exact_egs as (e' & E' & _ & LB). rewrite E in E'. injection E' as <-. rewrite energy_sectors. unfold norm2. rewrite (over2 (fun u d => psi u d * psi u d)).
  rewrite <- rsum_scal_l. apply rsum_le. intros p Hp. rewrite <- rsum_scal_l. apply rsum_le. intros q Hq.
  destruct (exact_stored p q ltac:(lia) ltac:(lia)) as [s I]. apply (sector_bound p q s e psi ltac:(lia) ltac:(lia) I). intros k Hk. now apply (LB p q s k I).
Qed.

(** The bound is attained. *)
Fixpoint index (s : N) (l : list N) : nat := match l with [] => 0 | x :: l => if N.eqb x s then 0 else S (index s l) end.
Lemma index_nth l i : NoDup l -> (i < length l)%nat -> index (nth i l 0%N) l = i.
Proof.
  revert i. induction l as [|x l IH]; intros i ND Hi; [cbn in Hi; lia|]. inversion ND as [|? ? NI ND']; subst. destruct i as [|i]; cbn [nth index]; [now rewrite N.eqb_refl|].
  cbn [length] in Hi. destruct (N.eqb_spec x (nth i l 0%N)) as [E|_]; [exfalso; apply NI; rewrite E; apply nth_In; lia|]. rewrite IH; auto. lia.
Qed.
Theorem attained e : egs = Some e -> exists psi, norm2 n psi = 1 /\ energy_of n ham psi = e.
Proof.
  intros E. destruct exact_egs as (e' & E' & (p & q & s & I & EE) & _). rewrite E in E'. injection E' as <-.
  assert (X : In [p; q] (map fst es)) by (apply in_map_iff; exists ([p; q], s); auto). apply exact_keys in X. destruct X as (p' & q' & Hp & Hq & EQ). injection EQ as <- <-.
  destruct (exact_sector p q s I) as (_ & cols & _ & LV & LC & LN & ON & EV & _). pose proof (dim_pos n p q Hp Hq) as DP. set (d := (length (cand n p) * length (cand n q))%nat) in *.
  set (v := nth 0 cols []) in *. set (lu := length (cand n p)) in *.
  set (psi := fun u w => if ((popcount u =? p) && (popcount w =? q))%nat then nth (index u (cand n p) + index w (cand n q) * lu) v 0 else 0).
  assert (XA : forall a, (a < d)%nat -> psi (nth (a mod lu) (cand n p) 0%N) (nth (a / lu) (cand n q) 0%N) = nth a v 0).
  { intros a Ha. assert (LU : (0 < lu)%nat) by nia.
    assert (A1 : (a mod lu < lu)%nat) by (apply Nat.mod_upper_bound; lia). assert (A2 : (a / lu < length (cand n q))%nat) by (apply Nat.div_lt_upper_bound; lia).
    unfold psi. assert (P1 : In (nth (a mod lu) (cand n p) 0%N) (cand n p)) by (apply nth_In; exact A1). assert (P2 : In (nth (a / lu) (cand n q) 0%N) (cand n q)) by (apply nth_In; exact A2).
    apply in_cand_lt in P1, P2. rewrite (proj2 P1), (proj2 P2), !Nat.eqb_refl. cbn [andb].
    rewrite !index_nth; auto using (increasing_NoDup _ (cand_increasing n p)), (increasing_NoDup _ (cand_increasing n q)).
    f_equal. rewrite (Nat.div_mod a lu) at 3 by lia. lia. }
  assert (XO : forall p' q' u w, (p' <> p \/ q' <> q) -> In u (cand n p') -> In w (cand n q') -> psi u w = 0).
  { intros p' q' u w N Hu Hw. apply in_cand_lt in Hu, Hw. unfold psi. destruct (Nat.eqb_spec (popcount u) p); cbn [andb]; auto. destruct (Nat.eqb_spec (popcount w) q); auto. exfalso. destruct N; lia. }
  exists psi. split.
  - unfold norm2. rewrite (over2 (fun u w => psi u w * psi u w)). rewrite (rsum_single (S n) _ p ltac:(lia)).
    + rewrite (rsum_single (S n) _ q ltac:(lia)).
      * rewrite over_sector_flat. fold d lu. pose proof (ON 0%nat 0%nat DP DP) as Q. rewrite Nat.eqb_refl in Q. rewrite <- Q. apply rsum_ext. intros a Ha. rewrite XA by auto. reflexivity.
      * intros q' _ N. apply over_sector_0. intros u w Hu Hw. rewrite (XO p q' u w) by auto. ring.
    + intros p' _ N. apply rsum_0. intros q' _. apply over_sector_0. intros u w Hu Hw. rewrite (XO p' q' u w) by auto. ring.
  - rewrite energy_sectors. rewrite (rsum_single (S n) _ p ltac:(lia)).
    + rewrite (rsum_single (S n) _ q ltac:(lia)).
      * rewrite over_sector_flat. fold d lu. pose proof (ON 0%nat 0%nat DP DP) as Q. rewrite Nat.eqb_refl in Q. rewrite <- (Rmult_1_r e), <- Q, <- rsum_scal_l.
        apply rsum_ext. intros a Ha. rewrite over_sector_flat. fold d lu. fold v.
        transitivity (nth a v 0 * rsum d (fun b => smat (cand n p) (cand n q) a b * nth b v 0)).
        -- rewrite <- rsum_scal_l. apply rsum_ext. intros b Hb. rewrite !XA by auto. unfold smat. fold lu. ring.
        -- unfold v at 2. rewrite (EV 0%nat a DP Ha), EE. fold v. ring.
      * intros q' _ N. apply over_sector_0. intros u w Hu Hw. apply over_sector_0. intros u' w' Hu' Hw'. rewrite (XO p q' u w) by auto. ring.
    + intros p' _ N. apply rsum_0. intros q' _. apply over_sector_0. intros u w Hu Hw. apply over_sector_0. intros u' w' Hu' Hw'. rewrite (XO p' q' u w) by auto. ring.
Qed.
End Exact.
