(** Every eigenpair stored by build_espace is one of the second-quantised
    Hamiltonian. *)
From Coq Require Import String Ascii List Arith NArith ZArith Bool Lia.
From Verif Require Import Base OperatorsModel OperatorsSpec LookupModel LookupSpec SectorModel SectorSpec SectorProofs FockSpec
  LocalModel LocalSpec HoppingModel CsrSpec NonLocalModel NonLocalSpec MatvecModel MatvecSpec MatvecProofs MbModel MbSpec MbProofs
  EspaceModel EspaceSpec EspaceProofs.
Import ListNotations.

Section Eig.
Variable K : CRing.
Add Ring Kring : (cth K).
Local Open Scope cr_scope.
Variable leb : K -> K -> bool.
Variable big : K -> bool.
Variable half : K.
Variable eigh : dense K -> res (list K * list (list K)).
Variable eigsh : nat -> Z -> (list K -> res (list K)) -> res (list K * list (list K)).

Lemma pyslice_nth {A} k (l : list A) i x : nth_error (pyslice k l) i = Some x -> nth_error l i = Some x.
Proof.
  assert (G : forall m, nth_error (firstn m l) i = Some x -> nth_error l i = Some x).
  { intros m H. assert (i < length (firstn m l))%nat by (apply nth_error_Some; congruence).
    rewrite firstn_length in H0. rewrite nth_error_firstn in H by lia. exact H. }
  unfold pyslice. destruct (k <? 0)%Z; apply G.
Qed.

Variable n : nat.
Variable h : hmat K.
Variable fl : hflags.
Variable V : inter K.
Variable hf : bool.
Variable mu : K.
Variable z : option (nat -> K).

Lemma map_seq_nth {A} (f : nat -> A) m a x : (a < m)%nat -> nth a (map f (seq 0 m)) x = f a.
Proof. intros H. rewrite (nth_indep _ x (f 0%nat)) by (now rewrite map_length, seq_length). rewrite map_nth, seq_nth by exact H. reflexivity. Qed.
(** Product and dense matrix of a sector agree. *)
Lemma sector_matrix U nup ndw up dw : (1 < n)%nat -> (n <= 32)%nat -> (nup <= n)%nat -> (ndw <= n)%nat -> half + half = 1 -> inter_U K V = Some U ->
  (inter_Jx K V = None -> inter_Jp K V = None) -> (forall sp, symm K n (spinful K h sp)) -> osymm K n (inter_Jx K V) -> osymm K n (inter_Jp K V) ->
  settable K h fl = true -> generate_states n nup = Ok up -> generate_states n ndw = Ok dw ->
  let d := (length up * length dw)%nat in
  exists ops f D, build_mb_ham K big half n h fl V (StSz up dw) hf mu z = (Ok (ops, false), f) /\ todense K ops = Ok D /\ d_rows K D = d /\ d_cols K D = d /\
    (forall a b, (a < d)%nat -> (b < d)%nat -> d_at K D a b = d_at K D b a) /\
    (forall x, length x = d -> matvec K (fun _ => true) ops x x None = Ok (map (fun a => nsum d (fun b => d_at K D a b * nth b x 0)) (seq 0 d))) /\
    forall ja ka ua da, nth_error up ja = Some ua -> nth_error dw ka = Some da -> forall jb kb ub db, nth_error up jb = Some ub -> nth_error dw kb = Some db ->
      d_at K D (ja + ka * length up) (jb + kb * length up) =
      hamiltonian K half (- (1)) n (fun s i => spinful K h s i i + mu) U (zfun K hf z) hf
        (fun s => offdiag K big (spinful K h s)) (opt_offdiag K big (inter_Jx K V)) (opt_offdiag K big (inter_Jp K V)) ub db ua da.
Proof.
  intros Hn Hn' Hu Hd Hh HU HJ HS HSx HSp Hset Eu Ed d.
  assert (MV : forall v0, length v0 = d -> _) by (intros v0 Hv0; exact (mb_matvec K big half n nup ndw h fl V U hf mu z up dw (fun _ => true) v0 v0 Hn Hn' Hu Hd Hh HU HJ HSx Hset Eu Ed Hv0 Hv0)).
  destruct (MV (repeat 0 d) (repeat_length _ _)) as [ops [f [y [D [EB [ED [_ [_ G]]]]]]]].
  assert (SEC : sector_of n (StSz up dw)) by (split; [auto|]; exists nup, ndw; auto).
  destruct (mb_symmetric K big half n h fl V (StSz up dw) hf mu z ops false f D ltac:(lia) SEC Hh HS HSx HSp EB ED) as [DR [DC DS]]. cbn [states_dim] in DR, DC, DS. fold d in DR, DC, DS.
  exists ops, f, D. split; [exact EB|]. split; [exact ED|]. split; [exact DR|]. split; [exact DC|]. split; [exact DS|]. split.
  - intros x Lx. destruct (MV x Lx) as [ops' [f' [y' [D' [EB' [ED' [EY [LY G']]]]]]]]. rewrite EB in EB'. injection EB' as <- <-. rewrite ED in ED'. injection ED' as <-.
    rewrite EY. f_equal. apply (nth_ext _ _ 0 0); [exact (eq_trans LY (eq_sym (eq_trans (map_length _ _) (seq_length _ _))))|]. intros a Ha. pose proof (eq_rect _ (fun m => (a < m)%nat) Ha _ LY) as Ha'. cbv beta in Ha'. clear Ha. rename Ha' into Ha. fold d in Ha.
    rewrite (map_seq_nth _ d a 0 Ha).
    assert (P : (0 < length up)%nat) by (destruct (length up); cbn in Ha; lia).
    assert (Qa : a = (a mod length up + a / length up * length up)%nat) by (rewrite (Nat.div_mod a (length up)) at 1 by lia; lia).
    assert (La : (a mod length up < length up)%nat) by (apply Nat.mod_upper_bound; lia).
    assert (Lb : (a / length up < length dw)%nat) by (apply Nat.div_lt_upper_bound; lia).
    destruct (G' (a mod length up)%nat (a / length up)%nat (nth (a mod length up) up 0%N) (nth (a / length up) dw 0%N)) as [G1 G2]; [now apply nth_error_nth'|now apply nth_error_nth'|].
    rewrite <- Qa in G1, G2. rewrite G2. unfold d. rewrite (Nat.mul_comm (length up)), nsum_mul. apply nsum_ext. intros kb Hkb. apply nsum_ext. intros jb Hjb.
    rewrite (G1 jb kb (nth jb up 0%N) (nth kb dw 0%N)); [reflexivity| |]; now apply nth_error_nth'.
  - intros ja ka ua da Hja Hka. now apply (G ja ka ua da Hja Hka).
Qed.

Lemma stored_eigenpairs U neig s esp egs :
  (1 < n)%nat -> (n <= 32)%nat -> half + half = 1 -> inter_U K V = Some U ->
  (inter_Jx K V = None -> inter_Jp K V = None) ->
  (forall sp, symm K n (spinful K h sp)) -> osymm K n (inter_Jx K V) -> osymm K n (inter_Jp K V) ->
  settable K h fl = true -> eigh_sound K eigh -> eigsh_sound K eigsh ->
  (forall a b, leb a b = true \/ leb b a = true) -> (forall a b c, leb a b = true -> leb b c = true -> leb a c = true) ->
  symmetry_of s = Ok SymSz ->
  build_espace K leb big half eigh eigsh n h fl V hf mu z neig s = Ok (esp, egs) ->
  forall q sc, In (q, sc) esp -> exists nup ndw up dw c, q = [nup; ndw] /\
    generate_states n nup = Ok up /\ generate_states n ndw = Ok dw /\ s_states K sc = StSz up dw /\ s_vecs K sc = Cols K c /\
    forall i e v, nth_error (s_vals K sc) i = Some e -> nth_error c i = Some v -> is_eigenpair K big half n h V hf mu z U up dw e v.
Proof.
  intros Hn Hn' Hh HU HJ HS HSx HSp Hset HE HA LT LTr Es HB q sc Hq.
  destruct (build_espace_spec K leb LT LTr big half eigh eigsh n h fl V hf mu z neig s esp egs HB)
    as [sym [req [Es' [_ [_ [HI [HAns _]]]]]]].
  rewrite Es in Es'. injection Es' as <-.
  assert (Hv : qvalid SymSz n q) by (apply HI, in_map_iff; exists (q, sc); auto).
  destruct (HAns q sc Hq) as [k [c [Est [_ [_ [Esol [Evec _]]]]]]].
  destruct Hv as [nup [ndw [-> [Hu Hd]]]]. cbn [qns_states] in Est.
  destruct (generate_states n nup) as [up|] eqn:Eu; [|discriminate]. cbn [bind] in Est.
  destruct (generate_states n ndw) as [dw|] eqn:Ed; [|discriminate]. cbn [bind] in Est. injection Est as Est.
  exists nup, ndw, up, dw, c. split; [reflexivity|]. split; [auto|]. split; [auto|]. split; [auto|]. split; [auto|].
  intros i e v Hi Hc. rewrite <- Est in Esol.
  destruct (sector_matrix U nup ndw up dw Hn Hn' Hu Hd Hh HU HJ HS HSx HSp Hset Eu Ed) as (ops & f & D & EB & ED & DR & DC & DS & MV & G).
  assert (EIG : length v = (length up * length dw)%nat /\ forall a, (a < length up * length dw)%nat -> nsum (length up * length dw) (fun b => d_at K D a b * nth b v 0) = e * nth a v 0).
  { unfold solve_sector in Esol. cbv zeta in Esol.
    destruct ((k =? Z.of_nat (states_dim (StSz up dw))) || (Z.of_nat (states_dim (StSz up dw)) <=? 512))%Z.
    - destruct (solve_lapack K big half eigh n h fl V hf mu z (StSz up dw)) as [[vals cols]|] eqn:EL; [|discriminate].
      cbn [bind] in Esol.
      assert (Hi' : nth_error vals i = Some e /\ nth_error cols i = Some v).
      { injection Esol as Esol. destruct (k <? _)%Z.
        - cbn [fst snd] in Esol. injection Esol as E1 E2. rewrite <- E1 in Hi. rewrite <- E2 in Hc.
          split; eapply pyslice_nth; eauto.
        - injection Esol as E1 E2. split; congruence. }
      destruct Hi' as [Hi1 Hi2].
      unfold solve_lapack, sector_ops in EL. rewrite EB in EL. cbn [fst bind] in EL. rewrite ED in EL. cbn [bind] in EL.
      rewrite <- DR. apply (HE D vals cols) with (i := i); auto; [congruence|rewrite DR; exact DS].
    - unfold solve_arpack, sector_ops in Esol. rewrite EB in Esol. cbn [fst bind] in Esol.
      exact (HA _ _ _ (d_at K D) _ _ DS MV Esol i e v Hi Hc). }
  destruct EIG as [LV EV]. split; [exact LV|]. intros ja ka ua da Hja Hka.
  assert (La : (ja < length up)%nat) by (apply nth_error_Some; congruence).
  assert (Lb : (ka < length dw)%nat) by (apply nth_error_Some; congruence).
  rewrite <- (EV (ja + ka * length up)%nat) by nia.
  rewrite (Nat.mul_comm (length up)), nsum_mul. apply nsum_ext. intros kb Hkb. apply nsum_ext. intros jb Hjb.
  rewrite (G ja ka ua da Hja Hka jb kb (nth jb up 0%N) (nth kb dw 0%N)); [reflexivity| |]; now apply nth_error_nth'.
Qed.
End Eig.

(** The assumption on the solver can be met: a solver for 1 x 1 matrices. *)
Definition one_solver (K : CRing) (D : dense K) : res (list K * list (list K)) :=
  if (d_rows K D =? 1)%nat then Ok ([d_at K D 0 0], [[c1 K]]) else Ok ([], []).
Lemma one_solver_sound K : eigh_sound K (one_solver K).
Proof.
  intros D vals cols E S. unfold one_solver. destruct (Nat.eqb_spec (d_rows K D) 1) as [R|R]; intros EE; injection EE as <- <-; intros i e v Hi Hv.
  - destruct i; [|destruct i; discriminate]. cbn [nth_error] in *. injection Hi as <-. injection Hv as <-.
    rewrite R. split; [reflexivity|]. intros a Ha. assert (a = 0)%nat by lia. subst. cbn [nth nsum seq bsum].
    unfold nsum. cbn [seq bsum nth]. pose proof (cth K) as T. destruct T. rewrite Radd_comm. apply Radd_0_l.
  - destruct i; discriminate.
Qed.
