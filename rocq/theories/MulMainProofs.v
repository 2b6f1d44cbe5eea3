(** Spin multiplets in the stored spectra. *)
From Coq Require Import String Reals List Arith NArith ZArith Bool Lia Lra Psatz Ring Field.
From Verif Require Import Base RBase RLin CBase OperatorsModel OperatorsSpec SectorModel SectorSpec SectorProofs FockSpec FockProofs LocalModel LocalSpec HoppingModel CsrSpec NonLocalModel NonLocalSpec
  MatvecModel MbModel MbSpec EspaceModel ProjModel ProjSpec ProjProofs CfModel GfModel GfSpec GfSumProofs GmModel GmSpec GmFockProofs SpectralProofs ExactSpec EighProofs ExactProofs GflModel GflSpec AgrModel AgrSpec AgrProofs AgrInstProofs
  SymSpec RelSpec RelFinalProofs RelCorProofs SiamSpec SiamFockProofs SiamLinkProofs MulProofs MulNormProofs MulCountProofs.
Import ListNotations.
Local Open Scope R_scope.

Lemma rsum_two f : rsum 2 f = f 0%nat + f 1%nat.
Proof. rewrite !rsum_S, (rsum_0 0) by (intros; lia). ring. Qed.

Section Main.
Variables (big : R -> bool) (half : R) (n : nat) (h : hmat RRing) (fl : hflags) (V : inter RRing) (hf : bool) (mu : R) (z : option (nat -> R)) (U : nat -> nat -> R).
Hypothesis MO : model_ok half n h fl V U.
Hypothesis HJx : inter_Jx RRing V = None.
Hypothesis HS : spin_free n h.
(** The interaction between different sites. *)
Definition density (t : N) : R := half * rsum n (fun i => rsum n (fun j => if (i =? j)%nat then 0 else U i j * ((site_charge n t i - zfun RRing hf z i) * (site_charge n t j - zfun RRing hf z j)))).
Definition U0 (i j : nat) : R := if (i =? j)%nat then U i j else 0.
Lemma density_charge : charge_energy n density.
Proof.
  intros t t' H. unfold density. f_equal. apply rsum_ext. intros i Hi. apply rsum_ext. intros j Hj. now rewrite !H by auto.
Qed.
Lemma MO0 : model_ok half n h fl (VArray RRing U0) U0.
Proof. destruct MO as (A & B & C & D & E & F). split; [exact A|]. split; [reflexivity|]. split; [reflexivity|]. split; [split; exact I|]. split; assumption. Qed.
Notation lw := (lowered big half h hf mu U0).
Notation uu := (fun i => U0 i i).
Lemma lw_free x y : (x < n)%nat -> (y < n)%nat -> lw 1%nat x y = lw 0%nat x y.
Proof. intros Hx Hy. unfold lowered, one_body, offdiag. rewrite (HS x y Hx Hy). try rewrite (HS x x Hx Hx). reflexivity. Qed.
Lemma U0_diag i j : (i < n)%nat -> (j < n)%nat -> i <> j -> U0 i j = 0.
Proof. intros _ _ NE. unfold U0. destruct (Nat.eqb_spec i j); [congruence|reflexivity]. Qed.
Lemma split_ham p q a b : (p <= n)%nat -> (q <= n)%nat -> (a < dimn n p q)%nat -> (b < dimn n p q)%nat ->
  Msec big half n h V hf mu z U p q a b = hubbard n lw uu (basis RRing n (bare n p q) a) (basis RRing n (bare n p q) b) +
    (if (a =? b)%nat then offset half n hf U0 + density (basis RRing n (bare n p q) a) else 0).
Proof.
  intros Hp Hq Ha Hb. pose proof (link big half n h fl (VArray RRing U0) hf mu z U0 MO0 eq_refl U0_diag p q a b Hp Hq Ha Hb) as LK.
  enough (Q : Msec big half n h V hf mu z U p q a b = Msec big half n h (VArray RRing U0) hf mu z U0 p q a b + (if (a =? b)%nat then density (basis RRing n (bare n p q) a) else 0)).
  { rewrite Q, LK. destruct (a =? b)%nat; ring. }
  clear LK. pose proof (dimn_at half n h fl V U MO p q Hp Hq) as DM.
  assert (BA : forall c, basis RRing n (bare n p q) c = combine n (nth (c mod length (cand n p)) (cand n p) 0%N) (nth (c / length (cand n p)) (cand n q) 0%N)).
  { intros c. unfold basis. rewrite (bare_at half n h fl V U MO p q Hp Hq). reflexivity. }
  assert (LU : (0 < length (cand n p))%nat) by (rewrite DM in Ha; nia).
  assert (HN' : (n <= 32)%nat) by (destruct MO as ((_ & ? & _) & _); auto).
  assert (SM : forall c, (nth (c mod length (cand n p)) (cand n p) 0 < 2 ^ N.of_nat n)%N) by (intros c; apply (cand_In n p), nth_In, Nat.mod_upper_bound; lia).
  pose proof (proj1 (proj2 (proj2 MO)) HJx) as HJp.
  unfold Msec, smat, ham, hamiltonian. cbv zeta. rewrite HJx, HJp. cbn [inter_Jx inter_Jp opt_offdiag]. rewrite <- !BA.
  change (cadd RRing) with Rplus. change (c0 RRing) with 0.
  assert (EB : N.eqb (basis RRing n (bare n p q) b) (basis RRing n (bare n p q) a) = (a =? b)%nat).
  { destruct (Nat.eqb_spec a b) as [->|NE]; [apply N.eqb_refl|]. apply N.eqb_neq. intros E. apply NE. symmetry. apply (basis_inj n p q (bare n p q)); auto. now apply GflLoopProofs.bare_sector. }
  rewrite EB. destruct (a =? b)%nat; [|match goal with |- ?x = ?y => change (@eq R x y) end; ring].
  enough (Q : forall ua da, (ua < 2 ^ N.of_nat n)%N -> fock_energy RRing half n (fun i => hspin RRing h 0 i i + mu) (fun i => hspin RRing h 1 i i + mu) U (zfun RRing hf z) hf ua da =
    fock_energy RRing half n (fun i => hspin RRing h 0 i i + mu) (fun i => hspin RRing h 1 i i + mu) U0 (zfun RRing hf z) hf ua da + density (combine n ua da)).
  { rewrite (Q _ _ (SM a)), <- BA. match goal with |- ?x = ?y => change (@eq R x y) end. ring. }
  intros ua da Hua. unfold fock_energy. cbv zeta. change (cadd RRing) with Rplus. change (cmul RRing) with Rmult. change (csub RRing) with Rminus. change (c0 RRing) with 0. change (@nsum RRing) with rsum.
  rewrite (rsum_ext n (fun i => U0 i i * _) (fun i => U i i * ((num RRing ua i - (if hf then half else 0)) * (num RRing da i - (if hf then half else 0))))) by (intros; unfold U0; now rewrite Nat.eqb_refl).
  rewrite (rsum_0 n (fun i => rsum n (fun j => if (i =? j)%nat then 0 else U0 i j * _))) by (intros i Hi; apply rsum_0; intros j Hj; unfold U0; destruct (i =? j)%nat; ring).
  rewrite Rmult_0_r, Rplus_0_r. f_equal. unfold density. f_equal. apply rsum_ext. intros i Hi. apply rsum_ext. intros j Hj. destruct (i =? j)%nat; [reflexivity|].
  unfold site_charge. destruct (num_occR big n mu U0 U0_diag ua da i Hi Hua) as [-> ->]. destruct (num_occR big n mu U0 U0_diag ua da j Hj Hua) as [-> ->]. reflexivity.
Qed.

Variable eigh : dense RRing -> res (list R * list (list R)).
Variable eigsh : nat -> Z -> (list R -> res (list R)) -> res (list R * list (list R)).
Hypothesis HC : eigh_contract eigh.
Variables (es : espace RRing) (e : R).
Hypothesis HB : build_espace RRing Rleb big half eigh eigsh n h fl V hf mu z None "sz" = Ok (es, Some e).

Theorem multiplets p q s s' E : (q <= p)%nat -> In ([S p; q], s) es -> In ([p; S q], s') es -> (count_occ Req_EM_T (s_vals RRing s) E <= count_occ Req_EM_T (s_vals RRing s') E)%nat.
Proof.
  intros Hpq I1 I2. destruct (inst_family big half n h fl V hf mu z U MO eigh eigsh HC es (Some e) HB) as (F & (_ & LI & LS) & EB & EV).
  apply LI in I1. destruct I1 as (a1 & b1 & Hp & Hq & K & ->). injection K as <- <-. apply LI in I2. destruct I2 as (a2 & b2 & Hp' & Hq' & K & ->). injection K as <- <-.
  assert (H32 : (n <= 32)%nat) by (destruct MO as ((_ & ? & _) & _); auto).
  set (X := F (S p) q). set (Y := F p (S q)). pose proof (LS (S p) q Hp Hq) as HX. pose proof (LS p (S q) Hp' Hq') as HY. fold X in HX. fold Y in HY.
  set (J := bare n p q). assert (HJ : is_sector RRing n p q J) by (apply GflLoopProofs.bare_sector; lia).
  destruct (EB (S p) q Hp Hq) as [NX OX]. destruct (EB p (S q) Hp' Hq') as [NY OY]. fold X in NX, OX. fold Y in NY, OY.
  fold X Y.
  assert (CX : length (at_energy (sdim RRing X) (energy X) E) = count_occ Req_EM_T (s_vals RRing X) E) by (rewrite <- NX; exact (at_energy_count (s_vals RRing X) E)).
  assert (CY : length (at_energy (sdim RRing Y) (energy Y) E) = count_occ Req_EM_T (s_vals RRing Y) E) by (rewrite <- NY; exact (at_energy_count (s_vals RRing Y) E)).
  rewrite <- CX, <- CY.
  set (v := fun k a => nth a (vec RRing X k) 0). set (w := fun k a => nth a (vec RRing Y k) 0).
  set (kk := offset half n hf U0).
  assert (AC : forall p' q' Z, (p' <= n)%nat -> (q' <= n)%nat -> Z = F p' q' -> is_sector RRing n p' q' Z -> forall k a, (k < sdim RRing Z)%nat -> (a < sdim RRing Z)%nat ->
    ham_on n lw uu Z (fun b => nth b (vec RRing Z k) 0) a + density (basis RRing n Z a) * nth a (vec RRing Z k) 0 = (energy Z k - kk) * nth a (vec RRing Z k) 0).
  { intros p' q' Z Hp0 Hq0 EZ HZ k a Hk Ha. pose proof (EV p' q' Hp0 Hq0 k a) as Q. rewrite <- EZ in Q. specialize (Q Hk Ha).
    assert (DZ : sdim RRing Z = dimn n p' q') by (unfold dimn, sdim, ups, dws; now rewrite (GflLoopProofs.bare_states n H32 p' q' Hp0 Hq0 Z HZ)).
    rewrite (rsum_ext _ _ (fun b => hubbard n lw uu (basis RRing n Z a) (basis RRing n Z b) * nth b (vec RRing Z k) 0 + (if (a =? b)%nat then (kk + density (basis RRing n Z a)) * nth a (vec RRing Z k) 0 else 0))) in Q.
    - rewrite rsum_add, (rsum_single _ (fun b => if (a =? b)%nat then _ else 0) a Ha), Nat.eqb_refl in Q by (intros b _ NE; destruct (Nat.eqb_spec a b); [congruence|reflexivity]).
      unfold ham_on. lra.
    - intros b Hb. rewrite split_ham by (auto; rewrite <- DZ; auto). rewrite !(basis_sector n p' q' Z _ HZ). fold kk. destruct (Nat.eqb_spec a b) as [->|]; ring. }
  apply (count_le (sdim RRing X) (sdim RRing Y) v w (energy X) (energy Y) (lower n X J Y)).
  - exact OX.
  - exact OY.
  - intros m x f a Ha. etransitivity; [apply lower_sum|]. apply rsum_ext. intros l _. apply lower_scal.
  - intros f Hf. pose proof (lower_norm n p q X J Y HX HJ HY ltac:(lia) ltac:(lia) f) as Q. rewrite S_INR in Q. apply le_INR in Hpq. nra.
  - intros j i Hj Hi NE. set (T := lower n X J Y (v j)).
    assert (HT : forall a, (a < sdim RRing Y)%nat -> ham_on n lw uu Y T a + density (basis RRing n Y a) * T a = (energy X j - kk) * T a).
    { intros a Ha. unfold T. rewrite (lower_commutes n p q X J Y HX HJ HY lw uu (v j) a (lowered_sym big half n h fl (VArray RRing U0) hf mu U0 MO0) lw_free Ha).
      rewrite <- (lower_charge n X J Y density (v j) a density_charge), <- lower_scal.
      transitivity (lower n X J Y (fun b => rsum 2 (fun l => match l with O => ham_on n lw uu X (v j) b | _ => density (basis RRing n X b) * v j b end)) a).
      - rewrite (lower_sum n X J Y 2 (fun l b => match l with O => ham_on n lw uu X (v j) b | _ => density (basis RRing n X b) * v j b end)). rewrite rsum_two. reflexivity.
      - apply lower_ext. intros b Hb. rewrite rsum_two. exact (AC (S p) q X Hp Hq eq_refl HX j b Hj Hb). }
    assert (SY : rsum (sdim RRing Y) (fun a => w i a * (ham_on n lw uu Y T a + density (basis RRing n Y a) * T a)) = rsum (sdim RRing Y) (fun a => (ham_on n lw uu Y (w i) a + density (basis RRing n Y a) * w i a) * T a)).
    { rewrite (rsum_ext _ _ (fun a => w i a * ham_on n lw uu Y T a + density (basis RRing n Y a) * (w i a * T a))) by (intros; ring).
      rewrite (rsum_ext _ (fun a => (_ + _) * T a) (fun a => ham_on n lw uu Y (w i) a * T a + density (basis RRing n Y a) * (w i a * T a))) by (intros; ring).
      rewrite !rsum_add. f_equal. unfold ham_on.
      rewrite (rsum_ext _ _ (fun a => rsum (sdim RRing Y) (fun c => hubbard n lw uu (basis RRing n Y a) (basis RRing n Y c) * (w i a * T c)))) by (intros; rewrite <- rsum_scal_l; apply rsum_ext; intros; ring).
      rewrite rsum_swap. apply rsum_ext. intros c Hc. rewrite <- rsum_scal_r. apply rsum_ext. intros a Ha.
      assert (SH : hubbard n lw uu (basis RRing n Y a) (basis RRing n Y c) = hubbard n lw uu (basis RRing n Y c) (basis RRing n Y a)).
      { unfold hubbard. rewrite (GmEomProofs.ham_sym n lw (lowered_sym big half n h fl (VArray RRing U0) hf mu U0 MO0)). f_equal. rewrite (N.eqb_sym (basis RRing n Y c)).
        destruct (N.eqb_spec (basis RRing n Y a) (basis RRing n Y c)) as [->|]; reflexivity. }
      rewrite SH. ring. }
    rewrite (rsum_ext _ _ (fun a => (energy X j - kk) * (w i a * T a))) in SY by (intros a Ha; rewrite HT by auto; ring).
    rewrite (rsum_ext _ (fun a => (_ + _) * T a) (fun a => (energy Y i - kk) * (w i a * T a))) in SY by (intros a Ha; pose proof (AC p (S q) Y Hp' Hq' eq_refl HY i a Hi Ha) as A; fold (w i a) in A; change (fun b => nth b (vec RRing Y i) 0) with (w i) in A; rewrite A; ring).
    rewrite !rsum_scal_l in SY. assert (D : (energy X j - energy Y i) * rsum (sdim RRing Y) (fun a => w i a * T a) = 0) by lra.
    apply Rmult_integral in D. destruct D; [exfalso; apply NE; lra|assumption].
Qed.
End Main.

Section More.
Variables (big : R -> bool) (half : R) (n : nat) (h : hmat RRing) (fl : hflags) (V : inter RRing) (hf : bool) (mu : R) (z : option (nat -> R)) (U : nat -> nat -> R).
Hypothesis MO : model_ok half n h fl V U.
Hypothesis HJx : inter_Jx RRing V = None.
Hypothesis HS : spin_free n h.
Variable eigh : dense RRing -> res (list R * list (list R)).
Variable eigsh : nat -> Z -> (list R -> res (list R)) -> res (list R * list (list R)).
Hypothesis HC : eigh_contract eigh.
Variables (es : espace RRing) (e : R).
Hypothesis HB : build_espace RRing Rleb big half eigh eigsh n h fl V hf mu z None "sz" = Ok (es, Some e).
Notation mult s E := (count_occ Req_EM_T (s_vals RRing s) E).

Theorem spin_spectrum p q s s' : In ([p; q], s) es -> In ([q; p], s') es -> s_vals RRing s' = s_vals RRing s.
Proof.
  intros I I'. destruct (related_spectrum n false true (fun x => x) (fun _ => false) big half h fl V hf mu z U big half h fl V hf mu z U MO MO (spin_rel n big h V hf mu z U HS) eigh eigh eigsh eigsh HC HC es es _ _ HB HB) as (e0 & E0 & _ & H).
  etransitivity; [exact (H p q s s' I I')|]. rewrite <- (map_id (s_vals RRing s)) at 2. apply map_ext. intros v. match goal with |- ?x = ?y => change (@eq R x y) end. ring.
Qed.
Lemma stored_at p q : (p <= n)%nat -> (q <= n)%nat -> exists s, In ([p; q], s) es.
Proof.
  intros Hp Hq. destruct (inst_family big half n h fl V hf mu z U MO eigh eigsh HC es (Some e) HB) as (F & (_ & LI & _) & _). exists (F p q). apply LI. exists p, q. auto.
Qed.
Lemma stored_le p q s : In ([p; q], s) es -> (p <= n)%nat /\ (q <= n)%nat.
Proof.
  intros I. destruct (inst_family big half n h fl V hf mu z U MO eigh eigsh HC es (Some e) HB) as (F & (_ & LI & _) & _). apply LI in I. destruct I as (a & b & Ha & Hb & K & _). injection K as -> ->. auto.
Qed.
Lemma stored_same p q s s' : In ([p; q], s) es -> In ([p; q], s') es -> s = s'.
Proof.
  intros I I'. destruct (inst_family big half n h fl V hf mu z U MO eigh eigsh HC es (Some e) HB) as (F & (_ & LI & _) & _). apply LI in I. destruct I as (a & b & _ & _ & K & ->). injection K as <- <-.
  apply LI in I'. destruct I' as (a & b & _ & _ & K & ->). now injection K as <- <-.
Qed.
Lemma chain k : forall p q s s' E, (q + 2 * k <= p)%nat -> In ([p; q], s) es -> In ([(p - k)%nat; (q + k)%nat], s') es -> (mult s E <= mult s' E)%nat.
Proof.
  induction k as [|k IH]; intros p q s s' E Hk I I'.
  - rewrite Nat.sub_0_r, Nat.add_0_r in I'. now rewrite (stored_same p q s s' I I').
  - destruct (stored_le _ _ _ I) as [Hp Hq]. destruct (stored_at (p - k) (q + k)) as (t & It); [lia|lia|].
    pose proof (IH p q s t E ltac:(lia) I It) as A. replace (p - k)%nat with (S (p - S k))%nat in It by lia. replace (q + S k)%nat with (S (q + k))%nat in I' by lia.
    pose proof (multiplets big half n h fl V hf mu z U MO HJx HS eigh eigsh HC es e HB (p - S k) (q + k) t s' E ltac:(lia) It I') as B. lia.
Qed.
(** Every energy occurs in the sector with the smallest spin projection of its electron number. *)
Theorem lowest_spin p q s s' E : In ([p; q], s) es -> In ([(p + q - (p + q) / 2)%nat; ((p + q) / 2)%nat], s') es -> (mult s E <= mult s' E)%nat.
Proof.
  assert (G : forall p q s s', (q <= p)%nat -> In ([p; q], s) es -> In ([(p + q - (p + q) / 2)%nat; ((p + q) / 2)%nat], s') es -> (mult s E <= mult s' E)%nat).
  { intros a b t t' Hab I I'. set (k := ((a + b) / 2 - b)%nat). pose proof (Nat.div_mod (a + b) 2 ltac:(lia)) as DM. pose proof (Nat.mod_upper_bound (a + b) 2 ltac:(lia)) as MB.
    apply (chain k a b t t' E); [unfold k; lia|exact I|]. replace (a - k)%nat with (a + b - (a + b) / 2)%nat by (unfold k; lia). replace (b + k)%nat with ((a + b) / 2)%nat by (unfold k; lia). exact I'. }
  intros I I'. destruct (Nat.le_gt_cases q p) as [L|L]; [exact (G p q s s' L I I')|].
  destruct (stored_le _ _ _ I) as [Hp Hq]. destruct (stored_at q p Hq Hp) as (t & It). rewrite <- (spin_spectrum p q s t I It).
  apply (G q p t s'); [lia|exact It|]. now rewrite (Nat.add_comm q p).
Qed.
(** The members of a multiplet: the same energy at every spin projection in between. *)
Theorem members p q k s s' E : (q + k <= p)%nat -> In ([p; q], s) es -> In ([(p - k)%nat; (q + k)%nat], s') es -> (mult s E <= mult s' E)%nat.
Proof.
  intros Hk I I'. destruct (Nat.le_gt_cases (q + 2 * k) p) as [L|L]; [exact (chain k p q s s' E L I I')|].
  destruct (stored_le _ _ _ I) as [Hp Hq]. destruct (stored_le _ _ _ I') as [Hp' Hq']. destruct (stored_at (q + k) (p - k) Hq' Hp') as (t & It). rewrite <- (spin_spectrum _ _ _ _ I' It).
  apply (chain (p - q - k) p q s t E ltac:(lia) I). replace (p - (p - q - k))%nat with (q + k)%nat by lia. replace (q + (p - q - k))%nat with (p - k)%nat by lia. exact It.
Qed.
Theorem ground_sector : exists m s, In ([(m - m / 2)%nat; (m / 2)%nat], s) es /\ In e (s_vals RRing s).
Proof.
  destruct MO as ((Hn & Hn' & Hh2) & HU & HJ & (HSx & HSp) & HSy & Hset).
  destruct (ExactMoreProofs.exact_family big half n h fl V hf mu z U Hn Hn' Hh2 HU HJ HSx HSp HSy Hset eigh eigsh HC es _ HB) as (F & (_ & LI & _) & _ & _ & _ & (p & q & Hp & Hq & NV & E0)).
  assert (I : In ([p; q], F p q) es) by (apply LI; exists p, q; auto).
  pose proof (Nat.div_mod (p + q) 2 ltac:(lia)) as DM. pose proof (Nat.mod_upper_bound (p + q) 2 ltac:(lia)) as MB.
  destruct (stored_at (p + q - (p + q) / 2) ((p + q) / 2)) as (t & It); [lia|lia|]. exists (p + q)%nat, t. split; [exact It|].
  apply (count_occ_In Req_EM_T). pose proof (lowest_spin p q (F p q) t e I It) as L. injection E0 as E0.
  assert (A : In e (s_vals RRing (F p q))) by (rewrite E0; apply nth_In; exact NV). apply (count_occ_In Req_EM_T) in A. lia.
Qed.
End More.

(** ** The exchange as coded *)
Definition xch_h : hmat RRing := H2 RRing (fun i j => if (i =? j)%nat then 0 else -1).
Definition xch_U (i j : nat) : R := 0.
Definition xch_J (i j : nat) : R := if (i =? j)%nat then 0 else 1.
Definition xch_V : inter RRing := VDict RRing (Some xch_U) (Some xch_J) None.
Definition xch_fl : hflags := mkflags true true true.
Lemma xch_ok : model_ok (/ 2) 2 xch_h xch_fl xch_V xch_U.
Proof.
  split; [split; [lia|split; [lia|lra]]|]. split; [reflexivity|]. split; [reflexivity|]. split; [split; [|exact I]|split; [|reflexivity]].
  - intros i j _ _. cbn. unfold xch_J. rewrite (Nat.eqb_sym j i). reflexivity.
  - intros sp i j _ _. cbn. rewrite (Nat.eqb_sym j i). reflexivity.
Qed.
Section Xch.
Variable eigh : dense RRing -> res (list R * list (list R)).
Variable eigsh : nat -> Z -> (list R -> res (list R)) -> res (list R * list (list R)).
Hypothesis HC : eigh_contract eigh.
Variables (es : espace RRing) (e : R).
Hypothesis HB : build_espace RRing Rleb (fun _ => true) (/ 2) eigh eigsh 2 xch_h xch_fl xch_V false 0 None None "sz" = Ok (es, Some e).
Notation M := (Msec (fun _ => true) (/ 2) 2 xch_h xch_V false 0 None xch_U).
Theorem exchange_breaks : exists s s', In ([2%nat; 0%nat], s) es /\ In ([1%nat; 1%nat], s') es /\ In (-1) (s_vals RRing s) /\ ~ In (-1) (s_vals RRing s').
Proof.
  destruct (inst_family (fun _ => true) (/ 2) 2 xch_h xch_fl xch_V false 0 None xch_U xch_ok eigh eigsh HC es (Some e) HB) as (F & (_ & LI & LS) & EB & EV).
  exists (F 2%nat 0%nat), (F 1%nat 1%nat). split; [apply LI; exists 2%nat, 0%nat; auto|]. split; [apply LI; exists 1%nat, 1%nat; auto|].
  assert (D : forall p q, (p <= 2)%nat -> (q <= 2)%nat -> sdim RRing (F p q) = dimn 2 p q) by (intros p q Hp Hq; unfold dimn, sdim, ups, dws; now rewrite (GflLoopProofs.bare_states 2 ltac:(lia) p q Hp Hq (F p q) (LS p q Hp Hq))).
  split.
  - destruct (EB 2%nat 0%nat ltac:(lia) ltac:(lia)) as [NV ON]. pose proof (EV 2%nat 0%nat ltac:(lia) ltac:(lia) 0%nat 0%nat) as Q. rewrite D in NV, ON, Q by lia. change (dimn 2 2 0) with 1%nat in *.
    specialize (Q ltac:(lia) ltac:(lia)). specialize (ON 0%nat 0%nat ltac:(lia) ltac:(lia)). rewrite !rsum_S, !(rsum_0 0) in Q, ON by (intros; lia). cbn [Nat.eqb] in ON.
    assert (M00 : M 2%nat 0%nat 0%nat 0%nat = -1) by (cbv -[Rplus Rmult Ropp Rminus Rinv IZR Rdiv]; lra). rewrite M00 in Q.
    set (x := nth 0 (vec RRing (F 2%nat 0%nat) 0) 0) in *. assert (E : energy (F 2%nat 0%nat) 0 = -1) by nra.
    rewrite <- E. apply nth_In. unfold nvals in NV. rewrite NV. lia.
  - destruct (EB 1%nat 1%nat ltac:(lia) ltac:(lia)) as [NV ON]. intros I. apply (In_nth _ _ 0) in I. destruct I as (k & Hk & E). change (length (s_vals RRing (F 1%nat 1%nat))) with (nvals (F 1%nat 1%nat)) in Hk. rewrite NV in Hk.
    change (nth k (s_vals RRing (F 1%nat 1%nat)) 0) with (energy (F 1%nat 1%nat) k) in E.
    pose proof (fun a => EV 1%nat 1%nat ltac:(lia) ltac:(lia) k a Hk) as Q. rewrite D in ON, Q, Hk by lia. change (dimn 2 1 1) with 4%nat in *. specialize (ON k k Hk Hk). rewrite Nat.eqb_refl in ON.
    pose proof (Q 0%nat ltac:(lia)) as Q0. pose proof (Q 1%nat ltac:(lia)) as Q1. pose proof (Q 2%nat ltac:(lia)) as Q2. pose proof (Q 3%nat ltac:(lia)) as Q3.
    rewrite !rsum_S, !(rsum_0 0) in ON, Q0, Q1, Q2, Q3 by (intros; lia). rewrite E in Q0, Q1, Q2, Q3. clear Q.
    set (x0 := nth 0 (vec RRing (F 1%nat 1%nat) k) 0) in *. set (x1 := nth 1 (vec RRing (F 1%nat 1%nat) k) 0) in *. set (x2 := nth 2 (vec RRing (F 1%nat 1%nat) k) 0) in *. set (x3 := nth 3 (vec RRing (F 1%nat 1%nat) k) 0) in *.
    clearbody x0 x1 x2 x3. clear - ON Q0 Q1 Q2 Q3.
    cbv -[Rplus Rmult Ropp Rminus Rinv IZR Rdiv] in Q0, Q1, Q2, Q3.
    assert (Z0 : x0 = 0) by lra. assert (Z1 : x1 = 0) by lra. assert (Z2 : x2 = 0) by lra. assert (Z3 : x3 = 0) by lra. subst. lra.
Qed.
End Xch.

(** ** The dimer of C85 *)
Definition two_h : hmat RRing := H2 RRing (fun i j => if (i =? j)%nat then 0 else -1).
Definition two_U (i j : nat) : R := if (i =? j)%nat then 3 else 0.
Lemma dimer_triplet eigh eigsh es e : eigh_contract eigh -> build_espace RRing Rleb (fun _ => true) (/ 2) eigh eigsh 2 two_h xch_fl (VArray RRing two_U) false (-1) None None "sz" = Ok (es, Some e) ->
  exists s s' v, In ([2%nat; 0%nat], s) es /\ In ([1%nat; 1%nat], s') es /\ s_vals RRing s = [v] /\ v = -2.
Proof.
  intros HC HB.
  assert (OK : model_ok (/ 2) 2 two_h xch_fl (VArray RRing two_U) two_U).
  { split; [split; [lia|split; [lia|lra]]|]. split; [reflexivity|]. split; [reflexivity|]. split; [split; exact I|]. split; [|reflexivity]. intros sp i j _ _. cbn. rewrite (Nat.eqb_sym j i). reflexivity. }
  destruct (inst_family (fun _ => true) (/ 2) 2 two_h xch_fl (VArray RRing two_U) false (-1) None two_U OK eigh eigsh HC es (Some e) HB) as (F & (_ & LI & LS) & EB & EV).
  exists (F 2%nat 0%nat), (F 1%nat 1%nat). destruct (EB 2%nat 0%nat ltac:(lia) ltac:(lia)) as [NV ON]. pose proof (EV 2%nat 0%nat ltac:(lia) ltac:(lia) 0%nat 0%nat) as Q.
  assert (D : sdim RRing (F 2%nat 0%nat) = 1%nat) by (unfold sdim, ups, dws; rewrite (GflLoopProofs.bare_states 2 ltac:(lia) 2 0 ltac:(lia) ltac:(lia) (F 2%nat 0%nat) (LS 2%nat 0%nat ltac:(lia) ltac:(lia))); reflexivity).
  rewrite D in NV, ON, Q. specialize (Q ltac:(lia) ltac:(lia)). specialize (ON 0%nat 0%nat ltac:(lia) ltac:(lia)). rewrite !rsum_S, !(rsum_0 0) in Q, ON by (intros; lia). cbn [Nat.eqb] in ON.
  assert (M00 : Msec (fun _ => true) (/ 2) 2 two_h (VArray RRing two_U) false (-1) None two_U 2 0 0 0 = -2) by (cbv -[Rplus Rmult Ropp Rminus Rinv IZR Rdiv]; lra). rewrite M00 in Q.
  set (x := nth 0 (vec RRing (F 2%nat 0%nat) 0) 0) in *. assert (E : energy (F 2%nat 0%nat) 0 = -2) by nra.
  exists (energy (F 2%nat 0%nat) 0). split; [apply LI; exists 2%nat, 0%nat; auto|]. split; [apply LI; exists 1%nat, 1%nat; auto|]. split; [|exact E].
  unfold nvals, energy in *. destruct (s_vals RRing (F 2%nat 0%nat)) as [|y [|? ?]]; try (cbn in NV; lia). reflexivity.
Qed.
