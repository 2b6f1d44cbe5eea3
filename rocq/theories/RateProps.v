(** C43-C46: rate equations. *)
From Coq Require Import Reals List Arith ZArith Bool Lia Lra Psatz Sorted.
From Verif Require Import Base RBase RLin CBase LookupModel EspaceModel RateModel RateSpec RateProofs RateDictProofs RateStatProofs RateActiveProofs.
Import ListNotations.
Local Open Scope R_scope.

(** * C43: rate matrices *)
Theorem C43_conserve : forall (V L : Type) (call : V -> L -> res R) leads d, exists sz W,
  build_rate_matrix V L call leads d = Ok (sz, W) /\ conserves sz W /\
  ((forall k v lead g, In (k, v) d -> In lead leads -> call v lead = Ok g -> 0 <= g) -> rate_signs sz W).
Proof. exact rates_conserve. Qed.
Print Assumptions C43_conserve.

Theorem C43_entries : forall (V L : Type) (call : V -> L -> res R) leads d, NoDup (map fst d) -> exists ids W,
  build_rate_matrix V L call leads d = Ok (length ids, W) /\ StronglySorted before ids /\
  (forall x, In x ids <-> exists I v, In ((x, I), v) d) /\
  (forall f i, (f < length ids)%nat -> (i < length ids)%nat -> f <> i ->
     W f i = lsum (fun lead => rate_of call d lead (nth f ids []) (nth i ids [])) leads) /\
  (forall i, (i < length ids)%nat -> W i i = - rsum (length ids) (fun f => if (f =? i)%nat then 0 else W f i)).
Proof. exact rates_entries. Qed.
Print Assumptions C43_entries.

(** Sequential tunnelling: a rate matrix for every dictionary, every temperature
    (of either sign), all potentials and couplings. *)
Theorem C43_sequential : forall d beta mu A, exists sz W, sq_rate_matrix d beta mu A = Ok (sz, W) /\ rate_matrix sz W.
Proof.
  intros d beta mu A. destruct (rates_conserve gfel nat (sq_call A mu beta) [0; 1]%nat d) as (sz & W & E & C & S). exists sz, W. split; [exact E|]. split; [exact C|].
  apply S. intros k v lead g _ _. apply sq_call_nonneg.
Qed.
Print Assumptions C43_sequential.

Theorem C43_transition : forall (V : Type) (signed : V -> res R) skip d, NoDup (map fst d) -> exists ids T,
  build_transition_matrix V signed skip d = Ok (length ids, T) /\ StronglySorted before ids /\
  (forall x, In x ids <-> exists I v, In ((x, I), v) d) /\
  (forall f i, (f < length ids)%nat -> (i < length ids)%nat -> T f i =
     if skip && (f =? i)%nat then 0 else rate_of (fun v (_ : unit) => signed v) d tt (nth f ids []) (nth i ids [])).
Proof. exact transition_rates. Qed.
Print Assumptions C43_transition.

(** The dictionary based builders (sqtnl.py, cotnl.py). *)
Theorem C43_dict : forall (V : Type) (total trans : V -> res R) d ids W idsT T,
  build_dict_matrices V total trans d = Ok ((ids, W), (idsT, T)) ->
  StronglySorted before ids /\ conserves (length ids) W /\
  (forall f i, (f < length ids)%nat -> (i < length ids)%nat -> f <> i ->
     W f i = rate_of (fun v (_ : unit) => total v) d tt (nth f ids []) (nth i ids [])) /\
  ((forall v g, total v = Ok g -> 0 <= g) -> rate_signs (length ids) W).
Proof. exact dict_rates. Qed.
Print Assumptions C43_dict.

Theorem C43_tnl : forall d beta mu A inject ids W T, tnl_matrices d beta mu A inject = Ok ((ids, W), T) -> rate_matrix (length ids) W.
Proof.
  intros d beta mu A inject ids W [idsT T] E. destruct (dict_rates _ _ _ _ _ _ _ _ E) as (_ & C & _ & S). split; [exact C|]. apply S. apply tnl_total_nonneg.
Qed.
Print Assumptions C43_tnl.

Theorem C43_dict_succeeds : forall (V : Type) (total trans : V -> res R) d,
  (forall e, In e d -> exists g t, total (snd e) = Ok g /\ trans (snd e) = Ok t) ->
  (forall F I v, In ((F, I), v) d -> exists I' v', In ((I, I'), v') d) ->
  exists M, build_dict_matrices V total trans d = Ok M.
Proof. exact dict_succeeds. Qed.
Print Assumptions C43_dict_succeeds.

Example C43_example : exists W,
  build_rate_matrix R nat (fun v lead => if (lead =? 0)%nat then Ok v else Err TypeError) [0; 1]%nat
    [(([1%nat], [0%nat]), 3); (([0%nat], [1%nat]), 5); (([2%nat], [0%nat]), 7)] = Ok (3%nat, W) /\
  W 0%nat 0%nat = -10 /\ W 1%nat 0%nat = 3 /\ W 2%nat 0%nat = 7 /\ W 0%nat 1%nat = 5 /\ W 1%nat 1%nat = -5 /\ W 2%nat 2%nat = 0.
Proof. eexists. split; [reflexivity|]. repeat split; cbv -[Rplus Ropp Rmult IZR]; lra. Qed.
(** A three element dictionary passes the parity assertion. *)
Example C43_parity : parity_assert 3 = Ok tt. Proof. reflexivity. Qed.
Example C43_dict_example : exists ids W T, build_dict_matrices R (@Ok R) (@Ok R) [(([1%nat], [0%nat]), 3); (([0%nat], [1%nat]), 5); (([0%nat], [0%nat]), 7)] = Ok ((ids, W), T) /\
  ids = [[0]; [1]]%nat /\ W 0%nat 0%nat = -3 /\ W 1%nat 0%nat = 3 /\ W 0%nat 1%nat = 5 /\ W 1%nat 1%nat = -5.
Proof. do 3 eexists. split; [reflexivity|]. split; [reflexivity|]. repeat split; cbv -[Rplus Ropp Rmult IZR]; lra. Qed.
Example C43_dict_unpaired : build_dict_matrices R (@Ok R) (@Ok R) [(([1%nat], [0%nat]), 3)] = Err AssertionError.
Proof. reflexivity. Qed.

(** * C44: stationary solutions *)
Theorem C44_spectrum : forall sz W lam (v : nat -> cx), rate_matrix sz W ->
  (exists i, (i < sz)%nat /\ v i <> rcx 0) ->
  (forall f, (f < sz)%nat -> csum sz (fun i => cxmul (rcx (W f i)) (v i)) = cxmul lam (v f)) ->
  re lam <= 0 /\ (cabs (cxsub lam (rcx 1)) <= 1 -> lam = rcx 0).
Proof. exact eigenvalue_far. Qed.
Print Assumptions C44_spectrum.

Theorem C44_exists : forall sz W, (0 < sz)%nat -> rate_matrix sz W ->
  exists p, stationary sz W p /\ (forall i, (i < sz)%nat -> 0 <= p i) /\ rsum sz p = 1.
Proof. exact stationary_exists. Qed.
Print Assumptions C44_exists.

Theorem C44_stationary : forall sz W w v, (0 < sz)%nat -> rate_matrix sz W -> eig_ok sz W w v ->
  exists p, stationary_solution (w, v) = Ok p /\ length p = sz /\ stationary sz W (fun i => nth i p 0) /\
  (unique_stationary sz W -> rsum sz (fun i => nth i p 0) = 1 /\ (forall i, (i < sz)%nat -> 0 <= nth i p 0) /\
     forall q, stationary sz W q -> rsum sz q = 1 -> forall i, (i < sz)%nat -> q i = nth i p 0).
Proof. exact stationary_returned. Qed.
Print Assumptions C44_stationary.

(** Sum one whenever the selected eigenvector does not sum to zero. *)
Theorem C44_normalised : forall sz W w v, (0 < sz)%nat -> rate_matrix sz W -> eig_ok sz W w v ->
  exists x, (exists i, (i < sz)%nat /\ nth i x 0 <> 0) /\ stationary sz W (fun i => nth i x 0) /\
   (rsum sz (fun i => nth i x 0) <> 0 -> exists p, stationary_solution (w, v) = Ok p /\ rsum sz (fun i => nth i p 0) = 1).
Proof. exact normalised. Qed.
Print Assumptions C44_normalised.

Definition C44_W : mat := fun f i => match f, i with O, O => -2 | O, S O => 1 | S O, O => 2 | S O, S O => -1 | _, _ => 0 end.
Definition C44_w : list cx := [rcx 0; rcx (-3)].
Definition C44_v : list (list cx) := [[rcx 1; rcx 2]; [rcx 1; rcx (-1)]].
Ltac lt2 H := match type of H with (?i < 2)%nat => destruct i as [|[|?]]; [| |exfalso; lia] end.
Example C44_W_rate : rate_matrix 2 C44_W.
Proof.
  split; [intros i H|intros f i H H']; repeat match goal with H : (_ < 2)%nat |- _ => lt2 H; clear H end; cbv -[Rplus Ropp Rmult IZR Rle]; lra.
Qed.
Example C44_eig_ok : eig_ok 2 C44_W C44_w C44_v.
Proof.
  split; [reflexivity|]. split.
  - intros j Hj. cbn [length C44_w] in Hj. lt2 Hj; cbn [nth C44_v C44_w]; (split; [reflexivity|]; split; [exists 0%nat; split; [lia|]; cbn; intros Q; injection Q; lra|]; split).
    all: try (intros f H; lt2 H; apply cx_eq; cbv -[Rplus Ropp Rmult Rminus IZR]; lra).
    all: intros _ i H; lt2 H; reflexivity.
  - intros x lam (i & Hi & NZ) E.
    pose proof (E 0%nat ltac:(lia)) as E0. pose proof (E 1%nat ltac:(lia)) as E1. cbv -[Rplus Ropp Rmult IZR Rle] in E0, E1.
    assert (P : lam = 0 \/ lam = -3).
    { assert (A : lam * (x 0%nat + x 1%nat) = 0) by nra. apply Rmult_integral in A. destruct A as [->|A]; [now left|right].
      assert (X : x 1%nat = - x 0%nat) by lra. rewrite X in *. assert (B : x 0%nat * (lam + 3) = 0) by nra. apply Rmult_integral in B. destruct B as [B|B]; [|lra].
      exfalso. apply NZ. lt2 Hi; lra. }
    destruct P as [-> | ->]; [now left|right; now left].
Qed.
Example C44_unique : unique_stationary 2 C44_W.
Proof.
  intros x y X Y. pose proof (X 0%nat ltac:(lia)) as X0. pose proof (Y 0%nat ltac:(lia)) as Y0. cbv -[Rplus Ropp Rmult IZR] in X0, Y0.
  destruct (Req_EM_T (y 0%nat) 0) as [Z|NZ].
  - exists 0, 1. split; [lra|]. intros i H. lt2 H; lra.
  - exists (y 0%nat), (- x 0%nat). split; [intros [? ?]; lra|]. intros i H. lt2 H; [lra|]. replace (y 1%nat) with (2 * y 0%nat) by lra. replace (x 1%nat) with (2 * x 0%nat) by lra. ring.
Qed.
Example C44_example : exists p, stationary_solution (C44_w, C44_v) = Ok p /\ nth 0 p 0 = 1 / 3 /\ nth 1 p 0 = 2 / 3.
Proof.
  destruct (stationary_returned 2 C44_W C44_w C44_v ltac:(lia) C44_W_rate C44_eig_ok) as (p & E & L & S & U).
  exists p. split; [exact E|]. destruct (U C44_unique) as (S1 & _ & _). pose proof (S 0%nat ltac:(lia)) as S0. cbv -[Rplus Ropp Rmult IZR nth] in S0, S1. lra.
Qed.
(** With two absorbing states an admissible answer of the eigensolver sums to zero
    and the returned list is a division by zero. *)
Example C44_degenerate : rate_matrix 2 mzero /\ eig_ok 2 mzero [rcx 0; rcx 0] [[rcx 1; rcx (-1)]; [rcx 1; rcx 1]] /\
  stationary_solution ([rcx 0; rcx 0], [[rcx 1; rcx (-1)]; [rcx 1; rcx 1]]) = Ok [1 / (1 + (-1 + 0)); -1 / (1 + (-1 + 0))].
Proof.
  assert (RM : rate_matrix 2 mzero).
  { split; [intros i _; apply rsum_0; reflexivity|]. intros f i _ _. destruct (f =? i)%nat; unfold mzero; lra. }
  split; [exact RM|]. split.
  - split; [reflexivity|]. split.
    + intros j Hj. cbn [length] in Hj. lt2 Hj; cbn [nth]; (split; [reflexivity|]; split; [exists 0%nat; split; [lia|]; cbn; intros Q; injection Q; lra|]; split).
      all: try (intros f H; lt2 H; apply cx_eq; cbv -[Rplus Ropp Rmult Rminus IZR]; lra).
      all: intros _ i H; lt2 H; reflexivity.
    + intros x lam (i & Hi & NZ) E. left. f_equal. specialize (E i Hi). rewrite rsum_0 in E by (intros; unfold mzero; lra).
      symmetry in E. apply Rmult_integral in E. destruct E as [E|E]; [now symmetry|contradiction].
  - unfold stationary_solution. cbn [map argmin argmin_from]. unfold Rltb.
    destruct (Rlt_dec _ _) as [L|L]; [exfalso; lra|]. reflexivity.
Qed.

(** * C45: detailed balance *)
Theorem C45_fermi : forall E beta, 0 < nF E beta < 1 /\ nF (- E) beta = 1 - nF E beta.
Proof. intros E beta. split; [apply nF_bounds|apply nF_sym]. Qed.
Print Assumptions C45_fermi.
Theorem C45_bounds : forall g a beta mu x, gf_rate g a beta mu = Ok x -> length (g_v g) = length a /\ 0 <= x <= overlap (g_v g) a ^ 2.
Proof. intros g a beta mu x H. destruct (gf_rate_bounds _ _ _ _ _ H) as (y & E & B). apply dotv_overlap in E. destruct E as [L ->]. exact (conj L B). Qed.
Print Assumptions C45_bounds.
(** Adding the electron ([I] to [F]) over removing it again ([F] to [I]). *)
Theorem C45_balance : forall F I v E a beta mu x y,
  gf_rate (mkgfel Electron F I v E) a beta mu = Ok x -> gf_rate (mkgfel Hole I F v E) a beta mu = Ok y ->
  x = exp (- beta * (E - mu)) * y.
Proof.
  intros F I v E a beta mu x y. unfold gf_rate. cbn [g_v g_kind g_E]. destruct (dotv v a) as [z|]; [|discriminate]. cbn [bind].
  intros A B. injection A as <-. injection B as <-. rewrite (nF_ratio (E - mu)). replace (- (E - mu)) with (- E + mu) by ring. ring.
Qed.
Print Assumptions C45_balance.
(** The two directions together give the whole coupling. *)
Theorem C45_total : forall F I v E a beta mu x y,
  gf_rate (mkgfel Electron F I v E) a beta mu = Ok x -> gf_rate (mkgfel Hole I F v E) a beta mu = Ok y ->
  x + y = overlap v a ^ 2.
Proof.
  intros F I v E a beta mu x y. unfold gf_rate. cbn [g_v g_kind g_E]. destruct (dotv v a) as [z|] eqn:D; [|discriminate]. cbn [bind].
  intros A B. injection A as <-. injection B as <-. apply dotv_overlap in D. destruct D as [_ <-]. replace (- E + mu) with (- (E - mu)) by ring. rewrite nF_sym. ring.
Qed.
Print Assumptions C45_total.
(** The variant of sqtnl.py drops the tail: the symmetry fails beyond 100. *)
Theorem C45_cut_refuted : ~ (forall x, nF_cut (- x) = 1 - nF_cut x).
Proof.
  intros H. specialize (H 101). change (- (101)) with (-101) in H || (replace (- (101)) with (-101) in H by lra). unfold nF_cut, Rltb in H. destruct (Rlt_dec 100 (-101)); [lra|]. destruct (Rlt_dec 100 101); [|lra].
  pose proof (exp_pos (-101)) as P. assert (Q : 1 / (exp (-101) + 1) < 1).
  { apply (Rmult_lt_reg_r (exp (-101) + 1)); [lra|]. unfold Rdiv. rewrite Rmult_assoc, Rinv_l; lra. }
  lra.
Qed.
Print Assumptions C45_cut_refuted.
Theorem C45_cut : forall x, -100 <= x <= 100 -> nF_cut (- x) = 1 - nF_cut x.
Proof.
  intros x H. unfold nF_cut, Rltb. destruct (Rlt_dec 100 (- x)); [lra|]. destruct (Rlt_dec 100 x); [lra|].
  rewrite exp_Ropp. pose proof (exp_pos x). field. lra.
Qed.
Print Assumptions C45_cut.
Example C45_example : gf_rate (mkgfel Electron [1%nat] [0%nat] [3; 1] 2) [1; 2] 7 2 = Ok (25 / 2).
Proof.
  unfold gf_rate, dotv. cbn [g_v g_kind g_E length Nat.eqb combine map fold_right fst snd bind]. f_equal. unfold nF.
  replace (7 * (2 - 2)) with 0 by ring. rewrite exp_0. field.
Qed.

(** * C46: active sectors *)
Local Open Scope Z_scope.
Theorem C46_active : forall n ngs s, In s (find_active_sectors (Z.of_nat n) ngs) <-> active n ngs s.
Proof. exact active_iff. Qed.
Print Assumptions C46_active.
Theorem C46_neig : forall n ngs val, (forall g, In g ngs -> legal n g) ->
  exists neig, get_active_neig n ngs val = Ok neig /\ length neig = ((n + 1) * (n + 1))%nat /\
  forall s, legal n s -> exists k, get_sector_index (Z.of_nat n) (fst s) (snd s) = Ok (Z.of_nat k) /\
    (active n ngs s -> nth k neig 0 = val) /\ (~ active n ngs s -> nth k neig 0 = 0).
Proof. exact active_neig_ok. Qed.
Print Assumptions C46_neig.
Theorem C46_inverse : forall dn spin, (dn = 1 \/ dn = -1) -> (spin = 1 \/ spin = -1) ->
  getdns (fst (getdud dn spin)) (snd (getdud dn spin)) = Ok (dn, spin).
Proof. exact getdns_getdud. Qed.
Print Assumptions C46_inverse.
Theorem C46_inverse' : forall a b, Z.abs a + Z.abs b = 1 ->
  exists dn spin, getdns a b = Ok (dn, spin) /\ (dn = 1 \/ dn = -1) /\ (spin = 1 \/ spin = -1) /\ getdud dn spin = (a, b).
Proof. exact getdud_getdns. Qed.
Print Assumptions C46_inverse'.
Theorem C46_cotunnelling : forall ngs s, In s (co_active_sectors ngs) <-> co_active ngs s.
Proof. exact co_active_iff. Qed.
Print Assumptions C46_cotunnelling.
Theorem C46_cotunnelling_neig : forall n ngs val, (forall s, co_active ngs s -> legal n s) ->
  exists neig, co_active_neig n ngs val = Ok neig /\ length neig = ((n + 1) * (n + 1))%nat /\
  forall s, legal n s -> exists k, get_sector_index (Z.of_nat n) (fst s) (snd s) = Ok (Z.of_nat k) /\
    (co_active ngs s -> nth k neig 0 = val) /\ (~ co_active ngs s -> nth k neig 0 = 0).
Proof. exact co_neig_ok. Qed.
Print Assumptions C46_cotunnelling_neig.
(** A ground sector with an empty or full spin makes the cotunnelling request
    raise, although the sector itself is legal. *)
Theorem C46_cotunnelling_refuted : forall n ngs val g, In g ngs -> legal n g ->
  (fst g = 0 \/ fst g = Z.of_nat n \/ snd g = 0 \/ snd g = Z.of_nat n) -> co_active_neig n ngs val = Err ValueError.
Proof. exact co_neig_edge. Qed.
Print Assumptions C46_cotunnelling_refuted.
Example C46_example : get_active_neig 2 [(1, 1); (0, 1)] 5 = Ok [5; 5; 5; 5; 5; 5; 0; 5; 0].
Proof. reflexivity. Qed.
Example C46_co_example : co_active_neig 4 [(2, 2)] 3 = Ok [0; 0; 0; 3; 0; 0; 0; 3; 3; 3; 0; 3; 3; 3; 0; 3; 3; 3; 0; 0; 0; 3; 0; 0; 0].
Proof. cbv. reflexivity. Qed.
