(** C120: symmetries of the bath fit (edpyt_backend/fit.c, frprmn.c, bath.c). *)
From Coq Require Import Reals List Arith ZArith Bool Lia Lra Psatz.
From Verif Require Import Base RBase RLin CBase FitModel FitSpec FitProofs FitMoreProofs FitProps NrModel NrSpec NrProofs SymSpec SymProofs SymFixProofs.
Import ListNotations.
Local Open Scope R_scope.

(** The optimiser commutes with permutations of the parameters with signs. *)
Theorem C120_optimiser dim pi s func func' dfunc dfunc' fuel d0 p : renumbering dim pi -> (forall k, (k < dim)%nat -> is_sign (s k)) ->
  (forall p, length p = dim -> func' (signed_perm dim pi s p) = func p) -> (forall p, length p = dim -> dfunc' (signed_perm dim pi s p) = signed_perm dim pi s (dfunc p)) ->
  (forall p, length p = dim -> length (dfunc p) = dim) -> length p = dim ->
  frprmn func' dfunc' fuel d0 (signed_perm dim pi s p) = match frprmn func dfunc fuel d0 p with Ok (x, it, v) => Ok (signed_perm dim pi s x, it, v) | Err e => Err e end.
Proof. exact (fun HP HS HF HD LD L => S_frprmn dim pi s HP HS func func' dfunc dfunc' HF HD LD ITMAX fuel d0 p L). Qed.
(** The fit: levels renumbered, signs of couplings changed, electrons and holes exchanged. *)
Theorem C120_fit m mu sg ep nmats beta vals fuel d0 mem mem' x : is_sign mu -> renumbering m sg -> (forall k, (k < m)%nat -> is_sign (ep k)) -> length vals = nmats ->
  length mem = nmats -> length mem' = nmats -> (forall row, In row mem -> length row = (2 * m)%nat) -> (forall row, In row mem' -> length row = (2 * m)%nat) -> length x = (2 * m)%nat ->
  c_fit fuel d0 m nmats (map (reflect mu) vals) beta mem' (relabel m mu sg ep x) =
  match c_fit fuel d0 m nmats vals beta mem x with Ok (x', it, v) => Ok (relabel m mu sg ep x', it, v) | Err e => Err e end.
Proof. exact (fun a b c d => fit_T m mu sg ep a b c nmats beta vals d fuel d0 mem mem' x). Qed.
(** A symmetric target and a symmetric start: a symmetric result. *)
Theorem C120_symmetric fuel d0 m nmats vals beta mem x x' it v : length vals = nmats -> length mem = nmats -> (forall row, In row mem -> length row = (2 * m)%nat) -> length x = (2 * m)%nat ->
  (forall d, In d vals -> re d = 0) -> mirror_symmetric m x -> c_fit fuel d0 m nmats vals beta mem x = Ok (x', it, v) -> length x' = (2 * m)%nat /\ mirror_symmetric m x'.
Proof. exact (fit_symmetric fuel d0 m nmats vals beta mem x x' it v). Qed.
(** This is so for the fit from the initial bath with two or more levels: the middle one of an
    odd number stays at 0, and the fitted hybridisation is imaginary on the imaginary axis. *)
Theorem C120_initial fuel d0 m B p x nmats vals beta mem x' it v : (2 <= m)%nat -> get_initial_bath None (Some m) B = Ok p -> written p x ->
  length vals = nmats -> length mem = nmats -> (forall row, In row mem -> length row = (2 * m)%nat) -> (forall d, In d vals -> re d = 0) ->
  c_fit fuel d0 m nmats vals beta mem x = Ok (x', it, v) ->
  mirror_symmetric m x' /\ (Nat.odd m = true -> nth (m / 2) x' 0 = 0) /\ forall w, re (hyb m (fun k => nth k x' 0) (fun k => nth (m + k) x' 0) (0, w)) = 0.
Proof.
  intros Hm HG HW LV LM ROW RE E. destruct (C50_initial_bath m B ltac:(lia)) as (p0 & x0 & G0 & W0 & L0 & CP & _ & SY & _). rewrite G0 in HG. injection HG as <-.
  assert (x0 = x) by (unfold written in *; apply map_Some_inj; congruence). subst x0.
  assert (SYM : mirror_symmetric m x). { intros k Hk. split; [now apply SY|]. rewrite (proj1 (CP k Hk)), (proj1 (CP (m - 1 - k)%nat ltac:(lia))). reflexivity. }
  destruct (C120_symmetric _ _ _ _ _ _ _ _ _ _ _ LV LM ROW L0 RE SYM E) as [L' S']. split; [exact S'|]. split.
  - intros O1. destruct (S' (m / 2)%nat) as [Q _]; [apply Nat.div_lt; lia|]. assert (M : (m - 1 - m / 2 = m / 2)%nat) by (pose proof (odd_half m O1); lia). rewrite M in Q. lra.
  - intros w. now apply symmetric_hyb.
Qed.
(** One level starts at +B: not symmetric. *)
Theorem C120_one_refuted B p x : B <> 0 -> get_initial_bath None (Some 1%nat) B = Ok p -> written p x -> ~ mirror_symmetric 1 x.
Proof.
  intros HB HG HW S'. destruct (C50_initial_bath 1 B ltac:(lia)) as (p0 & x0 & G0 & W0 & _ & _ & ONE & _). rewrite G0 in HG. injection HG as <-.
  assert (x0 = x) by (unfold written in *; apply map_Some_inj; congruence). subst x0. destruct (S' 0%nat ltac:(lia)) as [Q _]. cbn [Nat.sub] in Q. rewrite (ONE eq_refl) in Q. lra.
Qed.
(** A point with vanishing gradient is returned unchanged, in one iteration. *)
Theorem C120_stationary func dfunc fuel d0 p : length (dfunc p) = length p -> (forall y, In y (dfunc p) -> y = 0) -> frprmn func dfunc fuel d0 p = Ok (p, 1%nat, func p).
Proof. exact (stationary func dfunc fuel d0 p). Qed.
Theorem C120_exact_fit fuel d0 m nmats vals beta mem x : length x = (2 * m)%nat -> length vals = nmats -> length mem = nmats -> (forall row, In row mem -> length row = (2 * m)%nat) ->
  (forall i, (i < nmats)%nat -> nth i vals (rcx 0) = hyb m (fun k => nth k x 0) (fun k => nth (m + k) x 0) (nth i (matsubara nmats beta) (rcx 0))) ->
  c_fit fuel d0 m nmats vals beta mem x = Ok (x, 1%nat, 0).
Proof. exact (exact_fit fuel d0 m nmats vals beta mem x). Qed.

(** The run of C54 (from 0 to 1/2), mirrored. *)
Example C120_ex_run fuel d0 : frprmn (fun p => run_f [- nth 0 p 0]) (fun p => [- nth 0 (run_df [- nth 0 p 0]) 0]) fuel d0 [-1 * 0] = Ok ([-1 * (1 / 2)], 1%nat, 10 ^ 6).
Proof.
  pose proof (C120_optimiser 1 (fun k => k) (fun _ => -1) run_f (fun p => run_f [- nth 0 p 0]) run_df (fun p => [- nth 0 (run_df [- nth 0 p 0]) 0]) fuel d0 [0]) as H.
  rewrite run_frprmn in H. apply H; clear H.
  - split; intros; assumption.
  - intros. right. reflexivity.
  - intros p L. destruct p as [|a [|? ?]]; try discriminate. cbn [signed_perm seq map nth]. do 2 f_equal. ring.
  - intros p L. destruct p as [|a [|? ?]]; try discriminate. unfold signed_perm. cbn [seq map nth]. replace (- (-1 * a)) with a by ring. f_equal. ring.
  - intros p L. destruct p as [|a [|? ?]]; try discriminate. reflexivity.
  - reflexivity.
Qed.
(** Three levels -1, 0, 1 with couplings 1/2, 1, 1/2, fitted to their own hybridisation; and
    with the outer levels exchanged and a coupling negative. *)
Definition ex_bath : list R := [-1; 0; 1; 1 / 2; 1; 1 / 2].
Definition ex_vals : list cx := map (hyb 3 (fun k => nth k ex_bath 0) (fun k => nth (3 + k) ex_bath 0)) (matsubara 4 10).
Definition ex_mem : list (list cx) := repeat (repeat (rcx 0) 6) 4.
Example C120_ex_symmetric : mirror_symmetric 3 ex_bath /\ c_fit 0 0 3 4 ex_vals 10 ex_mem ex_bath = Ok (ex_bath, 1%nat, 0) /\ (forall d, In d ex_vals -> re d = 0) /\
  c_fit 0 0 3 4 ex_vals 10 ex_mem (relabel 3 1 (fun k => 2 - k)%nat (fun k => if (k =? 0)%nat then -1 else 1) ex_bath) = Ok ([1 * 1; 1 * 0; 1 * -1; -1 * (1 / 2); 1 * 1; 1 * (1 / 2)], 1%nat, 0).
Proof.
  assert (SY : mirror_symmetric 3 ex_bath) by (intros k Hk; assert (k = 0 \/ k = 1 \/ k = 2)%nat as [->|[->| ->]] by lia; cbn; split; lra).
  assert (ROW : forall row, In row ex_mem -> length row = (2 * 3)%nat) by (intros row Hr; apply repeat_spec in Hr; now subst row).
  assert (E : c_fit 0 0 3 4 ex_vals 10 ex_mem ex_bath = Ok (ex_bath, 1%nat, 0)).
  { apply C120_exact_fit; auto. intros i Hi. unfold ex_vals. rewrite (nth_map_lt _ _ _ _ (rcx 0)) by (unfold matsubara; rewrite map_length, seq_length; exact Hi). reflexivity. }
  split; [exact SY|]. split; [exact E|]. split.
  - intros d Hd. unfold ex_vals, matsubara in Hd. rewrite map_map in Hd. apply in_map_iff in Hd. destruct Hd as (i & <- & _). now apply symmetric_hyb.
  - pose proof (C120_fit 3 1 (fun k => 2 - k)%nat (fun k => if (k =? 0)%nat then -1 else 1) 4 10 ex_vals 0 0 ex_mem ex_mem ex_bath) as H.
    replace (map (reflect 1) ex_vals) with ex_vals in H by (rewrite <- (map_id ex_vals) at 1; apply map_ext; intros; symmetry; apply reflect_1).
    rewrite H; auto.
    + rewrite E. reflexivity.
    + left. reflexivity.
    + split; intros; lia.
    + intros k _. destruct (k =? 0)%nat; [right|left]; reflexivity.
Qed.

Print Assumptions C120_optimiser.
Print Assumptions C120_fit.
Print Assumptions C120_symmetric.
Print Assumptions C120_initial.
Print Assumptions C120_one_refuted.
Print Assumptions C120_stationary.
Print Assumptions C120_exact_fit.
