From Coq Require Import Reals List Arith ZArith Bool Lia Lra Psatz.
From Verif Require Import Base RBase RLin CBase FitModel FitSpec FitProofs FitMoreProofs NrModel NrSpec.
Import ListNotations.
Local Open Scope R_scope.

Ltac dlt := unfold Rltb, Rleb, Reqb in *.

(** ** Bracketing *)
Section Bracket.
Variable f : R -> R.
Definition vals (s : bracket) : Prop := bfa s = f (bax s) /\ bfb s = f (bbx s) /\ bfc s = f (bcx s).
Definition dir (s : bracket) : Prop := 0 < (bbx s - bax s) * (bcx s - bbx s).
Definition inv (s : bracket) : Prop := vals s /\ bfb s <= bfa s /\ (bax s <> bbx s -> dir s).
Lemma dir_between s : dir s -> between (bax s) (bbx s) (bcx s).
Proof. unfold dir, between. intros H. destruct (Rlt_dec (bax s) (bbx s)); destruct (Rlt_dec (bbx s) (bcx s)); [left; lra| | |right]; nra. Qed.
Lemma dir_neq s : dir s -> bax s <> bbx s.
Proof. unfold dir. intros H E. rewrite E in H. nra. Qed.
Lemma sq_pos x : x <> 0 -> 0 < x * x.
Proof. nra. Qed.

Lemma between_dir (b u c : R) : 0 < (b - u) * (u - c) -> 0 < (u - b) * (c - u).
Proof. nra. Qed.
Lemma gold_dir (b c : R) : b <> c -> 0 < (c - b) * (c + GOLD * (c - b) - c).
Proof. intros H. assert (P : 0 < (c - b) * (c - b)) by (apply sq_pos; lra). unfold GOLD. nra. Qed.
Lemma start_inv ax bx : inv (mnbrak_start f ax bx) /\ bfb (mnbrak_start f ax bx) <= f ax /\ bfb (mnbrak_start f ax bx) <= f bx /\ (ax <> bx -> bax (mnbrak_start f ax bx) <> bbx (mnbrak_start f ax bx)).
Proof.
  unfold mnbrak_start, inv, vals, dir. dlt. destruct (Rlt_dec (f ax) (f bx)); cbn.
  - split; [split; [auto|]; split; [lra|]|split; [lra|]; split; [lra|]; intros H E; apply H; lra].
    intros H. apply gold_dir. exact H.
  - split; [split; [auto|]; split; [lra|]|split; [lra|]; split; [lra|]; auto].
    intros H. apply gold_dir. exact H.
Qed.

(** A round keeps the invariant and never raises the middle value. *)
Lemma round_ok s : inv s -> bfc s < bfb s ->
  match mnbrak_round f s with
  | inl s' => inv s' /\ bfb s' <= bfc s' /\ bfb s' <= bfb s /\ (bax s <> bbx s -> bax s' <> bbx s')
  | inr s' => inv s' /\ bfb s' < bfb s /\ (bax s <> bbx s -> bax s' <> bbx s')
  end.
Proof.
  intros ((VA & VB & VC) & LE & DI) LT.
  assert (NE : bbx s <> bcx s) by (intros E; rewrite VB, VC, E in LT; lra).
  destruct s as [ax bx cx fa fb fc]. cbn [bax bbx bcx bfa bfb bfc] in *. unfold mnbrak_round. set (u := parabolic _). clearbody u.
  unfold inv, vals, dir in *. cbn [bax bbx bcx bfa bfb bfc] in *. dlt.
  pose proof (sq_pos (cx - bx) ltac:(lra)) as SQ. pose proof (gold_dir bx cx NE) as GD.
  assert (GL : GLIMIT = 100) by reflexivity.
  destruct (Rlt_dec 0 ((bx - u) * (u - cx))) as [B1|B1].
  - destruct (Rlt_dec (f u) fc) as [C1|C1]; cbn.
    + assert (Q : 0 < (u - bx) * (cx - u)) by nra. repeat split; auto; try lra. intros _ E. rewrite E in Q. nra.
    + destruct (Rlt_dec fb (f u)) as [C2|C2]; cbn.
      * repeat split; auto; try lra. intros N. specialize (DI N). destruct (Rlt_dec bx cx); [assert (bx < u < cx) by (split; nra)|assert (cx < u < bx) by (split; nra)]; nra.
      * repeat split; auto; try lra.
  - destruct (Rlt_dec 0 ((cx - u) * (u - (bx + GLIMIT * (cx - bx))))) as [B2|B2].
    + assert (UC : 0 < (cx - bx) * (u - cx)) by (rewrite GL in B2; nra). assert (u <> cx) by (intros ->; nra).
      destruct (Rlt_dec (f u) fc) as [C1|C1]; cbn.
      * pose proof (gold_dir cx u ltac:(auto)). repeat split; auto; try lra.
      * repeat split; auto; try lra.
    + destruct (Rle_dec 0 ((u - (bx + GLIMIT * (cx - bx))) * (bx + GLIMIT * (cx - bx) - cx))) as [B3|B3]; cbn.
      * repeat split; auto; try lra. intros _. rewrite GL. nra.
      * repeat split; auto; try lra.
Qed.
Lemma loop_ok fuel : forall s s', inv s -> mnbrak_loop f fuel s = Ok s' ->
  inv s' /\ bfb s' <= bfc s' /\ bfb s' <= bfb s /\ (bax s <> bbx s -> bax s' <> bbx s').
Proof.
  induction fuel as [|fuel IH]; intros s s' I E; cbn [mnbrak_loop] in E; unfold Rltb in E; destruct (Rlt_dec (bfc s) (bfb s)) as [L|L]; try discriminate;
    try (injection E as <-; split; [exact I|]; split; [lra|]; split; [lra|auto]).
  pose proof (round_ok s I L) as Q. destruct (mnbrak_round f s) as [s1|s1].
  - injection E as <-. exact Q.
  - destruct Q as (I1 & L1 & N1). destruct (IH s1 s' I1 E) as (A & B & C & D). split; [exact A|]. split; [exact B|]. split; [lra|auto].
Qed.
Theorem mnbrak_bracket fuel ax bx s : mnbrak f fuel ax bx = Ok s ->
  bfa s = f (bax s) /\ bfb s = f (bbx s) /\ bfc s = f (bcx s) /\ bfb s <= bfa s /\ bfb s <= bfc s /\
  bfb s <= f ax /\ bfb s <= f bx /\ (ax <> bx -> between (bax s) (bbx s) (bcx s)).
Proof.
  intros E. destruct (start_inv ax bx) as (I & L1 & L2 & N). destruct (loop_ok fuel _ _ I E) as (((VA & VB & VC) & LE & DI) & B & C & D).
  repeat split; auto; try lra. intros NE. apply dir_between, DI. auto.
Qed.
Lemma loop_fuel f1 : forall f2 s s', (f1 <= f2)%nat -> mnbrak_loop f f1 s = Ok s' -> mnbrak_loop f f2 s = Ok s'.
Proof.
  induction f1 as [|f1 IH]; intros [|f2] s s' H E; cbn [mnbrak_loop] in *; destruct (Rltb (bfc s) (bfb s)); try discriminate; try exact E; try lia.
  destruct (mnbrak_round f s); [exact E|]. apply IH; [lia|exact E].
Qed.
Theorem mnbrak_fuel f1 f2 ax bx s : (f1 <= f2)%nat -> mnbrak f f1 ax bx = Ok s -> mnbrak f f2 ax bx = Ok s.
Proof. apply loop_fuel. Qed.

(** It runs for ever on a function that keeps decreasing. *)
Lemma round_dec s : decreasing_from f 0 -> vals s -> 0 <= bax s -> bax s < bbx s -> bbx s < bcx s ->
  exists s', mnbrak_round f s = inr s' /\ vals s' /\ 0 <= bax s' /\ bax s' < bbx s' /\ bbx s' < bcx s'.
Proof.
  intros DEC (VA & VB & VC) A0 AB BC. destruct s as [ax bx cx fa fb fc]. cbn [bax bbx bcx bfa bfb bfc] in *. unfold mnbrak_round. set (u := parabolic _). clearbody u. dlt.
  assert (GL : GLIMIT = 100) by reflexivity. assert (GO : 0 < GOLD) by (unfold GOLD; lra). assert (GB : 0 < GOLD * (cx - bx)) by nra.
  destruct (Rlt_dec 0 ((bx - u) * (u - cx))) as [B1|B1].
  - assert (bx < u /\ u < cx) as [U1 U2] by (split; nra).
    destruct (Rlt_dec (f u) fc) as [C1|C1]; [exfalso; pose proof (DEC u cx ltac:(lra) U2); lra|].
    destruct (Rlt_dec fb (f u)) as [C2|C2]; [exfalso; pose proof (DEC bx u ltac:(lra) U1); lra|].
    eexists. split; [reflexivity|]. unfold vals. cbn. repeat split; auto; lra.
  - destruct (Rlt_dec 0 ((cx - u) * (u - (bx + GLIMIT * (cx - bx))))) as [B2|B2].
    + assert (UC : cx < u) by (rewrite GL in B2; nra).
      destruct (Rlt_dec (f u) fc) as [C1|C1]; [|exfalso; pose proof (DEC cx u ltac:(lra) UC); lra].
      eexists. split; [reflexivity|]. unfold vals. cbn. repeat split; auto; try lra. assert (0 < GOLD * (u - cx)) by nra. lra.
    + destruct (Rle_dec 0 ((u - (bx + GLIMIT * (cx - bx))) * (bx + GLIMIT * (cx - bx) - cx))) as [B3|B3];
      (eexists; split; [reflexivity|]; unfold vals; cbn; repeat split; auto; try lra). all: try (rewrite GL; lra).
Qed.
Theorem mnbrak_diverges : decreasing_from f 0 -> forall fuel, mnbrak f fuel 0 1 = Err OutOfFuel.
Proof.
  intros DEC fuel. unfold mnbrak.
  assert (G : forall fuel s, vals s -> 0 <= bax s -> bax s < bbx s -> bbx s < bcx s -> mnbrak_loop f fuel s = Err OutOfFuel).
  { clear fuel. induction fuel as [|fuel IH]; intros s V A B C; cbn [mnbrak_loop]; unfold Rltb; destruct (Rlt_dec (bfc s) (bfb s)) as [L|L];
      try (exfalso; destruct V as (VA & VB & VC); rewrite VB, VC in L; apply L; apply DEC; lra); [reflexivity|].
    destruct (round_dec s DEC V A B C) as (s' & -> & V' & A' & B' & C'). now apply IH. }
  unfold mnbrak_start, Rltb. pose proof (DEC 0 1 ltac:(lra) ltac:(lra)). destruct (Rlt_dec (f 0) (f 1)); [lra|]. assert (0 < GOLD) by (unfold GOLD; lra).
  apply G; unfold vals; cbn; repeat split; auto; lra.
Qed.
End Bracket.

(** ** One-dimensional minimisation *)
Section Brent.
Variables (f df : R -> R) (tol : R).
Lemma dround_ok s bound : dfx s = f (dxx s) -> dfx s <= bound ->
  match dround f df tol s with
  | inl (x, v) => v = f x /\ v <= bound
  | inr s' => dfx s' = f (dxx s') /\ dfx s' <= bound
  end.
Proof.
  intros V B. unfold dround. destruct (Rleb _ _); [split; assumption|]. destruct (dstep tol s) as [d e].
  assert (U : forall u, dfx (dupdate s d e u (f u) (df u)) = f (dxx (dupdate s d e u (f u) (df u))) /\ dfx (dupdate s d e u (f u) (df u)) <= bound).
  { intros u. destruct s as [a b d' e' x fx dx w fw dw v fv dv]. cbn [dfx dxx] in *. unfold dupdate. destruct (Rleb (f u) fx) eqn:EL.
    - apply Rleb_spec in EL. destruct (Rleb x u); cbn; split; auto; lra.
    - destruct (Rltb u x); destruct (Rleb (f u) fw || Reqb w x); [|destruct (Rltb (f u) fv || Reqb v x || Reqb v w)| |destruct (Rltb (f u) fv || Reqb v x || Reqb v w)]; cbn; auto. }
  destruct (Rleb _ _); [apply U|]. destruct (Rltb _ _); [split; assumption|apply U].
Qed.
Lemma dloop_ok iters bound : forall s r, dfx s = f (dxx s) -> dfx s <= bound -> dloop f df tol iters s = Ok r -> snd r = f (fst r) /\ snd r <= bound.
Proof.
  induction iters as [|n IH]; intros s r V B E; cbn [dloop] in E; [discriminate|]. pose proof (dround_ok s bound V B) as Q.
  destruct (dround f df tol s) as [[x v]|s']; [injection E as <-; exact Q|]. destruct Q. eapply IH; eauto.
Qed.
Theorem dbrent_descends d0 ax bx cx xmin v : dbrent f df tol d0 ax bx cx = Ok (xmin, v) -> v = f xmin /\ v <= f bx.
Proof. intros E. apply (dloop_ok ITMAX (f bx) _ (xmin, v)) in E; [exact E|reflexivity|cbn; lra]. Qed.
Theorem dbrent_outcomes d0 ax bx cx : (exists r, dbrent f df tol d0 ax bx cx = Ok r) \/ dbrent f df tol d0 ax bx cx = Err NRError.
Proof.
  unfold dbrent. generalize (mkDb (if Rltb ax cx then ax else cx) (if Rltb cx ax then ax else cx) d0 0 bx (f bx) (df bx) bx (f bx) (df bx) bx (f bx) (df bx)). generalize ITMAX.
  induction n as [|n IH]; intros s; cbn [dloop]; [now right|]. destruct (dround f df tol s); [left; now eexists|apply IH].
Qed.
End Brent.

(** ** The optimiser *)
Section Many.
Variables (func : list R -> R) (dfunc : list R -> list R).
Lemma df1dim_dot p xi x : length p = length xi -> length (dfunc (along p xi x)) = length p ->
  df1dim dfunc p xi x = rsum (length p) (fun i => nth i (dfunc (along p xi x)) 0 * nth i xi 0).
Proof.
  intros L LD. unfold df1dim. set (g := dfunc (along p xi x)) in *. clearbody g. rewrite <- LD.
  assert (L' : length g = length xi) by congruence. clear - L'. revert xi L'.
  assert (A : forall (l : list (R * R)) c, fold_left (fun s q => s + fst q * snd q) l c = c + fold_left (fun s q => s + fst q * snd q) l 0).
  { induction l as [|q l IH]; intros c; cbn [fold_left]; [ring|]. rewrite (IH (c + _)), (IH (0 + _)). ring. }
  induction g as [|a g IH]; intros [|b xi] L; try discriminate; [reflexivity|]. cbn [combine fold_left length]. rewrite A, rsum_S_l. cbn [nth fst snd]. rewrite (IH xi) by (cbn in L; lia). ring.
Qed.
Lemma along_0 p xi : length p = length xi -> along p xi 0 = p.
Proof. revert xi. induction p as [|a p IH]; intros [|b xi] L; try discriminate; [reflexivity|]. unfold along in *. cbn. rewrite IH by (cbn in L; lia). f_equal. ring. Qed.
Lemma along_scaled p xi x : map (fun q : R * R => fst q + snd q) (combine p (map (fun y => y * x) xi)) = along p xi x.
Proof. revert xi. induction p as [|a p IH]; intros [|b xi]; try reflexivity. unfold along in *. cbn. rewrite IH. f_equal. ring. Qed.
Lemma along_length p xi x : length p = length xi -> length (along p xi x) = length p.
Proof. intros L. unfold along. rewrite map_length, combine_length. lia. Qed.
Theorem dlinmin_descends fuel d0 p xi p' xi' fret : length p = length xi -> dlinmin func dfunc fuel d0 p xi = Ok (p', xi', fret) ->
  fret = func p' /\ func p' <= func p /\ length p' = length p /\ exists t, p' = along p xi t.
Proof.
  intros L E. unfold dlinmin in E. destruct (mnbrak _ _ _ _) as [br|e] eqn:M; [|discriminate]. cbn [bind] in E.
  destruct (dbrent _ _ _ _ _ _ _) as [[xmin v]|e] eqn:D; [|discriminate]. cbn [bind] in E. injection E as <- <- <-.
  apply mnbrak_bracket in M. destruct M as (VA & VB & VC & _ & _ & L0 & _). apply dbrent_descends in D. destruct D as [D1 D2].
  rewrite along_scaled. unfold f1dim in *. rewrite along_0 in L0 by auto. split; [exact D1|]. split; [lra|]. split; [now apply along_length|now exists xmin].
Qed.
Variable dim : nat.
Hypothesis DL : forall p, length p = dim -> length (dfunc p) = dim.
Lemma frprmn_loop_ok fuel d0 iters : forall its p xi g h fp p' it fret, length p = dim -> length xi = dim -> length g = dim -> length h = dim -> fp = func p ->
  frprmn_loop func dfunc fuel d0 iters its p xi g h fp = Ok (p', it, fret) ->
  fret = func p' /\ func p' <= func p /\ length p' = dim /\ (its <= it < its + iters)%nat.
Proof.
  induction iters as [|iters IH]; intros its p xi g h fp p' it fret LP LX LG LH FP E; cbn [frprmn_loop] in E; [discriminate|].
  destruct (dlinmin func dfunc fuel d0 p xi) as [[[p1 xi1] fret1]|e] eqn:D; [|discriminate]. cbn [bind] in E.
  apply dlinmin_descends in D; [|lia]. destruct D as (D1 & D2 & D3 & _).
  destruct (Rleb _ _); [injection E as <- <- <-; repeat split; auto; lia|]. rewrite LP in D3. destruct (Reqb _ _); [injection E as <- <- <-; repeat split; auto; lia|].
  apply IH in E; [|..|exact D1].
  - destruct E as (E1 & E2 & E3 & E4). repeat split; auto; try lia; try lra.
  - exact D3.
  - rewrite map_length, combine_length, map_length, DL by exact D3. lia.
  - rewrite map_length, DL by exact D3. lia.
  - rewrite map_length, combine_length, map_length, DL by exact D3. lia.
Qed.
Lemma frprmn_n_descends n fuel d0 p p' it fret : length p = dim -> frprmn_n func dfunc n fuel d0 p = Ok (p', it, fret) ->
  fret = func p' /\ func p' <= func p /\ length p' = dim /\ (1 <= it <= n)%nat.
Proof.
  intros LP E. unfold frprmn_n in E. apply frprmn_loop_ok in E; try (rewrite map_length, DL; auto; fail); auto.
  destruct E as (E1 & E2 & E3 & E4). repeat split; auto; lia.
Qed.
Theorem frprmn_descends fuel d0 p p' it fret : length p = dim -> frprmn func dfunc fuel d0 p = Ok (p', it, fret) ->
  fret = func p' /\ func p' <= func p /\ length p' = dim /\ (1 <= it <= ITMAX)%nat.
Proof. exact (frprmn_n_descends ITMAX fuel d0 p p' it fret). Qed.
End Many.

(** ** The bracket update of dbrent loses the minimum *)
Lemma tol_small : TOL * Rabs 1 + ZEPS = 2 / 10 ^ 4 + 1 / 10 ^ 10.
Proof. unfold TOL, ZEPS. rewrite Rabs_R1. ring. Qed.
Theorem dbrent_loses d0 : dbrent (fun x => x * x) (fun x => 2 * x) TOL d0 (-10) 1 2 = Ok (1, 1).
Proof.
  unfold dbrent. assert (IT : ITMAX = S (S 1998)) by reflexivity. rewrite IT. clear IT. generalize 1998%nat as n. intros n.
  assert (A : (if Rltb (-10) 2 then -10 else 2) = -10) by (unfold Rltb; destruct (Rlt_dec _ _); lra). rewrite A.
  assert (B : (if Rltb 2 (-10) then -10 else 2) = 2) by (unfold Rltb; destruct (Rlt_dec _ _); lra). rewrite B. clear A B.
  set (t1 := 2 / 10 ^ 4 + 1 / 10 ^ 10). assert (T : 0 < t1 < 1 / 100) by (unfold t1; lra).
  cbn [dloop]. unfold dround at 1. cbn [dxx da db dfx]. rewrite tol_small. fold t1.
  replace (Rleb _ _) with false by (unfold Rleb; destruct (Rle_dec _ _) as [Q|Q]; [exfalso; rewrite Rabs_right in Q; lra|reflexivity]).
  unfold dstep at 1. rewrite tol_small. fold t1. rewrite Rabs_R0. replace (Rltb t1 0) with false by (unfold Rltb; destruct (Rlt_dec _ _); [lra|reflexivity]).
  replace (Rleb 0 (2 * 1)) with true by (unfold Rleb; destruct (Rle_dec _ _); [reflexivity|lra]).
  replace (1 / 2 * (-10 - 1)) with (-11 / 2) by field. replace (-10 - 1) with (-11) by ring.
  replace (Rleb t1 (Rabs (-11 / 2))) with true by (unfold Rleb; destruct (Rle_dec _ _) as [Q|Q]; [reflexivity|exfalso; apply Q; rewrite Rabs_left; lra]).
  replace (1 + -11 / 2) with (-9 / 2) by field. unfold dupdate at 1.
  replace (Rleb _ (1 * 1)) with false by (unfold Rleb; destruct (Rle_dec _ _); [lra|reflexivity]).
  replace (Rltb (-9 / 2) 1) with true by (unfold Rltb; destruct (Rlt_dec _ _); [reflexivity|lra]).
  replace (Reqb 1 1) with true by (unfold Reqb; destruct (Req_EM_T _ _); [reflexivity|lra]). cbn [orb].
  unfold dround at 1. cbn [dxx da db dfx]. rewrite tol_small. fold t1.
  replace (Rleb _ _) with false by (unfold Rleb; destruct (Rle_dec _ _) as [Q|Q]; [exfalso; rewrite Rabs_left in Q; lra|reflexivity]).
  unfold dstep at 1. rewrite tol_small. fold t1.
  replace (Rltb t1 (Rabs (-11))) with true by (unfold Rltb; destruct (Rlt_dec _ _) as [Q|Q]; [reflexivity|exfalso; apply Q; rewrite Rabs_left; lra]).
  replace (Reqb (2 * (-9 / 2)) (2 * 1)) with false by (unfold Reqb; destruct (Req_EM_T _ _); [lra|reflexivity]).
  replace (Reqb (2 * 1) (2 * 1)) with true by (unfold Reqb; destruct (Req_EM_T _ _); [reflexivity|lra]).
  replace ((-9 / 2 - 1) * (2 * 1) / (2 * 1 - 2 * (-9 / 2))) with (-1) by field.
  replace (Rltb 0 ((1 - (1 + -1)) * (1 + -1 - 2))) with false by (unfold Rltb; destruct (Rlt_dec _ _); [lra|reflexivity]).
  replace (Rltb 0 ((1 - (1 + 2 * (2 - 1))) * (1 + 2 * (2 - 1) - 2))) with false by (unfold Rltb; destruct (Rlt_dec _ _); [lra|reflexivity]).
  cbn [andb orb].
  replace (Rleb 0 (2 * 1)) with true by (unfold Rleb; destruct (Rle_dec _ _); [reflexivity|lra]).
  replace (1 / 2 * (1 - 1)) with 0 by field. rewrite Rabs_R0.
  replace (Rleb t1 0) with false by (unfold Rleb; destruct (Rle_dec _ _); [lra|reflexivity]).
  replace (Sign t1 0) with t1 by (unfold Sign, Rleb; destruct (Rle_dec _ _); [rewrite Rabs_right; lra|lra]).
  replace (Rltb (1 * 1) ((1 + t1) * (1 + t1))) with true by (unfold Rltb; destruct (Rlt_dec _ _) as [Q|Q]; [reflexivity|exfalso; nra]).
  f_equal. f_equal. ring.
Qed.
(** It can leave the interval it was given. *)
Theorem dbrent_outside d0 : exists x v, dbrent (fun x => x) (fun _ => 1) TOL d0 0 (1 / 2 / 10 ^ 10) 1 = Ok (x, v) /\ x < 0.
Proof.
  unfold dbrent. assert (IT : ITMAX = S (S 1998)) by reflexivity. rewrite IT. clear IT. generalize 1998%nat as n. intros n.
  assert (A : (if Rltb 0 1 then 0 else 1) = 0) by (unfold Rltb; destruct (Rlt_dec _ _); lra). rewrite A.
  assert (B : (if Rltb 1 0 then 0 else 1) = 1) by (unfold Rltb; destruct (Rlt_dec _ _); lra). rewrite B. clear A B.
  set (x0 := 1 / 2 / 10 ^ 10). assert (X0 : 0 < x0) by (unfold x0; lra).
  set (t1 := TOL * x0 + ZEPS). assert (T : 2 * x0 < t1 < 21 / 10 * x0) by (unfold t1, TOL, ZEPS, x0; lra).
  assert (TS : TOL * Rabs x0 + ZEPS = t1) by (rewrite Rabs_right by lra; reflexivity).
  assert (X1 : x0 < 1 / 1000) by (unfold x0; lra).
  cbn [dloop]. unfold dround at 1. cbn [dxx da db dfx]. rewrite TS.
  replace (Rleb _ _) with false by (unfold Rleb; destruct (Rle_dec _ _) as [Q|Q]; [exfalso; rewrite Rabs_left in Q; lra|reflexivity]).
  unfold dstep at 1. rewrite TS, Rabs_R0. replace (Rltb t1 0) with false by (unfold Rltb; destruct (Rlt_dec _ _); [lra|reflexivity]).
  replace (Rleb 0 1) with true by (unfold Rleb; destruct (Rle_dec _ _); [reflexivity|lra]).
  replace (Rleb t1 (Rabs (1 / 2 * (0 - x0)))) with false by (unfold Rleb; destruct (Rle_dec _ _) as [Q|Q]; [exfalso; rewrite Rabs_left in Q; lra|reflexivity]).
  replace (Sign t1 (1 / 2 * (0 - x0))) with (- t1) by (unfold Sign, Rleb; destruct (Rle_dec _ _); [lra|rewrite Rabs_right; lra]).
  replace (Rltb x0 (x0 + - t1)) with false by (unfold Rltb; destruct (Rlt_dec _ _); [lra|reflexivity]).
  unfold dupdate at 1. replace (Rleb (x0 + - t1) x0) with true by (unfold Rleb; destruct (Rle_dec _ _); [reflexivity|lra]).
  replace (Rleb x0 (x0 + - t1)) with false by (unfold Rleb; destruct (Rle_dec _ _); [lra|reflexivity]).
  set (x1 := x0 + - t1). assert (HX1 : - (11 / 10) * x0 < x1 < - x0) by (unfold x1; lra).
  assert (TZ : 2 * x0 < TOL * Rabs x1 + ZEPS). { rewrite Rabs_left by lra. assert (ZX : ZEPS = 2 * x0) by (unfold ZEPS, x0; field). assert (0 < TOL * - x1) by (apply Rmult_lt_0_compat; [unfold TOL|]; lra). lra. }
  unfold dround at 1. cbn [dxx da db dfx].
  replace (Rleb _ _) with true by (unfold Rleb; destruct (Rle_dec _ _) as [Q|Q]; [reflexivity|exfalso; apply Q; rewrite Rabs_left by lra; lra]).
  exists x1, x1. split; [reflexivity|lra].
Qed.

(** ** A run: (x - 1/2)^2 on a large background, from 0 *)
Ltac bt c := replace c with true by (unfold Rleb, Rltb, Reqb; match goal with |- _ = (if ?d then _ else _) => destruct d end; [reflexivity|lra]).
Ltac bf c := replace c with false by (unfold Rleb, Rltb, Reqb; match goal with |- _ = (if ?d then _ else _) => destruct d end; [lra|reflexivity]).
Section Run.
Variables (f df : R -> R) (K : R).
Hypothesis F : forall x, f x = K + (x - 1 / 2) * (x - 1 / 2).
Hypothesis DF : forall x, df x = 2 * x - 1.
Lemma run_mnbrak fuel : exists c fc, mnbrak f fuel 0 1 = Ok (mkBr 0 1 c (K + 1 / 4) (K + 1 / 4) fc) /\ c = 2618034 / 1000000.
Proof.
  unfold mnbrak, mnbrak_start. pose proof (F 0). pose proof (F 1). bf (Rltb (f 0) (f 1)).
  set (c := 1 + GOLD * (1 - 0)). assert (C : c = 2618034 / 1000000) by (unfold c, GOLD; field).
  exists c, (f c). split; [|exact C].
  assert (E : forall s, bfb s <= bfc s -> mnbrak_loop f fuel s = Ok s).
  { intros s LE. destruct fuel; cbn [mnbrak_loop]; (replace (Rltb (bfc s) (bfb s)) with false by (unfold Rltb; destruct (Rlt_dec _ _); [lra|reflexivity])); reflexivity. }
  rewrite E; cbn [bfb bfc].
  - f_equal. f_equal; rewrite F; field.
  - rewrite !F, C. lra.
Qed.
Lemma run_dbrent d0 c : c = 2618034 / 1000000 -> dbrent f df TOL d0 0 1 c = Ok (1 / 2, K).
Proof.
  intros C. unfold dbrent. assert (IT : ITMAX = S (S 1998)) by reflexivity. rewrite IT. clear IT. generalize 1998%nat as n. intros n.
  bt (Rltb 0 c). bf (Rltb c 0). cbv iota.
  assert (TS : TOL * Rabs 1 + ZEPS = 2 / 10 ^ 4 + 1 / 10 ^ 10) by apply tol_small.
  set (t1 := 2 / 10 ^ 4 + 1 / 10 ^ 10) in *. assert (T : 0 < t1 < 1 / 100) by (unfold t1; lra).
  assert (TH : TOL * Rabs (1 / 2) + ZEPS = 1 / 10 ^ 4 + 1 / 10 ^ 10) by (unfold TOL, ZEPS; rewrite Rabs_right by lra; field).
  set (t2 := 1 / 10 ^ 4 + 1 / 10 ^ 10) in *. assert (T2 : 0 < t2 < 1 / 100) by (unfold t2; lra).
  assert (F1 : f 1 = K + 1 / 4) by (rewrite F; field). assert (D1 : df 1 = 1) by (rewrite DF; ring).
  rewrite F1, D1. cbn [dloop]. unfold dround at 1. cbn [dxx da db dfx]. rewrite TS.
  replace (Rleb _ _) with false by (unfold Rleb; destruct (Rle_dec _ _) as [Q|Q]; [exfalso; rewrite Rabs_left in Q; lra|reflexivity]).
  unfold dstep at 1. rewrite TS, Rabs_R0. bf (Rltb t1 0). bt (Rleb 0 1). cbv iota.
  replace (1 / 2 * (0 - 1)) with (- (1 / 2)) by field. replace (0 - 1) with (-1) by ring.
  replace (Rabs (- (1 / 2))) with (1 / 2) by (rewrite Rabs_left; lra). bt (Rleb t1 (1 / 2)). cbv iota.
  replace (1 + - (1 / 2)) with (1 / 2) by field.
  assert (F2 : f (1 / 2) = K) by (rewrite F; field). assert (D2 : df (1 / 2) = 0) by (rewrite DF; field). rewrite F2, D2.
  unfold dupdate at 1. bt (Rleb K (K + 1 / 4)). bf (Rleb 1 (1 / 2)). cbv iota.
  unfold dround at 1. cbn [dxx da db dfx]. rewrite TH.
  replace (Rleb _ _) with false by (unfold Rleb; destruct (Rle_dec _ _) as [Q|Q]; [exfalso|reflexivity]; match type of Q with Rabs ?x <= _ => pose proof (Rabs_pos x) end; lra).
  unfold dstep at 1. rewrite TH. replace (Rabs (-1)) with 1 by (rewrite Rabs_left; lra). bt (Rltb t2 1). bf (Reqb 1 0). cbv iota.
  replace ((1 - 1 / 2) * 0 / (0 - 1)) with 0 by field.
  bt (Rltb 0 ((0 - (1 / 2 + 0)) * (1 / 2 + 0 - 1))). bt (Rleb (0 * 0) 0). cbn [andb orb]. rewrite Rabs_R0. bf (Rltb 0 0). cbv iota.
  rewrite ?Rabs_R0. match goal with |- context [Rleb 0 (Rabs ?y)] => replace (Rleb 0 (Rabs y)) with true by (symmetry; apply Rleb_spec; apply Rabs_pos) end. cbv iota.
  bf (Rltb (1 / 2 + 0 - 0) (2 * t2)). bf (Rltb (1 - (1 / 2 + 0)) (2 * t2)). cbn [orb]. rewrite Rabs_R0. bf (Rleb t2 0). cbv iota.
  replace (Sign t2 0) with t2 by (unfold Sign, Rleb; destruct (Rle_dec _ _); [rewrite Rabs_right; lra|lra]).
  replace (Rltb K (f (1 / 2 + t2))) with true; [reflexivity|]. unfold Rltb. destruct (Rlt_dec _ _) as [Q|Q]; [reflexivity|]. exfalso. apply Q. rewrite F. nra.
Qed.
End Run.
Definition run_f (p : list R) : R := let x := nth 0 p 0 in 10 ^ 6 + (x - 1 / 2) * (x - 1 / 2).
Definition run_df (p : list R) : list R := map (fun x => 2 * x - 1) p.
Lemma run_frprmn fuel d0 : frprmn run_f run_df fuel d0 [0] = Ok ([1 / 2], 1%nat, 10 ^ 6).
Proof.
  unfold frprmn, frprmn_n. assert (IT : ITMAX = S 1999) by reflexivity. rewrite IT. clear IT. generalize 1999%nat as n. intros n.
  assert (X : map Ropp (run_df [0]) = [1]) by (cbn; f_equal; ring). rewrite X. cbn [frprmn_loop].
  assert (D : dlinmin run_f run_df fuel d0 [0] [1] = Ok ([1 / 2], [1 / 2], 10 ^ 6)).
  { unfold dlinmin.
    assert (F : forall x, f1dim run_f [0] [1] x = 10 ^ 6 + (x - 1 / 2) * (x - 1 / 2)) by (intros x; unfold f1dim, along, run_f; cbn [nth map combine fst snd]; ring).
    assert (DF : forall x, df1dim run_df [0] [1] x = 2 * x - 1) by (intros x; unfold df1dim, along, run_df; cbn [fold_left map combine fst snd]; ring).
    destruct (run_mnbrak _ _ F fuel) as (c & fc & -> & C). cbn [bind bax bbx bcx].
    rewrite (run_dbrent _ _ _ F DF d0 c C). cbn [bind map combine fst snd]. do 3 f_equal; f_equal; field. }
  rewrite D. cbn [bind].
  replace (Rleb _ _) with true; [reflexivity|]. symmetry. apply Rleb_spec. unfold run_f, FTOL, EPS. cbn [nth].
  rewrite (Rabs_left (10 ^ 6 - _)) by lra. rewrite !Rabs_right by lra. lra.
Qed.

(** ** fit.c *)
Lemma c_dchi2_length m z vals mem x : length (c_dchi2 m z vals mem x) = (2 * m)%nat.
Proof.
  unfold c_dchi2. rewrite map_length.
  assert (G : forall (g : nat -> nat -> R -> R) l ks dx, length (fold_left (fun dx i => fold_left (fun dx k => modify dx k (g i k)) ks dx) l dx) = length dx).
  { intros g l ks. induction l as [|i l IH]; intros dx; [reflexivity|]. cbn. rewrite IH. clear. revert dx. induction ks as [|k ks IH]; intros dx; [reflexivity|]. cbn. rewrite IH. apply modify_length. }
  cbv zeta. rewrite (G (fun i k y => y + (re (nth k (c_ddelta1 m x (nth i z (rcx 0)) (nth i mem [])) (rcx 0)) * re (cxsub (nth i vals (rcx 0)) (c_delta1 m x (nth i z (rcx 0)))) + im (nth k (c_ddelta1 m x (nth i z (rcx 0)) (nth i mem [])) (rcx 0)) * im (cxsub (nth i vals (rcx 0)) (c_delta1 m x (nth i z (rcx 0))))))).
  apply repeat_length.
Qed.
Lemma c_fit_with_descends opt m nmats vals beta mem x x' it fret :
  (forall f df p p' it fret, (forall p, length p = (2 * m)%nat -> length (df p) = (2 * m)%nat) -> length p = (2 * m)%nat -> opt f df p = Ok (p', it, fret) ->
    fret = f p' /\ f p' <= f p /\ length p' = (2 * m)%nat) ->
  length x = (2 * m)%nat -> length vals = nmats ->
  c_fit_with opt m nmats vals beta mem x = Ok (x', it, fret) ->
  let mis := fun x : list R => misfit nmats m (fun i => nth i (matsubara nmats beta) (rcx 0)) (fun i => nth i vals (rcx 0)) (fun k => nth k x 0) (fun k => nth (m + k) x 0) in
  length x' = (2 * m)%nat /\ fret = mis x' /\ mis x' <= mis x.
Proof.
  intros OPT L LV E mis. unfold c_fit_with in E. apply OPT in E; [|intros p _; apply c_dchi2_length|exact L].
  destruct E as (E1 & E2 & E3). assert (LZ : length (matsubara nmats beta) = nmats) by (unfold matsubara; rewrite map_length, seq_length; reflexivity).
  assert (M : forall p, length p = (2 * m)%nat -> c_chi2 m (matsubara nmats beta) vals p = mis p).
  { intros p LP. rewrite c_chi2_eq by congruence. rewrite (chi2_misfit m) by congruence. rewrite LZ. reflexivity. }
  split; [exact E3|]. rewrite !M in * by assumption. now split.
Qed.
Lemma frprmn_as_opt dim fuel d0 f df p p' it fret : (forall p, length p = dim -> length (df p) = dim) -> length p = dim -> frprmn f df fuel d0 p = Ok (p', it, fret) ->
    fret = f p' /\ f p' <= f p /\ length p' = dim.
Proof. intros D L E. destruct (frprmn_descends f df dim D fuel d0 p p' it fret L E) as (A & B & C & _). auto. Qed.
Theorem c_fit_descends fuel d0 m nmats vals beta mem x x' it fret : length x = (2 * m)%nat -> length vals = nmats ->
  c_fit fuel d0 m nmats vals beta mem x = Ok (x', it, fret) ->
  let mis := fun x : list R => misfit nmats m (fun i => nth i (matsubara nmats beta) (rcx 0)) (fun i => nth i vals (rcx 0)) (fun k => nth k x 0) (fun k => nth (m + k) x 0) in
  length x' = (2 * m)%nat /\ fret = mis x' /\ mis x' <= mis x.
Proof. exact (c_fit_with_descends (fun f df => frprmn f df fuel d0) m nmats vals beta mem x x' it fret (frprmn_as_opt (2 * m) fuel d0)). Qed.
