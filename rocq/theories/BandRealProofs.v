(** The band Lanczos method over the real numbers. *)
From Coq Require Import Reals Lra Psatz List Arith ZArith Bool Lia.
From Verif Require Import Base RBase RLin SpectralProofs LanczosModel LanczosSpec LanczosProofs LanczosOrthoProofs BandModel BandSpec BandLoopProofs BandProofs BandRunProofs BandGsProofs.
Import ListNotations.
Local Open Scope R_scope.

Definition below (delta x : R) : bool := if Rlt_dec (Rabs x) delta then true else false.
(** Length of a vector. *)
Definition rlen (d : nat) (e : nat -> R) : R := sqrt (rsum d (fun i => e i * e i)).

Lemma sqrt_ip d (x : list R) : sqrt (@ip RField d x x) * sqrt (@ip RField d x x) = @ip RField d x x.
Proof. apply sqrt_sqrt. exact (dot_nonneg d (fun i => nth i x 0)). Qed.
Lemma below_0 delta : 0 < delta -> below delta 0 = true.
Proof. intros H. unfold below. rewrite Rabs_R0. destruct (Rlt_dec 0 delta); [reflexivity|lra]. Qed.
Lemma below_len delta d (r : list R) : below delta (sqrt (@ip RField d r r)) = true -> rlen d (fun i => nth i r 0) < delta.
Proof.
  unfold below. destruct (Rlt_dec _ _) as [H|]; [|discriminate]. intros _. rewrite Rabs_pos_eq in H by apply sqrt_pos. exact H.
Qed.

(** Cauchy-Schwarz and the length of a sum. *)
Lemma rlen_nonneg d e : 0 <= rlen d e.
Proof. apply sqrt_pos. Qed.
Lemma rlen_sq d e : rlen d e * rlen d e = rsum d (fun i => e i * e i).
Proof. apply sqrt_sqrt. exact (dot_nonneg d e). Qed.
Lemma rdot_le d e f : Rabs (rsum d (fun i => e i * f i)) <= rlen d e * rlen d f.
Proof.
  apply Rsqr_incr_0_var; [|apply Rmult_le_pos; apply rlen_nonneg].
  rewrite <- Rsqr_abs. pose proof (cauchy d e f) as Q. unfold SpectralProofs.dot in Q. unfold Rsqr. rewrite <- (rlen_sq d e), <- (rlen_sq d f) in Q. eapply Rle_trans; [exact Q|]. right. ring.
Qed.
Lemma rlen_sum d n (y : nat -> R) (e : nat -> nat -> R) delta : (forall k, (k < n)%nat -> rlen d (e k) <= delta) ->
  rlen d (fun i => rsum n (fun k => y k * e k i)) <= delta * rsum n (fun k => Rabs (y k)).
Proof.
  intros H. induction n as [|n IH].
  - unfold rlen. rewrite rsum_0 by (intros; rewrite rsum_0 by (intros; lia); ring). rewrite sqrt_0, rsum_0 by (intros; lia). lra.
  - set (f := fun i => rsum n (fun k => y k * e k i)) in *. set (g := fun i => y n * e n i).
    assert (Hf : rlen d f <= delta * rsum n (fun k => Rabs (y k))) by (apply IH; intros; apply H; lia).
    assert (Hg : rlen d g <= delta * Rabs (y n)).
    { assert (E : rlen d g * rlen d g = (Rabs (y n) * rlen d (e n)) * (Rabs (y n) * rlen d (e n))).
      { rewrite rlen_sq. unfold g. rewrite (rsum_ext d _ (fun i => y n * y n * (e n i * e n i))) by (intros; ring). rewrite rsum_scal_l, <- (rlen_sq d (e n)).
        assert (A : Rabs (y n) * Rabs (y n) = y n * y n) by (unfold Rabs; destruct (Rcase_abs (y n)); ring). nra. }
      assert (G : rlen d g = Rabs (y n) * rlen d (e n)).
      { apply Rsqr_inj; [apply rlen_nonneg|apply Rmult_le_pos; [apply Rabs_pos|apply rlen_nonneg]|exact E]. }
      rewrite G. specialize (H n (Nat.lt_succ_diag_r n)). pose proof (Rabs_pos (y n)). nra. }
    assert (HS : rlen d (fun i => rsum (S n) (fun k => y k * e k i)) <= rlen d f + rlen d g).
    { apply Rsqr_incr_0_var; [|pose proof (rlen_nonneg d f); pose proof (rlen_nonneg d g); lra]. unfold Rsqr. rewrite rlen_sq.
      rewrite (rsum_ext d _ (fun i => f i * f i + (2 * (f i * g i) + g i * g i))) by (intros i _; rewrite rsum_S; unfold f, g; ring).
      rewrite rsum_add, rsum_add, rsum_scal_l, <- (rlen_sq d f), <- (rlen_sq d g). pose proof (rdot_le d f g) as Q. pose proof (Rle_abs (rsum d (fun i => f i * g i))). nra. }
    rewrite rsum_S. lra.
Qed.
(** Removing the projection on an orthonormal family does not lengthen a vector. *)
Lemma rlen_proj d (V : list (list R)) (r : list R) : @orthonormal_rows RField d V ->
  rlen d (fun i => nth i r 0 - @comb RField V (fun m => @ip RField d (nth m V []) r) i) <= rlen d (fun i => nth i r 0).
Proof.
  intros ON. set (c := fun m => @ip RField d (nth m V []) r). set (P := @comb RField V c).
  assert (A : rsum d (fun i => nth i r 0 * P i) = rsum (length V) (fun m => c m * c m)).
  { etransitivity; [exact (nsum_comb RField d r V c)|]. apply rsum_ext. intros m _. apply f_equal. exact (ip_comm RField d r (nth m V [])). }
  assert (B : rsum d (fun i => P i * P i) = rsum (length V) (fun m => c m * c m)).
  { rewrite (rsum_ext d _ (fun i => rsum (length V) (fun m => c m * (nth i (nth m V []) 0 * P i)))).
    - rewrite rsum_swap. apply rsum_ext. intros m Hm. rewrite rsum_scal_l. f_equal. exact (nsum_comb_on RField d V c m ON Hm).
    - intros i _. unfold P at 1. unfold comb. change (@nsum (fring RField)) with rsum. rewrite <- rsum_scal_r. apply rsum_ext. intros m _. exact (Rmult_assoc (c m) (nth i (nth m V []) 0) (P i)). }
  apply sqrt_le_1_alt. rewrite (rsum_ext d _ (fun i => nth i r 0 * nth i r 0 - 2 * (nth i r 0 * P i) + P i * P i)) by (intros; ring).
  rewrite rsum_add, rsum_sub, rsum_scal_l, A, B. assert (0 <= rsum (length V) (fun m => c m * c m)) by (apply rsum_nonneg; intros; nra). lra.
Qed.

Section Real.
Variables (E : Type) (egs : list (list R) -> res E) (close : option E -> E -> bool).
Variables (d : nat) (mvf : list R -> res (list R)) (delta : R) (maxn ND : nat) (phi0 : list (list R)).
Hypothesis Hmv : @symmetric_op RField d mvf.
Hypothesis Hd : 0 < delta.
Hypothesis Hphi : forall x, In x phi0 -> length x = d.
Notation run := (build_bd_tridiag RField sqrt E (below delta) egs close mvf maxn ND phi0).

Lemma real_projection s : run = Ok s -> (b_n RField E s + length phi0 <= maxn)%nat ->
  exists vs, @orthonormal_rows RField d vs /\ length vs = b_n RField E s /\ @matrix_of RField d mvf vs (ret_T RField E s) /\ (b_n RField E s <= d)%nat /\
    (b_Lc RField E s = O ->
      (forall x, In x phi0 -> exists c e, (forall i, (i < d)%nat -> nth i x 0 = @comb RField vs c i + e i) /\ rlen d e < delta) /\
      forall (y : nat -> R) (x : list R), length x = d -> (forall i, (i < d)%nat -> nth i x 0 = @comb RField vs y i) ->
        exists X, mvf x = Ok X /\ rlen d (fun i => nth i X 0 - @comb RField vs (fun m => rsum (length vs) (fun k => @ent RField (ret_T RField E s) m k * y k)) i) <= delta * rsum (length vs) (fun k => Rabs (y k))).
Proof.
  intros Q HM. destruct (bd_inv RField sqrt E (below delta) egs close d mvf maxn ND phi0 Hmv (fun x _ => sqrt_ip d x) (below_0 delta Hd) s Hphi Q HM) as (vk & vl & V & H).
  destruct (bd_matrix RField sqrt E (below delta) d mvf maxn phi0 Hmv s vk vl V H) as (ON & LV & MX).
  exists V. split; [exact ON|]. split; [exact LV|]. split; [exact MX|]. split.
  { rewrite <- LV. apply (orthonormal_dim d (length V) (fun j i => nth i (nth j V []) 0)). intros j k Hj Hk. exact (proj2 ON j k Hj Hk). }
  intros HC. destruct (bd_exhaust RField sqrt E (below delta) d mvf maxn phi0 s vk vl V H HC) as [HA HB]. split.
  - intros x Hx. destruct (HA x Hx) as (c & [G|(r & Lr & Tr & G)]).
    + exists c, (fun _ => 0). split; [intros i Hi; rewrite Rplus_0_r; exact (G i Hi)|]. unfold rlen. rewrite rsum_0 by (intros; ring). now rewrite sqrt_0.
    + exists c, (fun i => nth i r 0). split; [exact G|]. now apply below_len.
  - intros y x Lx Hx. destruct (Av_ok RField d mvf Hmv x Lx) as [EX LX]. exists (Av RField mvf x). split; [exact EX|].
    pose proof (Av_comb RField d mvf Hmv V y x (proj1 ON) Lx Hx) as AC.
    assert (MV : forall X A B : R, X = A + B -> X - A = B) by (intros; lra).
    set (e := fun k i => nth i (Av RField mvf (nth k V [])) 0 - @comb RField V (fun m => b_T RField E s m k) i).
    assert (He : forall k, (k < length V)%nat -> rlen d (e k) <= delta).
    { intros k Hk. destruct (HB k ltac:(lia)) as [G|(r & Lr & Tr & G)].
      - unfold rlen. rewrite rsum_0; [rewrite sqrt_0; lra|]. intros i Hi. unfold e. specialize (G i Hi). change (c0 (fring RField)) with 0 in G. rewrite G. ring.
      - apply below_len in Tr. eapply Rle_trans; [|apply Rlt_le, Tr]. eapply Rle_trans; [|exact (rlen_proj d V r ON)].
        right. unfold rlen. f_equal. apply rsum_ext. intros i Hi. assert (Z : e k i = nth i r 0 - @comb RField V (fun m => @ip RField d (nth m V []) r) i) by exact (MV _ _ _ (G i Hi)). rewrite Z. reflexivity. }
    eapply Rle_trans; [|exact (rlen_sum d (length V) y e delta He)]. right. unfold rlen. f_equal. apply rsum_ext. intros i Hi.
    assert (Z : nth i (Av RField mvf x) 0 - @comb RField V (fun m => rsum (length V) (fun k => @ent RField (ret_T RField E s) m k * y k)) i = rsum (length V) (fun k => y k * e k i)).
    { assert (Z1 : rsum (length V) (fun k => y k * e k i) = rsum (length V) (fun k => y k * nth i (Av RField mvf (nth k V [])) 0) - rsum (length V) (fun k => y k * @comb RField V (fun m => b_T RField E s m k) i)).
      { rewrite <- rsum_sub. apply rsum_ext. intros k _. exact (Rmult_minus_distr_l _ _ _). }
      rewrite Z1. apply f_equal2; [exact (AC i Hi)|].
      rewrite (rsum_ext (length V) (fun k => y k * _) (fun k => rsum (length V) (fun m => y k * (b_T RField E s m k * @ent RField V m i)))) by (intros; rewrite rsum_scal_l; reflexivity).
      rewrite rsum_swap. apply rsum_ext. intros m Hm. transitivity (rsum (length V) (fun k => @ent RField (ret_T RField E s) m k * y k * @ent RField V m i)).
      - symmetry. apply rsum_scal_r.
      - apply rsum_ext. intros k Hk. unfold ret_T. rewrite (sub_T_ent RField) by lia. rewrite (Rmult_comm (y k)), !Rmult_assoc. f_equal. apply Rmult_comm. }
    exact (f_equal2 Rmult Z Z).
Qed.
Lemma real_room s : (d + length phi0 < maxn)%nat -> run = Ok s -> (b_n RField E s + length phi0 <= maxn)%nat /\ (b_Lc RField E s = O \/ exists p e, close p e = true).
Proof.
  intros HM Q. refine (bd_room RField sqrt E (below delta) egs close d mvf maxn ND phi0 Hmv (fun x _ => sqrt_ip d x) (below_0 delta Hd) _ s HM Hphi Q).
  intros V ON. apply (orthonormal_dim d (length V) (fun j i => nth i (nth j V []) 0)). intros j k Hj Hk. exact (proj2 ON j k Hj Hk).
Qed.
End Real.

(** ** Gram-Schmidt *)
Definition eq0 (x : R) : bool := if Req_EM_T x 0 then true else false.
Lemma eq0_ok t : eq0 t = true <-> t = 0.
Proof. unfold eq0. destruct (Req_EM_T t 0); split; intros; auto; discriminate. Qed.
Lemma ip_def d (x : list R) : @ip RField d x x = 0 -> forall i, (i < d)%nat -> nth i x 0 = 0.
Proof. exact (dot_zero d (fun i => nth i x 0)). Qed.
Notation gs := (gram_schmidt_rows RField sqrt eq0).

Lemma real_gs nc d X : (forall x, In x X -> length x = d) ->
  (exists Z, gs nc X true true = Ok Z /\ length Z = length X /\ @orthonormal_rows RField d Z /\ @independent RField d X /\
     forall i, (i < length X)%nat -> exists a, 0 < a /\ @lower_row RField d X Z i a) \/
  (gs nc X true true = Err ZeroDivisionError /\ ~ @independent RField d X).
Proof.
  intros HX. destruct (gs_rows_norm RField sqrt eq0 d eq0_ok (fun x _ => sqrt_ip d x) (ip_def d) nc X HX) as [(Z & E & LZ & ON & I & T)|Q]; [left|right; exact Q].
  exists Z. split; [exact E|]. split; [exact LZ|]. split; [exact ON|]. split; [exact I|]. intros i Hi. destruct (T i Hi) as (c & y & Ly & NZ & Hc).
  exists (norm RField sqrt y). split; [|exists c; exact Hc].
  assert (P : 0 <= norm RField sqrt y) by apply sqrt_pos. destruct P as [P|P]; [exact P|]. exfalso. apply NZ. symmetry. exact P.
Qed.
Lemma real_gs_plain nc d X : (forall x, In x X -> length x = d) ->
  (exists Y, gs nc X true false = Ok Y /\ length Y = length X /\ (forall y, In y Y -> length y = d) /\
     (forall i j, (i < length X)%nat -> (j < length X)%nat -> i <> j -> @ip RField d (nth i Y []) (nth j Y []) = 0) /\
     (forall i, (i < length X)%nat -> @lower_row RField d X Y i 1) /\ @independent RField d (firstn (length X - 1) X)) \/
  (gs nc X true false = Err ZeroDivisionError /\ ~ @independent RField d (firstn (length X - 1) X)).
Proof.
  intros HX. destruct (gs_rows RField sqrt eq0 d eq0_ok (fun x _ => sqrt_ip d x) (ip_def d) nc X HX) as [(Y & E & (LY & RY & OY & TY) & I)|Q]; [left|right; exact Q].
  exists Y. split; [exact E|]. split; [exact LY|]. split; [exact RY|]. split; [intros i j Hi Hj; apply OY; rewrite LY; auto|]. split; [|exact I].
  intros i Hi. rewrite <- LY in Hi. destruct (TY i Hi) as (c & Hc). exists c. intros t Ht. etransitivity; [exact (Hc t Ht)|]. apply f_equal. symmetry. apply Rmult_1_l.
Qed.
Lemma real_gs_cols nc X : (forall x, In x X -> length x = nc) ->
  (exists Z, gs nc X false true = Ok Z /\ length Z = length X /\ (forall z, In z Z -> length z = nc) /\
     @orthonormal_rows RField (length X) (@columns RField nc Z) /\ @independent RField (length X) (@columns RField nc X) /\
     forall j, (j < nc)%nat -> exists a, 0 < a /\ @lower_row RField (length X) (@columns RField nc X) (@columns RField nc Z) j a) \/
  (gs nc X false true = Err ZeroDivisionError /\ ~ @independent RField (length X) (@columns RField nc X)).
Proof.
  intros HX. set (Xt := @columns RField nc X).
  assert (HXt : forall x, In x Xt -> length x = length X) by (intros x Hx; unfold Xt, columns in Hx; apply in_map_iff in Hx; destruct Hx as (j & <- & _); apply map_length).
  assert (LXt : length Xt = nc) by exact (mtrans_length RField nc X).
  assert (E0 : gs nc X false true = (do Y <- gs nc Xt true true; Ok (mtrans RField (length X) Y))).
  { unfold gram_schmidt_rows. cbv zeta. change (mtrans RField nc X) with Xt. destruct (gs_loop _ _ _ _ _) as [Y|]; cbn [bind]; [|reflexivity]. destruct (gs_norm _ _ _ _); reflexivity. }
  destruct (real_gs nc (length X) Xt HXt) as [(Y & E & LY & ON & I & T)|[E N]]; rewrite E in E0; cbn [bind] in E0; [left|right; auto].
  assert (LY' : length Y = nc) by congruence.
  assert (TT : @columns RField nc (mtrans RField (length X) Y) = Y) by (rewrite <- LY'; exact (mtrans_mtrans RField (length X) Y (proj1 ON))).
  exists (mtrans RField (length X) Y). split; [exact E0|]. split; [apply mtrans_length|]. split.
  - intros z Hz. unfold mtrans in Hz. apply in_map_iff in Hz. destruct Hz as (j & <- & _). now rewrite map_length.
  - rewrite TT. split; [exact ON|]. split; [exact I|]. intros j Hj. apply T. rewrite LXt. exact Hj.
Qed.
