(** The inner loops of the band Lanczos method. *)
From Coq Require Import List Arith ZArith Bool Lia Ring Field.
From Verif Require Import Base LanczosModel LanczosSpec LanczosProofs LanczosOrthoProofs BandModel BandSpec.
Import ListNotations.

Section Loops.
Variable K : CField.
Local Open Scope cr_scope.
Add Field Kfield : (fth K).
Notation nthK i x := (nth i x (c0 K)).

Lemma vsub_ok d (x u : list K) c : length x = d -> length u = d -> exists z, vsub K x c u = Ok z /\ length z = d /\ forall i, nthK i z = nthK i x - c * nthK i u.
Proof.
  intros Hx Hu. unfold vsub. rewrite (proj2 (Nat.eqb_eq _ _)) by congruence. eexists. split; [reflexivity|]. split; [rewrite map_length, combine_length; lia|].
  subst d. revert u Hu. induction x as [|a x IH]; intros [|b u] Hu i; try discriminate; destruct i; simpl; try ring. apply IH. simpl in Hu. lia.
Qed.
Lemma dot_ok d (x y : list K) : length x = d -> length y = d -> dot K x y = Ok (ip d x y).
Proof. intros Hx Hy. unfold dot. rewrite (proj2 (Nat.eqb_eq _ _)) by congruence. f_equal. now apply vdot_ip. Qed.
Lemma ip_sub d (x z y u : list K) c : (forall i, (i < d)%nat -> nthK i z = nthK i y - c * nthK i u) -> ip d x z = ip d x y - c * ip d x u.
Proof. intros H. unfold ip. rewrite <- nsum_scal_l, <- nsum_sub. apply nsum_ext. intros i Hi. rewrite H by auto. ring. Qed.
Lemma ip_comb d (x z : list K) (vs : list (list K)) c : (forall i, (i < d)%nat -> nthK i z = comb vs c i) -> ip d x z = nsum (length vs) (fun m => c m * ip d x (nth m vs [])).
Proof.
  intros H. unfold ip. transitivity (nsum d (fun i => nsum (length vs) (fun m => c m * (nthK i x * ent vs m i)))).
  - apply nsum_ext. intros i Hi. rewrite H by auto. unfold comb. rewrite <- nsum_scal_l. apply nsum_ext. intros. ring.
  - rewrite nsum_swap. apply nsum_ext. intros m _. rewrite nsum_scal_l. reflexivity.
Qed.

Variable d : nat.

(** ** Candidates *)
Section Next.
Variables (maxn n Lc : nat) (v : list K) (cix : nat -> nat).
Hypothesis Hv : length v = d.
Lemma next_loop_spec ks : forall vk T, length vk = length ks -> (forall x, In x vk -> length x = d) ->
  (forall k, In k ks -> col maxn (Z.of_nat k - Z.of_nat Lc) = Ok (cix k)) -> NoDup (map cix ks) ->
  exists T' vk', next_loop K maxn n Lc v ks T vk = Ok (T', vk') /\ length vk' = length vk /\ (forall x, In x vk' -> length x = d) /\
    (forall c i, (c < length ks)%nat -> ent vk' c i = ent vk c i - ip d v (nth c vk []) * nthK i v) /\
    (forall c, (c < length ks)%nat -> T' n (cix (nth c ks O)) = ip d v (nth c vk [])) /\
    (forall a b, a <> n \/ ~ In b (map cix ks) -> T' a b = T a b).
Proof.
  induction ks as [|k ks IH]; intros vk T HL HD HC ND.
  - destruct vk; [|discriminate]. exists T, []. repeat split; auto; intros; simpl in *; lia.
  - destruct vk as [|x vk]; [discriminate|]. cbn [next_loop]. rewrite (dot_ok d) by (auto; apply HD, in_eq). cbn [bind].
    rewrite (HC k (in_eq _ _)). cbn [bind]. destruct (vsub_ok d x v (ip d v x) (HD x (in_eq _ _)) Hv) as (z & Ez & Lz & Nz). rewrite Ez. cbn [bind].
    cbn [map] in ND. inversion ND as [|? ? NI ND']; subst.
    destruct (IH vk (put K T n (cix k) (ip (length v) v x))) as (T' & vk' & E & L' & D' & X' & C' & O'); auto using in_cons.
    rewrite E. cbn [bind]. exists T', (z :: vk'). split; [reflexivity|]. split; [simpl; congruence|]. split; [intros y [<-|Hy]; auto|].
    split; [|split].
    + intros [|c] i Hc; [unfold ent; cbn [nth]; apply Nz|]. cbn [length] in Hc. specialize (X' c i ltac:(lia)). exact X'.
    + intros [|c] Hc; cbn [nth]; [|apply C'; cbn [length] in Hc; lia]. rewrite O' by (right; exact NI). unfold put. now rewrite !Nat.eqb_refl.
    + intros a b H. rewrite O'.
      * unfold put. destruct (Nat.eqb_spec a n); [|reflexivity]. destruct (Nat.eqb_spec b (cix k)); [|reflexivity]. destruct H as [H|H]; [congruence|]. exfalso. apply H. left. auto.
      * destruct H as [H|H]; [now left|]. right. intros Hb. apply H. now right.
Qed.
End Next.

(** ** Previous vectors *)
Lemma prev_loop_spec n m : forall a vl T w, length vl = m -> (forall x, In x vl -> length x = d) -> length w = d -> (a + m <= n)%nat ->
  exists T' w', prev_loop K n (seq a m) vl T w = Ok (T', w') /\ length w' = d /\
    (forall i, nthK i w' = nthK i w - nsum m (fun c => T n (a + c)%nat * ent vl c i)) /\
    forall x y, T' x y = if ((y =? n) && (a <=? x) && (x <? a + m))%nat then T n x else T x y.
Proof.
  induction m as [|m IH]; intros a vl T w HL HD Hw Ha.
  - exists T, w. split; [reflexivity|]. split; [exact Hw|]. split; [intros; rewrite nsum_0 by (intros; lia); ring|]. intros x y.
    destruct (Nat.leb_spec a x), (Nat.ltb_spec x (a + 0)); rewrite ?andb_false_r; auto; lia.
  - destruct vl as [|u vl]; [discriminate|]. cbn [seq prev_loop]. destruct (vsub_ok d w u (T n a) Hw (HD u (in_eq _ _))) as (z & Ez & Lz & Nz). rewrite Ez. cbn [bind].
    destruct (IH (S a) vl (put K T a n (T n a)) z) as (T' & w' & E & L' & N' & P'); auto using in_cons; try lia; try (simpl in HL; lia).
    exists T', w'. split; [exact E|]. split; [exact L'|].
    assert (PN : forall k, (k <= n)%nat -> put K T a n (T n a) n k = T n k).
    { intros k Hk. unfold put. destruct (Nat.eqb_spec n a); [lia|reflexivity]. }
    split.
    + intros i. rewrite N', Nz. rewrite nsum_S_l, Nat.add_0_r. unfold ent at 2. cbn [nth].
      rewrite (nsum_ext _ m (fun c => put K T a n (T n a) n (S a + c)%nat * ent vl c i) (fun c => T n (a + S c)%nat * ent (u :: vl) (S c) i)); [ring|].
      intros c Hc. rewrite PN by lia. replace (S a + c)%nat with (a + S c)%nat by lia. reflexivity.
    + intros x y. rewrite P'. destruct (Nat.eqb_spec y n) as [->|Hy]; cbn [andb].
      * destruct (Nat.leb_spec (S a) x), (Nat.leb_spec a x), (Nat.ltb_spec x (S a + m)), (Nat.ltb_spec x (a + S m)); cbn [andb]; try lia; try (rewrite PN by lia; reflexivity);
          unfold put; destruct (Nat.eqb_spec x a); cbn [andb]; try lia; try reflexivity.
        rewrite Nat.eqb_refl. now subst.
      * unfold put. destruct (Nat.eqb_spec y n); [lia|]. now rewrite andb_false_r.
Qed.

(** ** Deflated vectors *)
Lemma defl_loop_spec n Is : forall vd T w, length vd = length Is -> (forall x, In x vd -> length x = d) -> length w = d -> NoDup Is ->
  (forall i j, (i < length vd)%nat -> (j < length vd)%nat -> ip d (nth i vd []) (nth j vd []) = if (i =? j)%nat then 1 else 0) ->
  exists T' w', defl_loop K n Is vd T w = Ok (T', w') /\ length w' = d /\
    (forall i, nthK i w' = nthK i w - nsum (length Is) (fun c => ip d (nth c vd []) w * ent vd c i)) /\
    (forall c, (c < length Is)%nat -> T' (nth c Is O) n = ip d (nth c vd []) w) /\
    forall x y, y <> n \/ ~ In x Is -> T' x y = T x y.
Proof.
  induction Is as [|k Is IH]; intros vd T w HL HD Hw ND ON.
  - exists T, w. split; [reflexivity|]. split; [exact Hw|]. split; [intros; rewrite nsum_0 by (simpl; intros; lia); ring|]. split; [simpl; intros; lia|auto].
  - destruct vd as [|u vd]; [discriminate|]. cbn [defl_loop]. rewrite (dot_ok d) by (auto using in_eq). cbn [bind].
    destruct (vsub_ok d w u (ip d u w) Hw (HD u (in_eq _ _))) as (z & Ez & Lz & Nz). rewrite Ez. cbn [bind]. inversion ND as [|? ? NI ND']; subst.
    destruct (IH vd (put K T k n (ip (length w) u w)) z) as (T' & w' & E & L' & N' & C' & O'); auto using in_cons.
    { intros i j Hi Hj. specialize (ON (S i) (S j)). cbn [nth length] in ON. apply ON; lia. }
    exists T', w'. split; [exact E|]. split; [exact L'|].
    assert (IPZ : forall c, (c < length Is)%nat -> ip (length w) (nth c vd []) z = ip (length w) (nth c vd []) w).
    { intros c Hc. simpl in HL. rewrite (ip_sub (length w) _ z w u (ip (length w) u w)) by auto. specialize (ON (S c) 0%nat). cbn [nth length Nat.eqb] in ON. rewrite ON by lia. ring. }
    split; [|split].
    + intros i. rewrite N', Nz. cbn [length]. rewrite nsum_S_l. unfold ent at 2. cbn [nth].
      rewrite (nsum_ext _ (length Is) (fun c => ip (length w) (nth c vd []) z * ent vd c i) (fun c => ip (length w) (nth c vd []) w * ent (u :: vd) (S c) i)); [ring|].
      intros c Hc. now rewrite IPZ.
    + intros [|c] Hc; cbn [nth]; cbn [length] in Hc; [|rewrite C' by lia; apply IPZ; lia]. rewrite O' by (right; exact NI). unfold put. now rewrite !Nat.eqb_refl.
    + intros x y H. rewrite O'.
      * unfold put. destruct (Nat.eqb_spec x k); [|reflexivity]. destruct (Nat.eqb_spec y n); [|reflexivity]. destruct H as [H|H]; [congruence|]. exfalso. apply H. left. auto.
      * destruct H as [H|H]; [now left|]. right. intros Hb. apply H. now right.
Qed.

(** ** The mirrored row *)
Lemma mirror_spec n Is : forall T, (forall k, In k Is -> (k < n)%nat) ->
  forall a b, mirror K n Is T a b = if ((a =? n) && existsb (Nat.eqb b) Is)%nat then T b n else T a b.
Proof.
  unfold mirror. induction Is as [|k Is IH]; intros T HI a b; cbn [fold_left existsb]; [now rewrite andb_false_r|].
  assert (Hk : (k < n)%nat) by (apply HI, in_eq). rewrite IH by auto using in_cons. unfold put.
  destruct (Nat.eqb_spec a n) as [->|Ha]; cbn [andb].
  - destruct (existsb (Nat.eqb b) Is) eqn:E; [rewrite orb_true_r|rewrite orb_false_r].
    + apply existsb_exists in E. destruct E as (x & Hx & Eb). apply Nat.eqb_eq in Eb. subst x. pose proof (HI b (in_cons _ _ _ Hx)). destruct (Nat.eqb_spec b n); [lia|reflexivity].
    + destruct (Nat.eqb_spec b k) as [->|]; reflexivity.
  - reflexivity.
Qed.

Lemma bsum_indicator n (f : nat -> K) Is : NoDup Is -> (forall k, In k Is -> (k < n)%nat) ->
  nsum (length Is) (fun c => f (nth c Is O)) = nsum n (fun m => if existsb (Nat.eqb m) Is then f m else 0).
Proof.
  induction Is as [|k Is IH]; intros ND HI.
  - cbn [length existsb]. rewrite !nsum_0; auto; intros; lia.
  - inversion ND as [|? ? NI ND']; subst. cbn [length]. rewrite nsum_S_l. cbn [nth]. rewrite IH by auto using in_cons.
    assert (S1 : f k = nsum n (fun m => if (m =? k)%nat then f m else 0)).
    { rewrite (nsum_single _ n _ k); [now rewrite Nat.eqb_refl|apply HI, in_eq|]. intros j _ Hj. destruct (Nat.eqb_spec j k); [congruence|reflexivity]. }
    rewrite S1, <- nsum_add. apply nsum_ext. intros m _. cbn [existsb]. destruct (Nat.eqb_spec m k) as [->|]; cbn [orb]; [|ring].
    destruct (existsb (Nat.eqb k) Is) eqn:E; [|ring]. exfalso. apply existsb_exists in E. destruct E as (x & Hx & Eb). apply Nat.eqb_eq in Eb. subst x. auto.
Qed.
End Loops.
