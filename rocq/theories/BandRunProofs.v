(** The loop of the band Lanczos method: outcome and invariant. *)
From Coq Require Import List Arith ZArith Bool Lia Ring Field.
From Verif Require Import Base LanczosModel LanczosSpec LanczosProofs LanczosOrthoProofs BandModel BandSpec BandLoopProofs BandProofs.
Import ListNotations.

Section Run.
Variable K : CField.
Local Open Scope cr_scope.
Add Field Kfield : (fth K).
Notation nthK i x := (nth i x (c0 K)).
Variables (sq : K -> K) (E : Type) (tiny : K -> bool) (egs : list (list K) -> res E) (close : option E -> E -> bool).
Variables (d : nat) (mv : list K -> res (list K)) (maxn ND : nat) (phi0 : list (list K)).
Notation L := (length phi0).
Notation body := (bd_body K sq E tiny egs close mv maxn ND).
Notation loop := (bd_loop K sq E tiny egs close mv maxn ND).
Notation st := (bst K E).
Notation N := (b_n K E). Notation C := (b_Lc K E).

(** ** Outcome *)
Hypothesis Hlen : forall x, length x = d -> exists y, mv x = Ok y /\ length y = d.
Definition all_d (vs : list (list K)) : Prop := forall x, In x vs -> length x = d.
Record shape (s : st) : Prop := mkshape {
  h_C : (0 < C s)%nat; h_vk : length (b_vk K E s) = C s; h_vkd : all_d (b_vk K E s);
  h_vl : length (b_vl K E s) = (N s - (N s - C s))%nat; h_vld : all_d (b_vl K E s);
  h_vd : length (b_vd K E s) = length (b_I K E s); h_vdd : all_d (b_vd K E s)
}.
Lemma all_cons x vs : all_d (x :: vs) <-> length x = d /\ all_d vs.
Proof.
  split; [intros H; split; [apply H, in_eq|intros y Hy; apply H; now right]|]. intros [Hx Hv] y [<-|Hy]; auto.
Qed.
Lemma all_snoc x vs : all_d vs -> length x = d -> all_d (vs ++ [x]).
Proof. intros Hv Hx y Hy. apply in_app_or in Hy. destruct Hy as [Hy|[<-|[]]]; auto. Qed.
Lemma all_tl vs : all_d vs -> all_d (tl vs).
Proof. destruct vs; [auto|]. intros H. now apply all_cons in H. Qed.

Lemma col_ok k n Lc : (Lc <= maxn)%nat -> (k < n + Lc)%nat -> (n < maxn)%nat -> exists c, col maxn (Z.of_nat k - Z.of_nat Lc) = Ok c.
Proof.
  intros HL Hk Hn. unfold col.
  destruct (Z.leb_spec 0 (Z.of_nat k - Z.of_nat Lc)); cbn [andb].
  - destruct (Z.ltb_spec (Z.of_nat k - Z.of_nat Lc) (Z.of_nat maxn)); [eauto|lia].
  - destruct (Z.ltb_spec (Z.of_nat k - Z.of_nat Lc) 0); [|lia]. destruct (Z.leb_spec (- Z.of_nat maxn) (Z.of_nat k - Z.of_nat Lc)); [|lia]. cbn [andb]. eauto.
Qed.
Lemma next_total n Lc v : length v = d -> (Lc <= maxn)%nat -> (n < maxn)%nat -> forall ks vk T, length vk = length ks -> all_d vk -> (forall k, In k ks -> (k < n + Lc)%nat) ->
  exists T' vk', next_loop K maxn n Lc v ks T vk = Ok (T', vk') /\ length vk' = length vk /\ all_d vk'.
Proof.
  intros Hv HL Hn. induction ks as [|k ks IH]; intros vk T Hl Ha Hk.
  - destruct vk; [|discriminate]. exists T, []. auto.
  - destruct vk as [|x vk]; [discriminate|]. apply all_cons in Ha. destruct Ha as [Hx Ha]. cbn [next_loop]. rewrite (dot_ok K d) by auto. cbn [bind].
    destruct (col_ok k n Lc HL (Hk k (in_eq _ _)) Hn) as [c ->]. cbn [bind]. destruct (vsub_ok K d x v (ip d v x) Hx Hv) as (z & -> & Lz & _). cbn [bind].
    destruct (IH vk (put K T n c (ip d v x))) as (T' & vk' & -> & L' & A'); auto using in_cons. cbn [bind]. exists T', (z :: vk'). split; [reflexivity|]. split; [cbn [length]; now rewrite L'|]. now apply all_cons.
Qed.
Lemma prev_total n : forall ks vl T w, length vl = length ks -> all_d vl -> length w = d -> exists T' w', prev_loop K n ks vl T w = Ok (T', w') /\ length w' = d.
Proof.
  induction ks as [|k ks IH]; intros vl T w Hl Ha Hw; [exists T, w; auto|]. destruct vl as [|u vl]; [discriminate|]. apply all_cons in Ha. destruct Ha as [Hu Ha]. cbn [prev_loop].
  destruct (vsub_ok K d w u (T n k) Hw Hu) as (z & -> & Lz & _). cbn [bind]. apply IH; auto.
Qed.
Lemma defl_total n : forall Is vd T w, length vd = length Is -> all_d vd -> length w = d -> exists T' w', defl_loop K n Is vd T w = Ok (T', w') /\ length w' = d.
Proof.
  induction Is as [|k ks IH]; intros vl T w Hl Ha Hw; [exists T, w; auto|]. destruct vl as [|u vl]; [discriminate|]. apply all_cons in Ha. destruct Ha as [Hu Ha]. cbn [defl_loop].
  rewrite (dot_ok K d) by auto. cbn [bind]. destruct (vsub_ok K d w u (ip d u w) Hw Hu) as (z & -> & Lz & _). cbn [bind]. apply IH; auto.
Qed.

Hypothesis HND : (0 < ND)%nat.
Hypothesis Hegs : forall M, exists e, egs M = Ok e.

Definition measure (s : st) : nat := (maxn - N s + C s)%nat.
Lemma body_total s : shape s -> (N s < maxn - C s)%nat -> exists s' f, body s = Ok (s', f) /\ (N s <= N s' <= maxn - C s')%nat /\ (C s' <= C s)%nat /\ (f = false -> shape s' /\ (measure s' < measure s)%nat).
Proof.
  intros [HC Hvk Hvkd Hvl Hvld Hvd Hvdd] Hlt. unfold bd_body. cbv zeta. destruct s as [n Lc T Is vk vl vd p]. cbn [b_n b_Lc b_T b_I b_vk b_vl b_vd b_prev] in *.
  destruct vk as [|v vk]; [cbn [length] in Hvk; lia|]. apply all_cons in Hvkd. destruct Hvkd as [Hv Hvkd]. cbn [length] in Hvk. destruct (tiny (norm K sq v)).
  - assert (Q : exists Is' vd', (if Lc <=? n then match vl with u :: _ => Ok (Is ++ [n - Lc]%nat, vd ++ [u]) | [] => Err IndexError end else Ok (Is, vd)) = Ok (Is', vd') /\ length vd' = length Is' /\ all_d vd').
    { destruct (Nat.leb_spec Lc n); [|eauto]. destruct vl as [|u vl]; [cbn [length] in Hvl; lia|]. eexists _, _. split; [reflexivity|]. rewrite !app_length. cbn [length]. split; [lia|]. apply all_snoc; [auto|]. apply all_cons in Hvld. tauto. }
    destruct Q as (Is' & vd' & -> & Ld & Ad). cbn [bind]. destruct (Nat.eqb_spec (Lc - 1) 0) as [Z|Z]; eexists _, _; (split; [reflexivity|]); cbn [b_n b_Lc]; (split; [lia|]; split; [lia|]); [discriminate|].
    intros _. split; [|unfold measure; cbn [b_n b_Lc]; lia]. constructor; cbn [b_n b_Lc b_vk b_vl b_vd b_I]; auto; try lia.
    + destruct (Nat.ltb_spec (Lc - 1) (length vl)); [destruct vl; cbn [length tl] in *; lia|lia].
    + destruct (_ <? _); auto using all_tl.
  - destruct (col_ok n n Lc) as [c ->]; try lia. cbn [bind]. set (v' := map _ v). assert (Lv' : length v' = d) by (unfold v'; now rewrite map_length).
    destruct (next_total n Lc v' Lv' ltac:(lia) ltac:(lia) (seq (S n) (Lc - 1)) vk (put K T n c (norm K sq v))) as (T1 & vk1 & -> & L1 & A1); auto.
    { rewrite seq_length. lia. } { intros k Hk. apply in_seq in Hk. lia. }
    cbn [bind]. destruct (Hlen v' Lv') as (w & -> & Lw). cbn [bind].
    destruct (prev_total n (seq (n - Lc) (n - (n - Lc))) vl T1 w) as (T2 & w1 & -> & L2); auto. { now rewrite seq_length. }
    cbn [bind]. destruct (defl_total n Is vd T2 w1) as (T3 & w2 & -> & L3); auto. cbn [bind]. rewrite (dot_ok K d) by auto. cbn [bind].
    destruct (vsub_ok K d w2 v' (ip d v' w2) L3 Lv') as (w3 & -> & L4 & _). cbn [bind]. destruct (Nat.eqb_spec ND 0) as [Z|_]; [lia|].
    set (T5 := mirror _ _ _ _). set (vl' := (if _ =? _ then _ else _) ++ _). change (map (fun i => map (T5 i) (seq 0 (S n))) (seq 0 (S n))) with (sub_T K T5 (S n)).
    assert (G : forall p', let s' := mkbst K E (S n) Lc T5 Is (vk1 ++ [w3]) vl' vd p' in shape s' /\ (measure s' < measure (mkbst K E n Lc T Is (v :: vk) vl vd p))%nat /\ (n <= N s' <= maxn - C s')%nat /\ (C s' <= Lc)%nat).
    { intros p' s'. unfold s', measure. cbn [b_n b_Lc]. split; [|lia]. constructor; cbn [b_n b_Lc b_vk b_vl b_vd b_I]; auto.
      - rewrite app_length. cbn [length]. lia.
      - now apply all_snoc.
      - unfold vl'. rewrite app_length. cbn [length]. destruct (Nat.eqb_spec (length vl) Lc); [destruct vl; cbn [length tl] in *; lia|lia].
      - unfold vl'. apply all_snoc; [|exact Lv']. destruct (_ =? _); auto using all_tl. }
    destruct (Nat.modulo (S n) ND =? 0).
    + destruct (Hegs (sub_T K T5 (S n))) as [e ->]. cbn [bind]. destruct (close p e); eexists _, _; (split; [reflexivity|]); edestruct G as (G1 & G2 & G3 & G4); (split; [exact G3|]; split; [exact G4|]); [discriminate|]. intros _. split; [exact G1|exact G2].
    + eexists _, _. split; [reflexivity|]. edestruct G as (G1 & G2 & G3 & G4). split; [exact G3|]. split; [exact G4|]. intros _. split; [exact G1|exact G2].
Qed.
Lemma loop_total fuel : forall s, shape s -> (N s <= maxn)%nat -> (measure s < fuel)%nat -> exists s', loop fuel s = Ok s' /\ (N s <= N s')%nat /\ (N s = O \/ N s <= maxn - C s -> N s' <= maxn - C s')%nat /\ (C s' <= C s)%nat.
Proof.
  induction fuel as [|fuel IH]; intros s Hs HN Hf; [lia|]. cbn [bd_loop]. destruct (Nat.ltb_spec (N s) (maxn - C s)) as [Hlt|Hge].
  - destruct (body_total s Hs Hlt) as (s' & f & -> & H1 & H2 & H3). cbn [bind]. destruct f; [exists s'; split; [reflexivity|]; split; [lia|]; split; [intros _; lia|lia]|].
    destruct (H3 eq_refl) as [Hs' Hm]. destruct (IH s' Hs' ltac:(lia) ltac:(lia)) as (s'' & -> & G1 & G2 & G3). exists s''. split; [reflexivity|]. split; [lia|]. split; [|lia]. intros _. apply G2. right. lia.
  - exists s. split; [reflexivity|]. split; [lia|]. split; [|lia]. intros [Z|Z]; lia.
Qed.
Lemma bd_total : (0 < L)%nat -> all_d phi0 -> exists s, build_bd_tridiag K sq E tiny egs close mv maxn ND phi0 = Ok s /\ (N s <= maxn - C s)%nat /\ (C s <= L)%nat.
Proof.
  intros HL HD. unfold build_bd_tridiag. destruct (loop_total (S (maxn + L)) (mkbst K E 0 L (fun _ _ => 0) [] phi0 [] [] None)) as (s & -> & H1 & H2 & H3).
  - constructor; cbn [b_n b_Lc b_vk b_vl b_vd b_I length]; auto; intros x [].
  - cbn [b_n]. lia.
  - unfold measure. cbn [b_n b_Lc]. lia.
  - cbn [b_n b_Lc] in *. exists s. split; [reflexivity|]. split; [apply H2; now left|lia].
Qed.
End Run.

Section Inv.
Variable K : CField.
Local Open Scope cr_scope.
Add Field Kfield2 : (fth K).
Notation nthK i x := (nth i x (c0 K)).
Variables (sq : K -> K) (E : Type) (tiny : K -> bool) (egs : list (list K) -> res E) (close : option E -> E -> bool).
Variables (d : nat) (mv : list K -> res (list K)) (maxn ND : nat) (phi0 : list (list K)).
Notation L := (length phi0).
Notation body := (bd_body K sq E tiny egs close mv maxn ND).
Notation loop := (bd_loop K sq E tiny egs close mv maxn ND).
Notation st := (bst K E).
Notation N := (b_n K E). Notation C := (b_Lc K E).
Hypothesis Hmv : symmetric_op d mv.
Hypothesis Hsq : forall x : list K, length x = d -> sq (ip d x x) * sq (ip d x x) = ip d x x.
Hypothesis Ht : tiny 0 = true.
Notation INV := (inv K sq d mv tiny maxn phi0).

Definition sinv (s : st) (vk vl V : list (list K)) : Prop := INV (N s) (C s) (b_T K E s) (b_I K E s) vk vl (b_vd K E s) V.

Lemma body_mono s s' f : body s = Ok (s', f) -> (N s <= N s' <= S (N s))%nat /\ (C s' <= C s)%nat /\ (f = true -> C s' = O \/ exists p e, close p e = true).
Proof.
  unfold bd_body. cbv zeta. destruct s as [n Lc T Is vk vl vd p]. cbn [b_n b_Lc b_T b_I b_vk b_vl b_vd b_prev].
  destruct vk as [|v vk]; [discriminate|]. destruct (tiny (norm K sq v)).
  - destruct (if Lc <=? n then _ else _) as [[Is' vd']|]; cbn [bind]; [|discriminate]. destruct (Nat.eqb_spec (Lc - 1) 0); intros Q; injection Q as <- <-; cbn [b_n b_Lc]; (split; [lia|]; split; [lia|]); [auto|discriminate].
  - destruct (col _ _) as [c|]; cbn [bind]; [|discriminate].
    destruct (next_loop _ _ _ _ _ _ _ _) as [[T1 vk1]|]; cbn [bind]; [|discriminate].
    destruct (mv _) as [w|]; cbn [bind]; [|discriminate].
    destruct (prev_loop _ _ _ _ _ _) as [[T2 w1]|]; cbn [bind]; [|discriminate].
    destruct (defl_loop _ _ _ _ _ _) as [[T3 w2]|]; cbn [bind]; [|discriminate].
    destruct (dot _ _ _) as [t|]; cbn [bind]; [|discriminate].
    destruct (vsub _ _ _ _) as [w3|]; cbn [bind]; [|discriminate].
    destruct (ND =? 0); [discriminate|]. destruct (_ =? 0).
    + destruct (egs _) as [e|]; cbn [bind]; [|discriminate]. destruct (close p e) eqn:EC; intros Q; injection Q as <- <-; cbn [b_n b_Lc]; (split; [lia|]; split; [lia|]); [eauto|discriminate].
    + intros Q; injection Q as <- <-; cbn [b_n b_Lc]; (split; [lia|]; split; [lia|discriminate]).
Qed.
Lemma loop_mono fuel : forall s s', loop fuel s = Ok s' -> (N s <= N s')%nat /\ (C s' <= C s)%nat.
Proof.
  induction fuel as [|fuel IH]; intros s s'; [discriminate|]. cbn [bd_loop]. destruct (N s <? maxn - C s); [|intros Q; injection Q as <-; lia].
  destruct (body s) as [[s1 f]|] eqn:Eb; cbn [bind]; [|discriminate]. apply body_mono in Eb. destruct f; intros Q; [injection Q as <-; lia|]. apply IH in Q. lia.
Qed.
Lemma body_inv s s' f V : sinv s (b_vk K E s) (b_vl K E s) V -> body s = Ok (s', f) -> (N s' + L <= maxn)%nat ->
  exists vk vl V', sinv s' vk vl V' /\ (f = false -> vk = b_vk K E s' /\ vl = b_vl K E s').
Proof.
  unfold sinv, bd_body. cbv zeta. destruct s as [n Lc T Is vk vl vd p]. cbn [b_n b_Lc b_T b_I b_vk b_vl b_vd b_prev]. intros H.
  destruct vk as [|v vk]; [discriminate|]. assert (Lv : length v = d) by apply (i_vkd _ _ _ _ _ _ _ _ _ _ _ _ _ _ _ H), in_eq.
  unfold norm. rewrite (vdot_ip K d) by exact Lv. destruct (tiny (sq (ip d v v))) eqn:Hv.
  - rewrite (defl_vl _ _ _ _ _ _ _ _ _ _ _ _ _ _ _ _ H). cbn [bind]. pose proof (inv_defl _ _ _ _ _ _ _ _ _ _ _ _ _ _ _ _ H Hv) as H'.
    destruct (Nat.eqb_spec (Lc - 1) 0) as [Z|Z]; intros Q; injection Q as <- <-; cbn [b_n b_Lc b_T b_I b_vk b_vl b_vd b_prev]; intros HM.
    + eexists _, _, V. split; [exact H'|discriminate].
    + eexists _, _, V. split; [exact H'|auto].
  - intros Q HM. assert (HM' : (S n + L <= maxn)%nat).
    { revert Q HM.
      destruct (col _ _) as [c|]; cbn [bind]; [|discriminate].
      destruct (next_loop _ _ _ _ _ _ _ _) as [[T1 vk1]|]; cbn [bind]; [|discriminate].
      destruct (mv _) as [w|]; cbn [bind]; [|discriminate].
      destruct (prev_loop _ _ _ _ _ _) as [[T2 w1]|]; cbn [bind]; [|discriminate].
      destruct (defl_loop _ _ _ _ _ _) as [[T3 w2]|]; cbn [bind]; [|discriminate].
      destruct (dot _ _ _) as [t|]; cbn [bind]; [|discriminate].
      destruct (vsub _ _ _ _) as [w3|]; cbn [bind]; [|discriminate].
      destruct (ND =? 0); [discriminate|]. destruct (_ =? 0).
      + destruct (egs _) as [e|]; cbn [bind]; [|discriminate]. destruct (close p e); intros Q; injection Q as <- _; cbn [b_n b_Lc]; lia.
      + intros Q; injection Q as <- _; cbn [b_n b_Lc]; lia. }
    pose proof (Lc_vk _ _ _ _ _ _ _ _ _ _ _ _ _ _ _ _ H HM') as LK. pose proof (i_Lc _ _ _ _ _ _ _ _ _ _ _ _ _ _ _ H) as HLc.
    rewrite (col_wrap K maxn phi0 n Lc n HM' HLc ltac:(lia) ltac:(lia)) in Q. cbn [bind] in Q.
    pose proof (Lv' _ _ _ _ _ _ _ _ _ _ _ _ _ _ _ _ H) as Lv'.
    destruct (next_ok K sq d mv tiny maxn phi0 Hsq Ht n Lc T Is v vk vl vd V H HM' Hv) as (T1 & vk1 & E1 & L1 & D1 & X1 & C1 & O1). rewrite E1 in Q. cbn [bind] in Q.
    rewrite (proj1 (Av_ok K d mv Hmv _ Lv')) in Q. cbn [bind] in Q.
    destruct (prev_defl_ok K sq d mv tiny maxn phi0 Hmv Ht n Lc T Is v vk vl vd V H HM' Hv T1 vk1 L1 O1) as (T2 & w1 & T3 & w2 & w3 & E2 & E3 & E4 & E5 & L5 & N5 & F1 & F2 & F3 & F4).
    rewrite E2 in Q. cbn [bind] in Q. rewrite E3 in Q. cbn [bind] in Q. rewrite E4 in Q. cbn [bind] in Q. rewrite E5 in Q. cbn [bind] in Q.
    destruct (ND =? 0); [discriminate|].
    pose proof (inv_step K sq d mv tiny maxn phi0 Hmv Hsq Ht n Lc T Is v vk vl vd V H HM' Hv T1 vk1 L1 D1 X1 C1 O1 _ w3 L5 N5 F1 F2 F3 F4) as H'.
    revert Q. destruct (_ =? 0).
    + destruct (egs _) as [e|]; cbn [bind]; [|discriminate]. destruct (close p e); intros Q; injection Q as <- <-; eexists _, _, _; (split; [exact H'|auto]).
    + intros Q; injection Q as <- <-. eexists _, _, _; (split; [exact H'|auto]).
Qed.
Lemma loop_inv fuel : forall s s' V, sinv s (b_vk K E s) (b_vl K E s) V -> loop fuel s = Ok s' -> (N s' + L <= maxn)%nat -> exists vk vl V', sinv s' vk vl V'.
Proof.
  induction fuel as [|fuel IH]; intros s s' V H; [discriminate|]. cbn [bd_loop]. destruct (N s <? maxn - C s).
  - destruct (body s) as [[s1 f]|] eqn:Eb; cbn [bind]; [|discriminate]. destruct f.
    + intros Q HM. injection Q as <-. destruct (body_inv s s1 true V H Eb HM) as (vk & vl & V' & H' & _). eauto.
    + intros Q HM. destruct (loop_mono fuel s1 s' Q) as [M _]. destruct (body_inv s s1 false V H Eb ltac:(lia)) as (vk & vl & V' & H' & F). destruct (F eq_refl) as [-> ->]. eauto.
  - intros Q _. injection Q as <-. eauto.
Qed.
Lemma bd_inv s : (forall x, In x phi0 -> length x = d) -> build_bd_tridiag K sq E tiny egs close mv maxn ND phi0 = Ok s -> (N s + L <= maxn)%nat -> exists vk vl V, sinv s vk vl V.
Proof.
  intros HP Q HM. refine (loop_inv _ (mkbst K E 0 L (fun _ _ => 0) [] phi0 [] [] None) s [] _ Q HM). unfold sinv. cbn [b_n b_Lc b_T b_I b_vk b_vl b_vd b_prev]. apply inv_init; auto.
  apply loop_mono in Q. lia.
Qed.

(** With more rows than the space has dimensions the loop is never cut off. *)
Hypothesis Hdim : forall V : list (list K), orthonormal_rows d V -> (length V <= d)%nat.
Lemma loop_room fuel : (d + L < maxn)%nat -> forall s s' V, sinv s (b_vk K E s) (b_vl K E s) V -> loop fuel s = Ok s' -> (N s' + L <= maxn)%nat /\ (C s' = O \/ exists p e, close p e = true).
Proof.
  intros HM. induction fuel as [|fuel IH]; intros s s' V H; [discriminate|]. cbn [bd_loop].
  assert (HN : (N s <= d)%nat) by (unfold sinv in H; rewrite <- (i_len _ _ _ _ _ _ _ _ _ _ _ _ _ _ _ H); apply Hdim; apply (i_on _ _ _ _ _ _ _ _ _ _ _ _ _ _ _ H)).
  pose proof (i_Lc _ _ _ _ _ _ _ _ _ _ _ _ _ _ _ H) as HLc. destruct (Nat.ltb_spec (N s) (maxn - C s)); [|lia].
  destruct (body s) as [[s1 f]|] eqn:Eb; cbn [bind]; [|discriminate]. destruct (body_mono s s1 f Eb) as (M1 & M2 & M3). destruct f.
  - intros Q. injection Q as <-. split; [lia|auto].
  - intros Q. destruct (body_inv s s1 false V H Eb ltac:(lia)) as (vk & vl & V' & H' & F). destruct (F eq_refl) as [-> ->]. eauto.
Qed.
Lemma bd_room s : (d + L < maxn)%nat -> (forall x, In x phi0 -> length x = d) -> build_bd_tridiag K sq E tiny egs close mv maxn ND phi0 = Ok s -> (N s + L <= maxn)%nat /\ (C s = O \/ exists p e, close p e = true).
Proof.
  intros HM HP Q. refine (loop_room _ HM (mkbst K E 0 L (fun _ _ => 0) [] phi0 [] [] None) s [] _ Q). unfold sinv. cbn [b_n b_Lc b_T b_I b_vk b_vl b_vd b_prev]. apply inv_init; auto. lia.
Qed.

(** ** What the result means *)
Lemma T_entry s vk vl V k j : sinv s vk vl V -> (k < N s)%nat -> (j < N s)%nat -> b_T K E s k j = ip d (nth k V []) (Av K mv (nth j V [])).
Proof.
  intros H Hk Hj. unfold sinv in H. pose proof (i_len _ _ _ _ _ _ _ _ _ _ _ _ _ _ _ H) as LV. pose proof (i_on _ _ _ _ _ _ _ _ _ _ _ _ _ _ _ H) as ON. pose proof (i_Lc _ _ _ _ _ _ _ _ _ _ _ _ _ _ _ H) as HLc.
  assert (TG : target K mv phi0 V (L + j) = Av K mv (nth j V [])) by (unfold target; destruct (Nat.ltb_spec (L + j) L); [lia|]; do 2 f_equal; lia).
  assert (W : wrap K maxn phi0 (L + j) = j) by (unfold wrap; destruct (Nat.ltb_spec (L + j) L); lia).
  assert (G : forall g, (forall i, (i < d)%nat -> nthK i (target K mv phi0 V (L + j)) = comb V (fun m => b_T K E s m (wrap K maxn phi0 (L + j))) i + g i) -> nsum d (fun i => nthK i (nth k V []) * g i) = 0 -> b_T K E s k j = ip d (nth k V []) (Av K mv (nth j V []))).
  { intros g Hg Z. rewrite <- TG, (ip_sum K d _ _ _ g Hg), Z, nsum_comb_on by (auto; lia). rewrite W. ring. }
  destruct (Nat.lt_ge_cases (L + j + C s) (L + N s)) as [B|B].
  - destruct (i_done _ _ _ _ _ _ _ _ _ _ _ _ _ _ _ H (L + j)%nat ltac:(lia)) as [(r & (Lr & Tr & D) & Q)|[Q _]].
    + apply (G (fun i => nthK i r - comb V (fun m => ip d (nth m V []) r) i)).
      * intros i Hi. rewrite D by auto. destruct (Nat.ltb_spec (L + j) L); [lia|reflexivity].
      * rewrite (nsum_ext _ d _ (fun i => nthK i (nth k V []) * nthK i r - nthK i (nth k V []) * comb V (fun m => ip d (nth m V []) r) i)) by (intros; ring).
        rewrite nsum_sub, nsum_comb_on by (auto; lia). unfold ip. ring.
    + apply (G (fun _ => 0)); [intros i Hi; rewrite Q by auto; ring|apply nsum_0; intros; ring].
  - apply (G (ent vk (j + C s - N s))).
    + intros i Hi. pose proof (i_open _ _ _ _ _ _ _ _ _ _ _ _ _ _ _ H (j + C s - N s)%nat i ltac:(lia) Hi) as O.
      replace (L + N s - C s + (j + C s - N s))%nat with (L + j)%nat in O by lia. exact O.
    + exact (i_perp _ _ _ _ _ _ _ _ _ _ _ _ _ _ _ H (j + C s - N s)%nat k ltac:(lia) Hk).
Qed.
Lemma sub_T_ent (T : nat -> nat -> K) n i j : (i < n)%nat -> (j < n)%nat -> ent (sub_T K T n) i j = T i j.
Proof.
  intros Hi Hj. unfold ent, sub_T. rewrite (nth_indep _ [] (map (T O) (seq 0 n))) by (rewrite map_length, seq_length; lia).
  rewrite (map_nth (fun i => map (T i) (seq 0 n))), seq_nth by lia. cbn [Nat.add].
  rewrite (nth_indep _ 0 (T i O)) by (rewrite map_length, seq_length; lia). rewrite (map_nth (T i)), seq_nth by lia. reflexivity.
Qed.
Lemma bd_matrix s vk vl V : sinv s vk vl V -> orthonormal_rows d V /\ length V = N s /\ matrix_of d mv V (ret_T K E s).
Proof.
  intros H. assert (H' := H). unfold sinv in H. pose proof (i_len _ _ _ _ _ _ _ _ _ _ _ _ _ _ _ H) as LV. pose proof (i_on _ _ _ _ _ _ _ _ _ _ _ _ _ _ _ H) as ON.
  split; [exact ON|]. split; [exact LV|]. unfold matrix_of, ret_T. rewrite LV. split; [unfold sub_T; now rewrite map_length, seq_length|]. split.
  - unfold sub_T. intros r Hr. apply in_map_iff in Hr. destruct Hr as (i & <- & _). now rewrite map_length, seq_length.
  - intros i j Hi Hj. rewrite !sub_T_ent by auto. split; [now apply (i_sym _ _ _ _ _ _ _ _ _ _ _ _ _ _ _ H)|]. exists (Av K mv (nth j V [])). split.
    + apply (Av_ok K d mv Hmv), (proj1 ON), nth_In. lia.
    + eapply T_entry; eauto.
Qed.

Lemma bd_exhaust s vk vl V : sinv s vk vl V -> C s = O ->
  (forall x, In x phi0 -> exists c, (forall i, (i < d)%nat -> nthK i x = comb V c i) \/ exists r, length r = d /\ tiny (sq (ip d r r)) = true /\ forall i, (i < d)%nat -> nthK i x = comb V c i + nthK i r) /\
  (forall k, (k < N s)%nat -> (forall i, (i < d)%nat -> nthK i (Av K mv (nth k V [])) = comb V (fun m => b_T K E s m k) i) \/
     exists r, length r = d /\ tiny (sq (ip d r r)) = true /\ forall i, (i < d)%nat -> nthK i (Av K mv (nth k V [])) = comb V (fun m => b_T K E s m k) i + (nthK i r - comb V (fun m => ip d (nth m V []) r) i)).
Proof.
  intros H HC. unfold sinv in H. pose proof (i_done _ _ _ _ _ _ _ _ _ _ _ _ _ _ _ H) as D. rewrite HC in D. split.
  - intros x Hx. apply (In_nth _ _ []) in Hx. destruct Hx as (j & Hj & <-). exists (fun m => b_T K E s m (wrap K maxn phi0 j)).
    assert (TG : target K mv phi0 V j = nth j phi0 []) by (unfold target; destruct (Nat.ltb_spec j L); [reflexivity|lia]).
    destruct (D j ltac:(lia)) as [(r & (Lr & Tr & Q) & _)|[Q _]].
    + right. exists r. split; [exact Lr|]. split; [exact Tr|]. intros i Hi. specialize (Q i Hi). destruct (Nat.ltb_spec j L); [|lia]. rewrite TG in Q. exact Q.
    + left. intros i Hi. specialize (Q i Hi). rewrite TG in Q. exact Q.
  - intros k Hk.
    assert (TG : target K mv phi0 V (L + k) = Av K mv (nth k V [])) by (unfold target; destruct (Nat.ltb_spec (L + k) L); [lia|]; do 2 f_equal; lia).
    assert (W : wrap K maxn phi0 (L + k) = k) by (unfold wrap; destruct (Nat.ltb_spec (L + k) L); lia).
    destruct (D (L + k)%nat ltac:(lia)) as [(r & (Lr & Tr & Q) & _)|[Q _]].
    + right. exists r. split; [exact Lr|]. split; [exact Tr|]. intros i Hi. specialize (Q i Hi). destruct (Nat.ltb_spec (L + k) L); [lia|]. rewrite TG, W in Q. exact Q.
    + left. intros i Hi. specialize (Q i Hi). rewrite TG, W in Q. exact Q.
Qed.
(** A symmetric operator is linear. *)
Lemma Av_comb V y x : (forall v, In v V -> length v = d) -> length x = d -> (forall i, (i < d)%nat -> nthK i x = comb V y i) ->
  forall i, (i < d)%nat -> nthK i (Av K mv x) = nsum (length V) (fun k => y k * nthK i (Av K mv (nth k V []))).
Proof.
  intros HV Lx Hx i Hi. set (f := fun j => (if (j =? i)%nat then 1 else 0) : K). set (e := map f (seq 0 d)).
  assert (Le : length e = d) by (unfold e; now rewrite map_length, seq_length).
  assert (Ie : forall z, ip d z e = nthK i z).
  { intros z. unfold ip. rewrite (nsum_single _ d _ i Hi).
    - unfold e. rewrite (nth_indep (map f (seq 0 d)) 0 (f O)) by (rewrite map_length, seq_length; lia). rewrite map_nth, seq_nth by lia. unfold f. cbn [Nat.add]. rewrite Nat.eqb_refl. ring.
    - intros j Hj Hne. unfold e. rewrite (nth_indep (map f (seq 0 d)) 0 (f O)) by (rewrite map_length, seq_length; lia). rewrite map_nth, seq_nth by lia. unfold f. cbn [Nat.add]. destruct (Nat.eqb_spec j i); [lia|ring]. }
  rewrite <- Ie, <- (Av_sym K d mv Hmv) by auto. rewrite ip_comm, (ip_comb K d _ _ V y) by auto. apply nsum_ext. intros k Hk. f_equal.
  rewrite <- Ie, ip_comm. apply (Av_sym K d mv Hmv); auto. apply HV, nth_In, Hk.
Qed.
End Inv.
