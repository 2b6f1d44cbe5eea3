(** The space of all excitations of the stored states, with its weighted scalar product. *)
From Coq Require Import Reals List Arith NArith ZArith Bool Lia Lra Psatz Ring Field.
From Verif Require Import Base RBase RLin CBase OperatorsSpec FockSpec FockProofs SectorModel LocalModel MatvecModel EspaceModel ProjModel ProjSpec ProjProofs ProjFinalProofs
  CfModel CfSpec GfModel GfSpec GfProofs GfSumProofs GfMoreProofs GmModel GmSpec GmFockProofs GmProofs GmFreeProofs GmEomProofs GflSpec GflLoopProofs GflMainProofs GflPairProofs AgrProofs
  VisSpec VisMainProofs SiamSpec SiamLinProofs SiamFockProofs SiamStateProofs.
Import ListNotations.
Local Open Scope R_scope.
Add Field cxf_siamform : cx_field.

Lemma rsuml_ext {A} (f g : A -> R) l : (forall x, In x l -> f x = g x) -> rsuml (map f l) = rsuml (map g l).
Proof. intros H. f_equal. now apply map_ext_in. Qed.
Lemma rsuml_app l m : rsuml (l ++ m) = rsuml l + rsuml m.
Proof. unfold rsuml. induction l as [|x l IH]; cbn; [lra|rewrite IH; lra]. Qed.
Lemma rsuml_add {A} (f g : A -> R) l : rsuml (map (fun x => f x + g x) l) = rsuml (map f l) + rsuml (map g l).
Proof. unfold rsuml. induction l as [|x l IH]; cbn; [lra|rewrite IH; lra]. Qed.
Lemma rsuml_scal {A} c (f : A -> R) l : rsuml (map (fun x => c * f x) l) = c * rsuml (map f l).
Proof. unfold rsuml. induction l as [|x l IH]; cbn; [lra|rewrite IH; lra]. Qed.
Lemma rsuml_nonneg {A} (f : A -> R) l : (forall x, In x l -> 0 <= f x) -> 0 <= rsuml (map f l).
Proof. unfold rsuml. intros H. induction l as [|x l IH]; cbn in *; [lra|]. pose proof (H x (or_introl eq_refl)). assert (0 <= fold_right Rplus 0 (map f l)) by (apply IH; auto). lra. Qed.
Lemma rsuml_seq (f : nat -> R) m : rsuml (map f (seq 0 m)) = rsum m f.
Proof.
  induction m as [|m IH]; [reflexivity|]. rewrite seq_S, map_app, rsuml_app, IH. rewrite rsum_S. unfold rsuml. cbn [map fold_right Nat.add]. ring.
Qed.
Lemma csuml_re l : re (csuml l) = rsuml (map re l).
Proof. unfold csuml, rsuml. induction l as [|x l IH]; [reflexivity|]. cbn [map fold_right]. rewrite <- IH. reflexivity. Qed.
Lemma csuml_im l : im (csuml l) = rsuml (map im l).
Proof. unfold csuml, rsuml. induction l as [|x l IH]; [reflexivity|]. cbn [map fold_right]. rewrite <- IH. reflexivity. Qed.

Section Blocks.
Variables (n s : nat) (beta egs : R) (vis : espace RRing) (M : nat -> nat -> nat -> nat -> R).
Definition block := (fop * (qnums * sct RRing) * nat)%type.
Definition bl_op (b : block) := fst (fst b).
Definition bl_e (b : block) := snd (fst b).
Definition bl_i (b : block) := snd b.
Definition blocks_of (op : fop) : list block := flat_map (fun e => map (fun i => (op, e, i)) (seq 0 (nvals (snd e)))) vis.
Definition blocks : list block := blocks_of OpCdg ++ blocks_of OpC.
Definition dest (b : block) : option (nat * nat) := match fst (bl_e b) with [p; q] => moved n (bl_op b) (Z.of_nat s) p q | _ => None end.
Definition dm (b : block) : nat := match dest b with Some (p', q') => dimn n p' q' | None => 0%nat end.
Definition en (b : block) : R := energy (snd (bl_e b)) (bl_i b).
Definition wt (b : block) : R := weight beta egs (en b).
Definition Km (b : block) (a c : nat) : R := match dest b with Some (p', q') => CfSpec.shifted (side (bl_op b)) (en b) (M p' q') a c | None => 0 end.
Definition vect := (block * nat -> R)%type.
Definition B (f g : vect) : R := rsuml (map (fun b => wt b * rsum (dm b) (fun a => f (b, a) * g (b, a))) blocks).
Definition K (f : vect) (t : block * nat) : R := rsum (dm (fst t)) (fun c => Km (fst t) (snd t) c * f (fst t, c)).
Definition xk (k : nat) : vect := fun t => match dest (fst t) with
  | Some (p', q') => exc n (bl_op (fst t)) (Z.of_nat s) k p' q' (snd (bl_e (fst t))) (bl_i (fst t)) (snd t) | None => 0 end.
Definition occx (k : nat) : vect := fun t => match dest (fst t) with
  | Some (p', q') => occR (basis RRing n (bare n p' q') (snd t)) (other n s k) * xk k t | None => 0 end.

Lemma sum_of op F : rsuml (map F (blocks_of op)) = rsuml (map (fun e => rsum (nvals (snd e)) (fun i => F (op, e, i))) vis).
Proof.
  unfold blocks_of. induction vis as [|e l IH]; [reflexivity|]. cbn [flat_map map]. rewrite map_app, rsuml_app, map_map.
  apply (f_equal2 Rplus); [exact (rsuml_seq (fun i => F (op, e, i)) _)|exact IH].
Qed.
Lemma sum_blocks F : rsuml (map F blocks) = rsuml (map (fun e => rsum (nvals (snd e)) (fun i => F (OpCdg, e, i) + F (OpC, e, i))) vis).
Proof. unfold blocks. rewrite map_app, rsuml_app, !sum_of, <- rsuml_add. apply rsuml_ext. intros e _. now rewrite rsum_add. Qed.
Lemma in_blocks b : In b blocks -> In (bl_e b) vis /\ (bl_i b < nvals (snd (bl_e b)))%nat.
Proof.
  unfold blocks, blocks_of. rewrite in_app_iff, !in_flat_map. intros [(e & He & Hb)|(e & He & Hb)]; apply in_map_iff in Hb; destruct Hb as (i & <- & Hi); apply in_seq in Hi; cbn; split; auto; lia.
Qed.

Lemma B_sym f g : B f g = B g f.
Proof. unfold B. apply rsuml_ext. intros b _. f_equal. apply rsum_ext. intros; ring. Qed.
Lemma B_ext_in f f' g : (forall b a, In b blocks -> (a < dm b)%nat -> f (b, a) = f' (b, a)) -> B f g = B f' g.
Proof. intros H. unfold B. apply rsuml_ext. intros b Hb. f_equal. apply rsum_ext. intros a Ha. now rewrite (H b a Hb Ha). Qed.
Lemma B_ext f f' g : (forall i, f i = f' i) -> B f g = B f' g.
Proof. intros H. apply B_ext_in. intros; apply H. Qed.
Lemma B_lin a b f g h : B (fun i => a * f i + b * g i) h = a * B f h + b * B g h.
Proof.
  unfold B. rewrite <- !rsuml_scal, <- rsuml_add. apply rsuml_ext. intros c _.
  rewrite (rsum_ext _ _ (fun i => a * (f (c, i) * h (c, i)) + b * (g (c, i) * h (c, i)))) by (intros; ring). rewrite rsum_add, !rsum_scal_l. ring.
Qed.
Lemma B_pos f : 0 <= B f f.
Proof.
  apply rsuml_nonneg. intros b _. apply Rmult_le_pos; [left; apply weight_pos|]. apply rsum_nonneg. intros a _. apply Rle_0_sqr.
Qed.

Hypothesis HS : sectors n vis.
Hypothesis SY : forall p q, (p <= n)%nat -> (q <= n)%nat -> matrix_symmetric (dimn n p q) (M p q).
Hypothesis Hs : (s <= 1)%nat.
Lemma in_sectors b : In b blocks -> exists p q sc, bl_e b = ([p; q], sc) /\ In ([p; q], sc) vis /\ is_sector RRing n p q sc /\ (bl_i b < nvals sc)%nat.
Proof.
  intros Hb. destruct (in_blocks b Hb) as [He Hi]. destruct (bl_e b) as [key sc] eqn:E. destruct (proj2 HS key sc He) as (p & q & -> & SC). exists p, q, sc. auto.
Qed.
Lemma dest_range b p' q' : In b blocks -> dest b = Some (p', q') -> (p' <= n)%nat /\ (q' <= n)%nat.
Proof.
  intros Hb. destruct (in_sectors b Hb) as (p & q & sc & E & _ & SC & _). unfold dest. rewrite E. cbn [fst]. intros D.
  destruct (moved_some n s p q sc Hs SC _ _ _ D) as [_ (A & C & _)]. auto.
Qed.
Lemma K_sym f g : B (K f) g = B f (K g).
Proof.
  unfold B. apply rsuml_ext. intros b Hb. f_equal. unfold K. cbn [fst snd].
  rewrite (rsum_ext (dm b) _ (fun a => rsum (dm b) (fun c => Km b a c * f (b, c) * g (b, a)))) by (intros; now rewrite rsum_scal_r).
  rewrite rsum_swap. apply rsum_ext. intros c Hc. rewrite <- rsum_scal_l. apply rsum_ext. intros a Ha.
  replace (Km b a c) with (Km b c a); [ring|]. unfold Km, dm in *. destruct (dest b) as [[p' q']|] eqn:D; [|lia]. destruct (dest_range b p' q' Hb D) as [Hp Hq].
  apply (shifted_sym _ _ _ _ (SY p' q' Hp Hq)); auto.
Qed.

(** The solutions of the linear systems. *)
Variables (z : cx) (X : fop -> qnums -> nat -> nat -> cx).
Hypothesis RS : resolved n M (Z.of_nat s) vis 0 z X.
Definition Xc (t : block * nat) : cx := X (bl_op (fst t)) (fst (bl_e (fst t))) (bl_i (fst t)) (snd t).
Definition Xr (t : block * nat) : R := re (Xc t).
Definition Xi (t : block * nat) : R := im (Xc t).
Lemma block_solves b a : In b blocks -> (a < dm b)%nat -> cxsub (cxmul z (Xc (b, a))) (csum (dm b) (fun c => cxmul (rcx (Km b a c)) (Xc (b, c)))) = rcx (xk 0 (b, a)).
Proof.
  intros Hb. destruct (in_sectors b Hb) as (p & q & sc & E & Hin & SC & Hi). unfold dm, Km, xk, Xc. cbn [fst snd]. destruct (dest b) as [[p' q']|] eqn:D; [|lia]. intros Ha.
  unfold dest in D. rewrite E in D. cbn [fst] in D. pose proof (RS _ _ _ _ _ _ _ Hin Hi D a Ha) as S. unfold en. rewrite E. cbn [fst snd]. exact S.
Qed.
Lemma form_R1 f : re z * B f Xr - im z * B f Xi - B (K f) Xr = B f (xk 0).
Proof.
  rewrite K_sym. rewrite !(B_sym f). transitivity (B (fun t => 1 * (re z * Xr t + - im z * Xi t) + -1 * K Xr t) f).
  - rewrite B_lin, B_lin. ring.
  - apply B_ext_in. intros b a Hb Ha. pose proof (f_equal re (block_solves b a Hb Ha)) as S.
    change (re (cxsub ?x ?y)) with (re x - re y) in S. rewrite csum_re in S. change (re (rcx (xk 0 (b, a)))) with (xk 0 (b, a)) in S. rewrite <- S.
    unfold K. cbn [fst snd]. rewrite (rsum_ext (dm b) _ (fun i => re (cxmul (rcx (Km b a i)) (Xc (b, i))))) by (intros; unfold Xr; cbn; ring). unfold Xr, Xi. cbn [cxmul re im fst snd]. ring.
Qed.
Lemma form_R2 f : im z * B f Xr + re z * B f Xi - B (K f) Xi = 0.
Proof.
  rewrite K_sym. rewrite !(B_sym f). transitivity (B (fun t => 1 * (im z * Xr t + re z * Xi t) + -1 * K Xi t) f).
  - rewrite B_lin, B_lin. ring.
  - rewrite (B_ext_in _ (fun _ => 0)); [unfold B; rewrite (rsuml_ext _ (fun _ => 0 * 0)); [rewrite (rsuml_scal 0 (fun _ => 0)); ring|]; intros b _; rewrite rsum_0; [ring|intros; ring]|].
    intros b a Hb Ha. pose proof (f_equal im (block_solves b a Hb Ha)) as S.
    change (im (cxsub ?x ?y)) with (im x - im y) in S. rewrite csum_im in S. change (im (rcx (xk 0 (b, a)))) with 0 in S. rewrite <- S.
    unfold K. cbn [fst snd]. rewrite (rsum_ext (dm b) _ (fun i => im (cxmul (rcx (Km b a i)) (Xc (b, i))))) by (intros; unfold Xi; cbn; ring). unfold Xr, Xi. cbn [cxmul re im fst snd]. ring.
Qed.
Lemma csuml_of op F : csuml (map F (blocks_of op)) = csuml (map (fun e => csum (nvals (snd e)) (fun i => F (op, e, i))) vis).
Proof.
  apply cx_eq.
  - rewrite !csuml_re, !map_map. rewrite (sum_of op (fun b => re (F b))). apply rsuml_ext. intros; now rewrite csum_re.
  - rewrite !csuml_im, !map_map. rewrite (sum_of op (fun b => im (F b))). apply rsuml_ext. intros; now rewrite csum_im.
Qed.
Lemma pairing_green k : pairing _ B Xr Xi (xk k) = csuml (map (fun op => csuml (map (contribution n beta egs (Z.of_nat s) k X op) vis)) [OpCdg; OpC]).
Proof.
  transitivity (csuml (map (fun b => cxmul (rcx (wt b)) (csum (dm b) (fun a => cxmul (rcx (xk k (b, a))) (Xc (b, a))))) blocks)).
  - apply cx_eq; cbn [pairing re im fst snd].
    + rewrite csuml_re, map_map. unfold pairing, B. cbn [fst re]. apply rsuml_ext. intros b _. change (re (cxmul (rcx ?r) ?c)) with (r * re c - 0 * im c). rewrite csum_re.
      rewrite (rsum_ext (dm b) (fun i => re (cxmul (rcx (xk k (b, i))) (Xc (b, i)))) (fun a => xk k (b, a) * Xr (b, a))) by (intros; unfold Xr; cbn; ring). ring.
    + rewrite csuml_im, map_map. unfold pairing, B. cbn [snd im]. apply rsuml_ext. intros b _. change (im (cxmul (rcx ?r) ?c)) with (r * im c + 0 * re c). rewrite csum_im.
      rewrite (rsum_ext (dm b) (fun i => im (cxmul (rcx (xk k (b, i))) (Xc (b, i)))) (fun a => xk k (b, a) * Xi (b, a))) by (intros; unfold Xi; cbn; ring). ring.
  - unfold blocks. rewrite map_app, csuml_app, !csuml_of. cbn [map]. unfold csuml at 3. cbn [fold_right].
    assert (C : forall op, csuml (map (fun e => csum (nvals (snd e)) (fun i => cxmul (rcx (wt (op, e, i))) (csum (dm (op, e, i)) (fun a => cxmul (rcx (xk k (op, e, i, a))) (Xc (op, e, i, a)))))) vis)
      = csuml (map (contribution n beta egs (Z.of_nat s) k X op) vis)).
    { intros op. apply csuml_ext. intros [key sc] He. destruct (proj2 HS key sc He) as (p & q & -> & SC). unfold contribution. cbn [fst snd].
      unfold dm, xk, Xc, dest, wt, en. cbn [fst snd bl_e bl_op bl_i]. destruct (moved n op (Z.of_nat s) p q) as [[p' q']|]; [reflexivity|].
      apply cx_eq; rewrite ?csum_re, ?csum_im; apply rsum_0; intros; cbn; ring. }
    rewrite !C. destruct (csuml (map (contribution n beta egs (Z.of_nat s) k X OpC) vis)). apply cx_eq; cbn; ring.
Qed.
End Blocks.
