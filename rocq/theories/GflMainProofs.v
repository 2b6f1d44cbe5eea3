(** build_gf_lanczos returns the thermal Green's function. *)
From Coq Require Import Reals String List Arith NArith ZArith Bool Lia Lra Psatz Ring Field.
From Verif Require Import Base RBase RLin CBase OperatorsModel OperatorsSpec OperatorsProofs LookupModel SectorModel SectorSpec SectorProofs FockSpec LocalModel MatvecModel EspaceModel
  ProjModel ProjSpec ProjProofs ProjMoreProofs ProjFinalProofs LanczosSpec CfModel CfSpec CfProofs CfMoreProofs GfModel GfSpec GfProofs GfMoreProofs GflModel GflSpec DmftProofs GflProofs GflLoopProofs.
Import ListNotations.
Local Open Scope R_scope.

(** ** The spectral function of a small sector *)
Lemma combine_swap (vI row : list R) (B : R -> R) :
  map (fun p : R * R => fst p ^ 2 * snd p) (List.combine row (map B vI)) = map (fun p : R * R => snd p ^ 2 * B (fst p)) (List.combine vI row).
Proof. revert row. induction vI as [|e vI IH]; intros [|x row]; cbn [map List.combine]; try reflexivity. f_equal; auto. Qed.
Lemma flat_combine {A B C} (l : list A) (b : list B) (F : B -> list C) : length b = length l ->
  flat_map F b = flat_map (fun p => F (snd p)) (List.combine l b).
Proof. revert b. induction l as [|x l IH]; intros [|y b]; cbn [length]; intros L; try lia; [reflexivity|]. cbn [List.combine flat_map snd]. f_equal. apply IH. lia. Qed.

Lemma gap_side op ej ei : gap op ej ei = side op * (ej - ei).
Proof. destruct op; simpl; ring. Qed.

Lemma spectral_sum op beta egs (vI w : list R) (b : list (list R)) e eta : length b = length w -> (forall x, In x b -> length x = length vI) ->
  func_call (Func KSp (flat_map (fun ej => map (gap op ej) vI) w)
                      (flat_map (fun row => map (fun p : R * R => fst p ^ 2 * snd p) (List.combine row (map (boltz beta egs) vI))) b)) e eta =
  Ok (csum (length vI) (fun i => rcx (boltz beta egs (nth i vI 0)) *c csum (length w) (fun j => rcx (nth i (nth j b []) 0 ^ 2) /c (zpoint e eta -c rcx (side op * (nth j w 0 - nth i vI 0)))))).
Proof.
  intros Lb Hb. cbn [func_call]. unfold k_sp.
  rewrite (flat_map_ext _ _ (fun row => combine_swap vI row (boltz beta egs))). rewrite (flat_combine w b) by auto.
  destruct (outer_sum CxRing (fun q l => cxinv (zpoint e eta -c rcx l) *c rcx q) (fun _ r => snd r ^ 2 * boltz beta egs (fst r)) (gap op) vI w b Lb Hb) as [L S].
  rewrite <- L, Nat.eqb_refl. f_equal.
  rewrite (bsum_combine CxRing (fun q l => cxinv (zpoint e eta -c rcx l) *c rcx q)) in S by exact L.
  rewrite L. etransitivity; [exact S|]. change (@nsum CxRing) with csum. rewrite csum_swap. apply csum_ext. intros i Hi.
  rewrite <- csum_scal_l. apply csum_ext. intros j Hj. cbn [fst snd]. rewrite gap_side. rewrite (rcx_mul (_ ^ 2)). unfold cxdiv. ring.
Qed.

(** Contribution of one sector for arbitrary vectors [f]. *)
Definition gcontr (n : nat) (beta egs : R) (ispin : Z) (f : fop -> nat -> nat -> sct RRing -> nat -> nat -> R) (X : fop -> qnums -> nat -> nat -> cx) (op : fop) (e : qnums * sct RRing) : cx :=
  match fst e with
  | [p; q] =>
      match moved n op ispin p q with
      | Some (p', q') => csum (nvals (snd e)) (fun i => rcx (weight beta egs (energy (snd e) i)) *c csum (dimn n p' q') (fun a => rcx (f op p' q' (snd e) i a) *c X op [p; q] i a))
      | None => rcx 0
      end
  | _ => rcx 0
  end.
Definition gresolved (n : nat) (M : nat -> nat -> nat -> nat -> R) (ispin : Z) (es : espace RRing) (f : fop -> nat -> nat -> sct RRing -> nat -> nat -> R) (z : cx) (X : fop -> qnums -> nat -> nat -> cx) : Prop :=
  forall op p q s i p' q', In ([p; q], s) es -> (i < nvals s)%nat -> moved n op ispin p q = Some (p', q') ->
    solves (dimn n p' q') (shifted (side op) (energy s i) (M p' q')) z (X op [p; q] i) (fun a => rcx (f op p' q' s i a)).

Section Main.
Variable solve : states_t -> res (list R * list (list R)).
Variable mvop : states_t -> res (list R -> res (list R)).
Variable tridiag : (list R -> res (list R)) -> list R -> res (list R * list R).
Variable eigh : list R -> list R -> res (list R * list (list R)).
Variable n : nat.
Variable M : nat -> nat -> nat -> nat -> R.
Variable es : espace RRing.
Variables (beta egs : R) (ispin : Z) (k : kern).
Hypothesis Hn : (n <= 32)%nat.
Hypothesis HES : sectors n es.
Hypothesis Hop : operators n mvop M.
Hypothesis Hsp : (ispin = 0 \/ ispin = 1)%Z.
Hypothesis HK : k = KSp -> eigh_sound eigh.

Lemma exponents_nth s i : (i < nvals s)%nat -> nth i (exponents beta egs s) 0 = weight beta egs (energy s i).
Proof.
  intros Hi. unfold exponents. rewrite (nth_indep _ 0 (boltz beta egs 0)) by (now rewrite map_length).
  rewrite (map_nth (boltz beta egs)). reflexivity.
Qed.

Section Diagonal.
Variable pos : nat.
Hypothesis Hpos : (pos < n)%nat.
Hypothesis Hsolve : solver n solve M.
Hypothesis Hset : settled n solve es.
Hypothesis HKr : krylov n mvop tridiag ispin es (fun op p' q' s i a => exc n op ispin pos p' q' s i a) 11.

Lemma small_side_ok op p q sI p' q' sJ : In ([p; q], sI) es -> moved n op ispin p q = Some (p', q') -> s_states RRing sJ = s_states RRing (bare n p' q') -> (dimn n p' q' <= 10)%nat ->
  exists fs, small_side solve n op pos ispin es sI (exponents beta egs sI) [p'; q'] sJ = Ok (es, fs) /\
  forall e eta X, im (zpoint e eta) <> 0 -> resolved n M ispin es pos (zpoint e eta) X -> denotes fs e eta (contribution n beta egs ispin pos X op ([p; q], sI)).
Proof.
  intros I HM EJ Hd. destruct (proj2 HES _ _ I) as (p0 & q0 & EK & HI). injection EK as <- <-.
  pose proof HI as (Hp & Hq & _). destruct (moved_spec n Hn op p q ispin p' q' Hp Hq HM) as (Hp' & Hq' & _).
  destruct (Hsolve p' q' Hp' Hq' Hd) as (w & U & ES & HE). pose proof HE as (Lw & LU & Lu & HO & HEig).
  unfold small_side. rewrite EJ, ES. cbn [bind].
  set (sJ' := mksct RRing (s_states RRing (bare n p' q')) w (Cols RRing U)).
  pose proof (bare_sector n Hn p' q' Hp' Hq') as (_ & _ & _ & B1 & B2 & B3 & _).
  assert (HJ : is_sector RRing n p' q' sJ').
  { split; [exact Hp'|]. split; [exact Hq'|]. split; [exact Hn|].
    assert (EU : ups RRing sJ' = ups RRing (bare n p' q')) by reflexivity. assert (ED : dws RRing sJ' = dws RRing (bare n p' q')) by reflexivity.
    rewrite EU, ED. split; [exact B1|]. split; [exact B2|]. split; [exact B3|]. exists U. split; [reflexivity|]. split; [transitivity (dimn n p' q'); [exact LU|symmetry; exact Lw]|].
    intros x Hx. rewrite Nat.mul_comm. exact (Lu x Hx). }
  destruct (project_exact_ok n Hn op ispin pos p q p' q' sI sJ' Hsp HI HJ HM Hpos) as (pr & sg & v & EP & Hsg & EV & LV & RV & HV).
  rewrite EP. cbn [bind]. rewrite EV. cbn [bind].
  assert (PUT : es_put es [p'; q'] sJ' = es).
  { unfold es_put. rewrite <- (map_id es) at 2. apply map_ext_in. intros [key s] Is. cbn [fst]. destruct (list_eq_dec _ key [p'; q']) as [->|]; [|reflexivity].
    f_equal. destruct (Hset p' q' s Is Hd) as (U' & EU' & ES'). destruct (proj2 HES _ _ Is) as (p1 & q1 & EK1 & HS1). injection EK1 as <- <-.
    pose proof (bare_states n Hn p' q' Hp' Hq' s HS1) as EB. rewrite EB, ES in ES'. apply ok_inj in ES'. injection ES' as E1 E2. subst U'.
    unfold sJ'. rewrite E1, <- EU', <- EB. now destruct s. }
  rewrite PUT. eexists. split; [reflexivity|]. intros e eta X Hz HX. apply denotes_one. unfold exponents.
  rewrite spectral_sum; [|exact LV|exact RV]. f_equal. unfold contribution. cbn [fst snd]. rewrite HM.
  apply csum_ext. intros i Hi. f_equal. rewrite (eigen_resolvent (dimn n p' q') (M p' q') w U op (energy sI i) (zpoint e eta) (exc n op ispin pos p' q' sI i) (X op [p; q] i)).
  - rewrite Lw. apply csum_ext. intros j Hj. unfold energy. f_equal. f_equal.
    apply (sq_sign _ _ sg Hsg). rewrite HV; [reflexivity| |exact Hi]. change (nvals sJ') with (@length R w). rewrite Lw. exact Hj.
  - apply Hop; auto.
  - exact HE.
  - exact Hz.
  - apply (HX op p q sI i p' q'); auto.
Qed.

Lemma gl_side_ok op p q sI : In ([p; q], sI) es ->
  exists fs, gl_side solve mvop tridiag eigh n k op pos ispin es p q sI (exponents beta egs sI) = Ok (es, fs) /\
  forall e eta X, im (zpoint e eta) <> 0 -> resolved n M ispin es pos (zpoint e eta) X -> denotes fs e eta (contribution n beta egs ispin pos X op ([p; q], sI)).
Proof.
  intros I. destruct (proj2 HES _ _ I) as (p0 & q0 & EK & HI). injection EK as <- <-. pose proof HI as (Hp & Hq & _).
  unfold gl_side. rewrite (target_moved n Hn op p q ispin Hsp). cbn [bind].
  destruct (moved n op ispin p q) as [[p' q']|] eqn:HM.
  2:{ exists []. split; [reflexivity|]. intros. unfold contribution. cbn [fst]. rewrite HM. apply denotes_nil. }
  destruct (moved_spec n Hn op p q ispin p' q' Hp Hq HM) as (Hp' & Hq' & _).
  destruct (arrive_ok n Hn es HES p' q' Hp' Hq') as (sJ & EA & EJ). rewrite EA. cbn [bind].
  assert (D : s_d RRing sJ = dimn n p' q') by (unfold s_d; rewrite EJ; apply bare_dim). rewrite D.
  destruct (Nat.leb_spec (dimn n p' q') 10).
  - apply small_side_ok; auto.
  - destruct (project_ok n Hn op ispin p q p' q' sI sJ Hsp HI HM EJ) as (pr & sg & EP & Hsg & HP). rewrite EP. cbn [bind].
    destruct (HP pos Hpos) as (v & EV & LV & HV). rewrite EV. cbn [bind].
    destruct (Hop p' q' Hp' Hq') as (HS & mv & Emv & Hmv).
    destruct (lanczos_side_ok mvop tridiag eigh true k op v sI (exponents beta egs sI) sJ (dimn n p' q') (M p' q') mv (fun i a => exc n op ispin pos p' q' sI i a) HK HS) as (fs & EF & HF).
    + now rewrite EJ.
    + exact Hmv.
    + intros i Hi. exists sg. split; [exact Hsg|]. apply HV. exact Hi.
    + intros i Hi. split; [|discriminate]. apply (HKr p' q'); [lia| |exact Emv]. exists op, p, q, sI, i, sg. repeat split; auto; apply HV; auto.
    + rewrite EF. cbn [bind]. exists fs. split; [reflexivity|]. intros e eta X Hz HX.
      unfold contribution. cbn [fst snd]. rewrite HM.
      rewrite (csum_ext (nvals sI) _ (fun i => rcx (nth i (exponents beta egs sI) 0) *c csum (dimn n p' q') (fun a => rcx (exc n op ispin pos p' q' sI i a) *c X op [p; q] i a))).
      * apply (HF e eta (fun i => X op [p; q] i) Hz). intros i Hi. apply (HX op p q sI i p' q'); auto.
      * intros i Hi. now rewrite exponents_nth.
Qed.


Lemma csuml_add {A} (f g : A -> cx) l : csuml (map (fun x => f x +c g x) l) = csuml (map f l) +c csuml (map g l).
Proof. induction l as [|a l IH]; cbn [map csuml fold_right]; [ring|]. fold (csuml (map (fun x => f x +c g x) l)) (csuml (map f l)) (csuml (map g l)). rewrite IH. ring. Qed.

Lemma gl_loop separate l fe fh : (forall x, In x l -> In x es) ->
  exists ge gh, foldM (gl_step solve mvop tridiag eigh n k beta egs pos ispin separate) (map fst l) (es, fe, fh) = Ok (es, fe ++ ge, fh ++ gh) /\
  forall e eta X, im (zpoint e eta) <> 0 -> resolved n M ispin es pos (zpoint e eta) X ->
    denotes ge e eta (csuml (map (fun op => csuml (map (contribution n beta egs ispin pos X op) l)) (ops_e separate))) /\
    (separate = true -> denotes gh e eta (csuml (map (fun op => csuml (map (contribution n beta egs ispin pos X op) l)) (ops_h separate)))).
Proof.
  revert fe fh. induction l as [|[key sI] l IH]; intros fe fh Hl.
  - exists [], []. cbn [map foldM]. rewrite !app_nil_r. split; [reflexivity|]. intros. split; intros; destruct separate; try discriminate;
      exists []; (split; [reflexivity|]); cbn [ops_e ops_h map csuml fold_right]; ring.
  - assert (I : In (key, sI) es) by (apply Hl; now left). destruct (proj2 HES _ _ I) as (p & q & -> & HI).
    destruct (gl_side_ok OpCdg p q sI I) as (f1 & E1 & H1). destruct (gl_side_ok OpC p q sI I) as (f2 & E2 & H2).
    cbn [map foldM fst]. unfold gl_step at 1. unfold es_get. rewrite (es_find_in n es HES _ _ I). cbn [bind]. rewrite E1. cbn [bind]. rewrite E2. cbn [bind].
    destruct separate.
    + destruct (IH (fe ++ f1) (fh ++ f2)) as (ge & gh & E & H); [intros; apply Hl; now right|]. cbn [bind]. rewrite E. exists (f1 ++ ge), (f2 ++ gh).
      rewrite !app_assoc. split; [reflexivity|]. intros e eta X Hz HX. destruct (H e eta X Hz HX) as [A B]. specialize (B eq_refl). cbn [ops_e ops_h map csuml fold_right] in *.
      fold (csuml (map (contribution n beta egs ispin pos X OpCdg) l)) (csuml (map (contribution n beta egs ispin pos X OpC) l)) in *.
      split; [|intros _]; (match goal with |- denotes _ _ _ ?v => match v with (?a +c ?b) +c ?c => replace v with (a +c (b +c c)) by ring end end);
        apply denotes_app; auto.
    + destruct (IH (fe ++ f1 ++ f2) fh) as (ge & gh & E & H); [intros; apply Hl; now right|]. cbn [bind]. rewrite E. exists (f1 ++ f2 ++ ge), gh.
      rewrite !app_assoc. split; [reflexivity|]. intros e eta X Hz HX. destruct (H e eta X Hz HX) as [A _]. cbn [ops_e ops_h map csuml fold_right] in *.
      fold (csuml (map (contribution n beta egs ispin pos X OpCdg) l)) (csuml (map (contribution n beta egs ispin pos X OpC) l)) in *.
      split; [|discriminate].
      match goal with |- denotes _ _ _ ((?a +c ?b) +c ((?c +c ?d) +c ?z)) => replace ((a +c b) +c ((c +c d) +c z)) with ((a +c c) +c (b +c (d +c z))) by ring end.
      apply denotes_app; auto. apply denotes_app; auto.
Qed.

Lemma partition_Zof : partition beta egs es = Zof beta egs es.
Proof.
  unfold partition, Zof. clear. induction es as [|[key s] l IH]; [reflexivity|]. cbn [bsum map rsuml fold_right snd].
  rewrite (bsum_nth RRing _ (s_vals RRing s) 0). apply (f_equal2 Rplus); [reflexivity|exact IH].
Qed.

Lemma build_gf_lanczos_k repr separate : repr_of repr = Ok k -> exists ge gh, build_gf_lanczos solve mvop tridiag eigh n es beta egs pos repr ispin separate = Ok (es, ge, gh) /\
  forall e eta X, im (zpoint e eta) <> 0 -> resolved n M ispin es pos (zpoint e eta) X ->
    gl_call ge e eta = Ok (green n beta egs ispin es pos X (ops_e separate)) /\ gl_call gh e eta = Ok (green n beta egs ispin es pos X (ops_h separate)).
Proof.
  intros ER. unfold build_gf_lanczos. rewrite ER. cbn [bind]. assert (EP : pick ispin tt tt = Ok tt) by (destruct Hsp as [-> | ->]; reflexivity). rewrite EP. cbn [bind].
  destruct (gl_loop separate es [] [] (fun x H => H)) as (ge & gh & E & H). rewrite E. cbn [bind app]. rewrite partition_Zof.
  eexists _, _. split; [reflexivity|]. intros e eta X Hz HX. destruct (H e eta X Hz HX) as [A B]. split.
  - unfold green. apply denotes_call. exact A.
  - unfold green. destruct separate; apply denotes_call; auto.
Qed.
End Diagonal.
End Main.
