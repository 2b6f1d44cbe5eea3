(** C38-C40: projections and the exact Green's function. *)
From Coq Require Import Reals List Arith NArith ZArith QArith Qcanon Bool Lia Lra.
From Verif Require CfMoreProofs.
From Verif Require Import Base RBase RLin CBase OperatorsSpec FockSpec SectorModel LocalModel MatvecModel EspaceModel
  ProjModel ProjSpec ProjProofs ProjFinalProofs CfModel GfModel GfSpec GfProofs GfSumProofs GfMoreProofs.
Import ListNotations.
Local Open Scope nat_scope.

(** C38: the projection matrices are matrix elements of the ladder operator in
    the 2n-orbital Fock space.  For up electrons the code leaves out the sign
    (-1)^(number of down electrons), which is common to the whole matrix. *)
Theorem C38_exact_up (K : CRing) n p p' q pos op (I J : sct K) :
  is_sector K n p q I -> is_sector K n p' q J -> neighbour op p p' -> (pos < n)%nat ->
  exists v, project_exact_up K pos n op I J = Ok v /\
    length v = length (s_vals K J) /\ (forall x, In x v -> length x = length (s_vals K I)) /\
    forall j i, (j < length (s_vals K J))%nat -> (i < length (s_vals K I))%nat ->
      nth i (nth j v []) (c0 K) = cmul K (z2k (parity_sign q)) (bracket K n (lad op pos) J I (vec K J j) (vec K I i)).
Proof. exact (project_exact_up_spec K n p p' q pos op I J). Qed.
Print Assumptions C38_exact_up.

Theorem C38_exact_dw (K : CRing) n p q q' pos op (I J : sct K) :
  is_sector K n p q I -> is_sector K n p q' J -> neighbour op q q' -> (pos < n)%nat ->
  exists v, project_exact_dw K pos n op I J = Ok v /\
    length v = length (s_vals K J) /\ (forall x, In x v -> length x = length (s_vals K I)) /\
    forall j i, (j < length (s_vals K J))%nat -> (i < length (s_vals K I))%nat ->
      nth i (nth j v []) (c0 K) = bracket K n (lad op (pos + n)) J I (vec K J j) (vec K I i).
Proof. exact (project_exact_dw_spec K n p q q' pos op I J). Qed.
Print Assumptions C38_exact_dw.

Theorem C38_lanczos_up (K : CRing) n p p' q pos op (I J : sct K) :
  is_sector K n p q I -> is_sector K n p' q J -> neighbour op p p' -> (pos < n)%nat ->
  exists v, project_up K pos n op I J = Ok v /\
    length v = length (s_vals K I) /\ (forall x, In x v -> length x = sdim K J) /\
    forall i a, (i < length (s_vals K I))%nat -> (a < sdim K J)%nat ->
      nth a (nth i v []) (c0 K) = cmul K (z2k (parity_sign q)) (applied K n (lad op pos) J I (vec K I i) a).
Proof. exact (project_up_spec K n p p' q pos op I J). Qed.
Print Assumptions C38_lanczos_up.

Theorem C38_lanczos_dw (K : CRing) n p q q' pos op (I J : sct K) :
  is_sector K n p q I -> is_sector K n p q' J -> neighbour op q q' -> (pos < n)%nat ->
  exists v, project_dw K pos n op I J = Ok v /\
    length v = length (s_vals K I) /\ (forall x, In x v -> length x = sdim K J) /\
    forall i a, (i < length (s_vals K I))%nat -> (a < sdim K J)%nat ->
      nth a (nth i v []) (c0 K) = applied K n (lad op (pos + n)) J I (vec K I i) a.
Proof. exact (project_dw_spec K n p q q' pos op I J). Qed.
Print Assumptions C38_lanczos_dw.

Theorem C38_transpose (K : CRing) n pos op (I J : sct K) : (pos < n)%nat ->
  (forall p p' q, is_sector K n p q I -> is_sector K n p' q J -> neighbour op p p' ->
     exists v v', project_exact_up K pos n op I J = Ok v /\ project_exact_up K pos n (opp_op op) J I = Ok v' /\
     forall j i, (j < length (s_vals K J))%nat -> (i < length (s_vals K I))%nat -> nth i (nth j v []) (c0 K) = nth j (nth i v' []) (c0 K)) /\
  (forall p q q', is_sector K n p q I -> is_sector K n p q' J -> neighbour op q q' ->
     exists v v', project_exact_dw K pos n op I J = Ok v /\ project_exact_dw K pos n (opp_op op) J I = Ok v' /\
     forall j i, (j < length (s_vals K J))%nat -> (i < length (s_vals K I))%nat -> nth i (nth j v []) (c0 K) = nth j (nth i v' []) (c0 K)).
Proof.
  exact (fun H => conj (fun p p' q HI HJ Hn => project_exact_up_transpose K n p p' q pos op I J HI HJ Hn H)
                       (fun p q q' HI HJ Hn => project_exact_dw_transpose K n p q q' pos op I J HI HJ Hn H)).
Qed.
Print Assumptions C38_transpose.

(** Two sites: sectors with one up and two up electrons next to one down electron. *)
Definition ex_I : sct QcRing := mksct QcRing (StSz [1%N; 2%N] [1%N; 2%N]) (map qz [0; 1; 2; 3]%Z)
  (Cols QcRing [map qz [1; 2; 3; 4]; map qz [0; 1; 0; 5]; map qz [1; 1; 1; 1]; map qz [0; 0; 2; 7]]%Z).
Definition ex_J : sct QcRing := mksct QcRing (StSz [3%N] [1%N; 2%N]) (map qz [5; 6]%Z) (Cols QcRing [map qz [1; 10]; map qz [0; 1]]%Z).
Example C38_ex_sectors : is_sector QcRing 2 1 1 ex_I /\ is_sector QcRing 2 2 1 ex_J.
Proof.
  split; (repeat split; try lia; try reflexivity; eexists; split; [reflexivity|]; split; [reflexivity|]; intros x [<-|[<-|H]]; try reflexivity; simpl in H; intuition (subst; reflexivity)).
Qed.
Example C38_ex_up : match project_exact_up QcRing 0 2 OpCdg ex_I ex_J with Ok v => map (map this) v | _ => [] end =
  map (map this) [map qz [-42; -51; -11; -70]; map qz [-4; -5; -1; -7]]%Z.
Proof. vm_compute. reflexivity. Qed.
Example C38_ex_back : match project_exact_up QcRing 0 2 OpC ex_J ex_I with Ok v => map (map this) v | _ => [] end =
  map (map this) [map qz [-42; -4]; map qz [-51; -5]; map qz [-11; -1]; map qz [-70; -7]]%Z.
Proof. vm_compute. reflexivity. Qed.

(** C39: the function is the Lehmann sum, its weights are non-negative with sum
    equal to the partition function, it is causal and falls off like 1/z. *)
Theorem C39_lehmann n es F beta egs pos : lists_family n es F -> (pos < n)%nat ->
  exists g, build_gf_exact n es beta egs pos 0%Z = Ok g /\
  forall e eta, gf_call g e eta = Ok (cxdiv (lehmann_up n pos beta egs F (zpoint e eta)) (rcx (Zsum n beta egs F))).
Proof. exact (gf_exact_lehmann n es F beta egs pos). Qed.
Print Assumptions C39_lehmann.

(** The point of evaluation is e + i eta, without the model's arithmetic. *)
Theorem C39_point : forall e eta, zpoint e eta = (re e, im e + eta)%R.
Proof. exact CfMoreProofs.zpoint_value. Qed.
Print Assumptions C39_point.

Theorem C39_weight n es F beta egs pos : lists_family n es F -> (pos < n)%nat ->
  (forall p q, (p <= n)%nat -> (q <= n)%nat -> eigenbasis (F p q)) ->
  exists g, build_gf_exact n es beta egs pos 0%Z = Ok g /\
  (forall x, In x (gf_q g) -> (0 <= x)%R) /\ (0 < gf_Z g)%R /\ gf_Z g = Zsum n beta egs F /\
  rsum (length (gf_q g)) (fun k => nth k (gf_q g) 0%R) = gf_Z g.
Proof. exact (gf_exact_weight n es F beta egs pos). Qed.
Print Assumptions C39_weight.

Theorem C39_causal n es F beta egs pos : lists_family n es F -> (pos < n)%nat ->
  (forall p q, (p <= n)%nat -> (q <= n)%nat -> eigenbasis (F p q)) ->
  exists g, build_gf_exact n es beta egs pos 0%Z = Ok g /\
  (forall e eta, (0 < im (zpoint e eta))%R -> exists G, gf_call g e eta = Ok G /\ (im G < 0)%R) /\
  forall L, (forall p q j i, (p < n)%nat -> (q <= n)%nat -> (j < nvals (F (S p) q))%nat -> (i < nvals (F p q))%nat ->
      (Rabs (energy (F (S p) q) j - energy (F p q) i) <= L)%R) ->
    forall e eta, let z := zpoint e eta in im z <> 0%R -> exists G, gf_call g e eta = Ok G /\
      (Rabs (re (cxsub (cxmul z G) (rcx 1))) <= L / Rabs (im z))%R /\ (Rabs (im (cxsub (cxmul z G) (rcx 1))) <= L / Rabs (im z))%R.
Proof. exact (gf_exact_causal n es F beta egs pos). Qed.
Print Assumptions C39_causal.

(** One site: every hypothesis holds for a concrete spectrum. *)
Definition ex_F : family := fun p q => mksct RRing (StSz [if p =? 0 then 0%N else 1%N] [if q =? 0 then 0%N else 1%N])
  [INR (p + q)] (Cols RRing [[1%R]]).
Definition ex_es : espace RRing := [([0; 0]%nat, ex_F 0 0); ([0; 1]%nat, ex_F 0 1); ([1; 0]%nat, ex_F 1 0); ([1; 1]%nat, ex_F 1 1)].
Example C39_ex_family : lists_family 1 ex_es ex_F /\ forall p q, (p <= 1)%nat -> (q <= 1)%nat -> eigenbasis (ex_F p q).
Proof.
  split; [split; [|split]|].
  - repeat constructor; simpl; intuition congruence.
  - intros key s. split.
    + simpl. intros [E|[E|[E|[E|[]]]]]; injection E as <- <-; [exists 0%nat, 0%nat|exists 0%nat, 1%nat|exists 1%nat, 0%nat|exists 1%nat, 1%nat]; auto 6.
    + intros (p & q & Hp & Hq & -> & ->). destruct p as [|[|]], q as [|[|]]; try lia; simpl; auto.
  - intros p q Hp Hq. destruct p as [|[|]], q as [|[|]]; try lia; repeat split; try lia; eexists; (split; [reflexivity|]); (split; [reflexivity|]); intros x [<-|[]]; reflexivity.
  - intros p q Hp Hq. destruct p as [|[|]], q as [|[|]]; try lia; (split; [reflexivity|]); intros j k Hj Hk; change (j < 1) in Hj; change (k < 1) in Hk;
    replace j with 0 by lia; replace k with 0 by lia; unfold rsum, nsum; cbn; match goal with |- ?x = ?y => change (@eq R x y) end; ring.
Qed.
Example C39_ex_value : match build_gf_exact 1 ex_es 0%R 0%R 0 0%Z with Ok g => (gf_q g, gf_l g) = ([2; 2]%R, [1; 1]%R) /\ gf_Z g = 4%R | _ => False end.
Proof.
  cbv [build_gf_exact pick bind foldM map fst snd ex_es es_get es_find find list_eq_dec].
  assert (B : forall x, boltz 0%R 0%R x = 1%R) by (intros; unfold boltz; rewrite Ropp_0, Rmult_0_l; apply exp_0).
  cbv -[Rplus Rmult Ropp Rminus IZR INR boltz pow exp]. simpl. rewrite ?B. split; [repeat f_equal; try ring | ring].
Qed.

(** C40, refuted: asking for the other spin raises ValueError for every complete
    set of sectors. *)
Theorem C40_refuted n es F beta egs pos : lists_family n es F -> (pos < n)%nat -> build_gf_exact n es beta egs pos 1%Z = Err ValueError.
Proof. exact (gf_exact_down_fails n es F beta egs pos). Qed.
Print Assumptions C40_refuted.
Example C40_ex : build_gf_exact 1 ex_es 0%R 0%R 0 1%Z = Err ValueError.
Proof. exact (C40_refuted 1 ex_es ex_F 0%R 0%R 0 (proj1 C39_ex_family) (Nat.lt_0_succ 0)). Qed.
