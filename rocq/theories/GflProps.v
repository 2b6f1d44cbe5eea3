(** Properties C52, C67 and C68: the Lanczos Green's functions. *)
From Coq Require Import Reals String List Arith NArith ZArith Bool Lia Lra.
From Verif Require CfMoreProofs.
From Verif Require Import Base RBase RLin CBase OperatorsSpec FockSpec SectorModel LocalModel MatvecModel EspaceModel ProjModel ProjSpec LanczosModel LanczosSpec
  CfModel CfSpec GfModel GfSpec GflModel GflSpec GflInstProofs GflExProofs.
Import ListNotations.
Local Open Scope R_scope.

(** C52: every element of the matrix, above and below the diagonal, is the
    resolvent element between the two excitations. *)
Theorem C52_matrix solve mvop tridiag eigh n M es beta egs ispin repr separate :
  (n <= 32)%nat -> (ispin = 0 \/ ispin = 1)%Z -> repr = "cf"%string \/ repr = "sp"%string /\ eigh_sound eigh ->
  sectors n es -> operators n mvop M -> solver n solve M -> settled n solve es ->
  (forall i, (i < n)%nat -> krylov n mvop tridiag ispin es (fun op p' q' s k a => exc n op ispin i p' q' s k a) 11) ->
  (forall i j, (i < j < n)%nat -> krylov n mvop tridiag ispin es (pair_excited n ispin i j) 0 /\ never_zero n ispin es (pair_excited n ispin i j)) ->
  exists g, build_gf2_lanczos solve mvop tridiag eigh n es beta egs ispin repr separate = Ok (es, g) /\
  forall mem e eta X, length mem = n -> (forall i, (i < n)%nat -> length (nth i mem []) = n) -> im (zpoint e eta) <> 0 ->
  (forall i, (i < n)%nat -> resolved n M ispin es i (zpoint e eta) (X i)) ->
  exists Gs, gf2_call g mem e eta = Ok Gs /\ length Gs = length (if separate then [[OpCdg]; [OpC]] else [[OpCdg; OpC]]) /\
    (forall l i j, (l < length Gs)%nat -> (i < n)%nat -> (j < n)%nat ->
      nth j (nth i (nth l Gs []) []) (rcx 0) = green n beta egs ispin es j (X i) (nth l (if separate then [[OpCdg]; [OpC]] else [[OpCdg; OpC]]) [])) /\
    (forall i j, (i <= j < n)%nat -> gf2_get g i j e eta = Ok (green n beta egs ispin es j (X i) [OpCdg; OpC])) /\
    (forall i j, (j < i < n)%nat -> gf2_get g i j e eta = Err TypeError).
Proof. exact (gf2_matrix solve mvop tridiag eigh n M es beta egs ispin repr separate). Qed.
Print Assumptions C52_matrix.

(** C52, refuted part: a state annihilated by the sum of the two operators makes
    the builder raise. *)
Theorem C52_annihilated_refuted (E : Type) maxn ND tiny (low : list R -> list R -> res E) close ga gb mvop eigh n es beta egs ispin i j repr separate op p q s k p' q' :
  (n <= 32)%nat -> sectors n es -> tiny 0 = true -> (0 < ND)%nat -> (ispin = 0 \/ ispin = 1)%Z -> (i < n)%nat -> (j < n)%nat ->
  In ([p; q], s) es -> (k < nvals s)%nat -> moved n op ispin p q = Some (p', q') ->
  (forall a, (a < dimn n p' q')%nat -> pair_excited n ispin i j op p' q' s k a = 0) ->
  exists e, build_gf_offdiag mvop (tridiag_with maxn ND tiny low close ga gb) eigh n es beta i j ispin egs repr separate = Err e.
Proof.
  exact (fun Hn HES Ht HN => offdiag_fails mvop (tridiag_with maxn ND tiny low close ga gb) eigh n es Hn HES
    (fun mv phi => zero_start_fails E maxn ND tiny low close ga gb mv phi Ht HN) beta egs ispin i j repr separate op p q s k p' q').
Qed.
Print Assumptions C52_annihilated_refuted.

(** C67: the function is the thermal sum of resolvent elements, in either
    representation; [eigh] is only used by the spectral one. *)
Theorem C67_green solve mvop tridiag eigh n M es beta egs ispin pos repr separate :
  (n <= 32)%nat -> (pos < n)%nat -> (ispin = 0 \/ ispin = 1)%Z -> repr = "cf"%string \/ repr = "sp"%string /\ eigh_sound eigh ->
  sectors n es -> operators n mvop M -> solver n solve M -> settled n solve es ->
  krylov n mvop tridiag ispin es (fun op p' q' s i a => exc n op ispin pos p' q' s i a) 11 ->
  exists ge gh, build_gf_lanczos solve mvop tridiag eigh n es beta egs pos repr ispin separate = Ok (es, ge, gh) /\
  forall e eta X, im (zpoint e eta) <> 0 -> resolved n M ispin es pos (zpoint e eta) X ->
    gl_call ge e eta = Ok (green n beta egs ispin es pos X (ops_e separate)) /\ gl_call gh e eta = Ok (green n beta egs ispin es pos X (ops_h separate)).
Proof. exact (gf_lanczos_green solve mvop tridiag eigh n M es beta egs ispin pos repr separate). Qed.
Print Assumptions C67_green.

Theorem C67_solvable n mvop M es ispin pos z : (n <= 32)%nat -> sectors n es -> operators n mvop M -> im z <> 0 ->
  exists X, resolved n M ispin es pos z X.
Proof. exact (resolved_exists n mvop M es ispin pos z). Qed.
Print Assumptions C67_solvable.

(** The Lanczos routine of the library satisfies the assumption when it stops
    only on a vanishing coefficient and its limit exceeds the dimensions. *)
Theorem C67_krylov (E : Type) maxn ND tiny (low : list R -> list R -> res E) close ga gb n mvop M ispin es f least :
  (n <= 32)%nat -> sectors n es -> operators n mvop M -> (forall x, tiny x = true <-> x = 0) -> (forall a b, exists e, low a b = Ok e) -> (forall p e, close p e = false) ->
  (2 <= ND)%nat -> (1 < maxn)%nat -> (forall p q, (p <= n)%nat -> (q <= n)%nat -> (dimn n p q < maxn)%nat) ->
  krylov n mvop (tridiag_with maxn ND tiny low close ga gb) ispin es f least.
Proof. exact (ideal_krylov E maxn ND tiny low close ga gb n mvop M ispin es f least). Qed.
Print Assumptions C67_krylov.

(** C68: the keys stay, an entry that changed is the full solution of its
    sector, and the partition function is that of the dictionary afterwards. *)
Theorem C68_dictionary solve mvop tridiag eigh n es beta egs pos repr ispin separate es' ge gh :
  build_gf_lanczos solve mvop tridiag eigh n es beta egs pos repr ispin separate = Ok (es', ge, gh) ->
  (map fst es' = map fst es /\
   forall key s, In (key, s) es' -> In (key, s) es \/
     (s_d RRing s <= 10)%nat /\ exists U, s_vecs RRing s = Cols RRing U /\ solve (s_states RRing s) = Ok (s_vals RRing s, U)) /\
  gl_Z ge = Zof beta egs es' /\ gl_Z gh = Zof beta egs es'.
Proof. exact (build_replaces solve mvop tridiag eigh n es beta egs pos repr ispin separate es' ge gh). Qed.
Print Assumptions C68_dictionary.

(** Refuted: the dictionary passed in is not what the average is taken over. *)
Theorem C68_refuted : exists solve mvop tridiag eigh n M es,
  sectors n es /\ operators n mvop M /\ solver n solve M /\
  (forall key s i a, In (key, s) es -> (i < nvals s)%nat -> (a < sdim RRing s)%nat ->
     rsum (sdim RRing s) (fun b => M (nth 0 key 0%nat) (nth 1 key 0%nat) a b * nth b (vec RRing s i) 0) = energy s i * nth a (vec RRing s i) 0) /\
  exists es' ge gh, build_gf_lanczos solve mvop tridiag eigh n es 0 0 0 "cf" 0 false = Ok (es', ge, gh) /\ Zof 0 0 es = 2 /\ gl_Z ge = 3.
Proof. exact cut_changes. Qed.
Print Assumptions C68_refuted.

(** Examples: two sites, the vacuum, a diagonal Hamiltonian. *)
Example C67_ex_assumptions : sectors 2 ex_es /\ operators 2 ex_mvop ex_M /\ solver 2 ex_solve ex_M /\ settled 2 ex_solve ex_es /\
  (forall f least, krylov 2 ex_mvop ex_tridiag 0 ex_es f least) /\ never_zero 2 0 ex_es (pair_excited 2 0 0 1) /\
  forall z, im z <> 0 -> resolved 2 ex_M 0 ex_es 0 z (ex_X z 0).
Proof.
  split; [exact ex_sectors|]. split; [exact (ex_operators 2)|]. split; [apply ex_solver; lia|]. split; [exact ex_settled|].
  split; [exact (ex_krylov 0)|]. split; [apply ex_never_zero; lia|]. intros z Hz. apply ex_resolved; auto.
Qed.
(** The point of evaluation is e + i eta, without the model's arithmetic. *)
Theorem C67_point : forall e eta, zpoint e eta = (re e, im e + eta)%R.
Proof. exact CfMoreProofs.zpoint_value. Qed.
Print Assumptions C67_point.
Example C67_ex_value beta egs e eta : im (zpoint e eta) <> 0 ->
  match build_gf_lanczos ex_solve ex_mvop ex_tridiag ex_eigh 2 ex_es beta egs 1 "cf" 0 false with
  | Ok (_, g, _) => gl_call g e eta = Ok (cxdiv (rcx 1) (cxsub (zpoint e eta) (rcx (INR 1))))
  | Err _ => False
  end.
Proof.
  intros Hz. destruct (C67_green ex_solve ex_mvop ex_tridiag ex_eigh 2 ex_M ex_es beta egs 0 1 "cf" false) as (ge & gh & E & H); auto using ex_sectors, ex_operators, ex_settled, ex_krylov; try lia.
  { apply ex_solver; lia. }
  rewrite E. destruct (H e eta (ex_X (zpoint e eta) 1) Hz) as [H1 _]; [apply ex_resolved; auto|]. rewrite H1. cbn [ops_e]. f_equal.
  rewrite (ex_green beta egs (zpoint e eta) 1 1) by (auto; lia). reflexivity.
Qed.
Example C52_ex_value beta egs e eta (mem : list (list cx)) : im (zpoint e eta) <> 0 -> map (@length cx) mem = [2; 2]%nat ->
  match build_gf2_lanczos ex_solve ex_mvop ex_tridiag ex_eigh 2 ex_es beta egs 0 "cf" false with
  | Ok (_, g) => exists G, gf2_call g mem e eta = Ok [G] /\
      forall i j, (i < 2)%nat -> (j < 2)%nat -> nth j (nth i G []) (rcx 0) = if (i =? j)%nat then cxdiv (rcx 1) (cxsub (zpoint e eta) (rcx (INR i))) else rcx 0
  | Err _ => False
  end.
Proof.
  intros Hz Lm. destruct (C52_matrix ex_solve ex_mvop ex_tridiag ex_eigh 2 ex_M ex_es beta egs 0 "cf" false) as (g & E & H); auto using ex_sectors, ex_operators, ex_settled, ex_krylov; try lia.
  { apply ex_solver; lia. } { intros i j Hij. split; [apply ex_krylov|now apply ex_never_zero]. }
  rewrite E. destruct mem as [|r0 [|r1 [|]]]; try discriminate. cbn in Lm. injection Lm as L0 L1.
  destruct (H [r0; r1] e eta (fun i => ex_X (zpoint e eta) i)) as (Gs & EG & LG & VG & _); auto.
  { intros i Hi. destruct i as [|[|]]; cbn; auto; lia. } { intros i Hi. now apply ex_resolved. }
  cbn [length] in LG. destruct Gs as [|G [|]]; try discriminate. exists G. split; [exact EG|]. intros i j Hi Hj.
  etransitivity; [exact (VG 0%nat i j (Nat.lt_0_succ 0) Hi Hj)|]. cbn [nth]. now apply ex_green.
Qed.
(** One electron on two sites in the antisymmetric combination. *)
Example C52_ex_annihilated beta egs : exists e, build_gf_offdiag ex_mvop ex_tridiag ex_eigh 2 [([1; 0]%nat, anti)] beta 0 1 0 egs "cf" false = Err e.
Proof.
  apply (C52_annihilated_refuted unit) with (op := OpC) (p := 1%nat) (q := 0%nat) (s := anti) (k := 0%nat) (p' := 0%nat) (q' := 0%nat);
    auto using anti_sectors, anti_annihilated; try lia; try reflexivity.
  - unfold NrModel.Reqb. destruct (Req_EM_T 0 0); congruence.
  - now left.
Qed.
