(** C77, C78: the matrix of Green's functions (gf2_exact.py). *)
From Coq Require Import String Reals List Arith NArith ZArith Bool Lia Lra.
From Verif Require CfMoreProofs.
From Verif Require Import Base RBase RLin CBase OperatorsSpec FockSpec SectorModel LocalModel MatvecModel EspaceModel EspaceSpec
  ProjModel ProjSpec CfModel GfModel GfSpec GmModel GmSpec MbModel MbSpec GmProofs GmFreeProofs GmEomProofs GmEspaceProofs GmExProofs.
Import ListNotations.
Local Open Scope R_scope.

(** C77: for either spin the matrix is <<c_x ; c+_y>> in Lehmann form; the weights
    of entry (x, y) add up to the partition function on the diagonal and to zero
    off it; the matrix is symmetric and its diagonal is build_gf_exact. *)
Theorem C77_lehmann n es F beta egs s : lists_family n es F -> (s <= 1)%nat ->
  exists g, build_gf2_exact n es beta egs (Z.of_nat s) = Ok g /\ gm_shape g = n /\
  forall e eta, gm_call g e eta = Ok (map (fun x => map (fun y => cxdiv (lehmann n s x y beta egs F (zpoint e eta)) (rcx (Zsum n beta egs F))) (seq 0 n)) (seq 0 n)).
Proof. exact (gm_lehmann n es F beta egs s). Qed.
Print Assumptions C77_lehmann.
Theorem C77_point : forall e eta, zpoint e eta = (re e, im e + eta).
Proof. exact CfMoreProofs.zpoint_value. Qed.
Print Assumptions C77_point.
Theorem C77_weights n es F beta egs s : lists_family n es F -> (s <= 1)%nat -> (forall p q, (p <= n)%nat -> (q <= n)%nat -> eigenbasis (F p q)) ->
  exists g, build_gf2_exact n es beta egs (Z.of_nat s) = Ok g /\
  forall x y, (x < n)%nat -> (y < n)%nat -> rsum (length (gf_q (gm_gf g x y))) (fun k => nth k (gf_q (gm_gf g x y)) 0) = if (x =? y)%nat then gf_Z (gm_gf g x y) else 0.
Proof. exact (gm_weights_sum n es F beta egs s). Qed.
Print Assumptions C77_weights.
Theorem C77_consistent n es F beta egs : lists_family n es F ->
  (forall s, (s <= 1)%nat -> exists g, build_gf2_exact n es beta egs (Z.of_nat s) = Ok g /\ forall e eta, exists G, gm_call g e eta = Ok G /\
     forall x y, (x < n)%nat -> (y < n)%nat -> entry G x y = entry G y x) /\
  exists g, build_gf2_exact n es beta egs 0%Z = Ok g /\ forall x, (x < n)%nat -> exists g1, build_gf_exact n es beta egs x 0%Z = Ok g1 /\
     forall e eta, exists G, gm_call g e eta = Ok G /\ gf_call g1 e eta = Ok (entry G x x).
Proof. exact (gm_consistent n es F beta egs). Qed.
Print Assumptions C77_consistent.

(** Two sites with the hopping matrix [[9, 12], [12, 16]]: all hypotheses hold. *)
Example C77_ex_family : lists_family 2 d_es d_F /\ (forall p q, (p <= 2)%nat -> (q <= 2)%nat -> eigenbasis (d_F p q)) /\ free_pairs 2 d_h d_F.
Proof. exact (conj d_family (conj d_basis d_pairs)). Qed.
(** The weights of the off-diagonal entry at infinite temperature. *)
Example C77_ex_weights : match build_gf2_exact 2 d_es 0 0 1%Z with
  | Ok g => rsum (length (gf_q (gm_gf g 0 1))) (fun k => nth k (gf_q (gm_gf g 0 1)) 0 * nth k (gf_q (gm_gf g 0 1)) 0) <> 0 /\ length (gf_q (gm_gf g 0 1)) = 24%nat | _ => False end.
Proof.
  assert (B : forall x, boltz 0 0 x = 1) by (intros; unfold boltz; rewrite Ropp_0, Rmult_0_l; apply exp_0).
  cbv -[Rplus Rmult Ropp Rminus IZR Rdiv Rinv boltz pow exp rsum nsum]. split; [|reflexivity].
  unfold rsum, nsum. cbn -[boltz IZR]. rewrite ?B. intros H. match type of H with ?x = ?y => change (@eq R x y) in H end. cbn -[IZR] in H. lra.
Qed.

(** C78: without interaction the matrix is the resolvent (z - h)^-1 of the one-body
    Hamiltonian, at every temperature and for every reference energy. *)
Theorem C78_free n es F beta egs s h : lists_family n es F -> (s <= 1)%nat -> (forall p q, (p <= n)%nat -> (q <= n)%nat -> eigenbasis (F p q)) ->
  (forall s x y, (s < 2)%nat -> (x < n)%nat -> (y < n)%nat -> h s x y = h s y x) -> free_pairs n h F ->
  exists g, build_gf2_exact n es beta egs (Z.of_nat s) = Ok g /\
  forall e eta, im (zpoint e eta) <> 0 -> exists G, gm_call g e eta = Ok G /\ length G = n /\ (forall r, In r G -> length r = n) /\
    inverse_mat n (entry G) (shifted_mat (zpoint e eta) (h s)).
Proof. exact (gm_free n es F beta egs s h). Qed.
Print Assumptions C78_free.

(** The same from the parameters: whatever build_espace returns for U = 0. *)
Theorem C78_pipeline big half n h fl V hf mu z U leb eigh eigsh esp egs0 s beta egs :
  inter_U RRing V = Some U -> (forall i j, (i < n)%nat -> (j < n)%nat -> U i j = 0) -> inter_Jx RRing V = None -> inter_Jp RRing V = None ->
  (forall a b, leb a b = true \/ leb b a = true) -> (forall a b c, leb a b = true -> leb b c = true -> leb a c = true) ->
  (1 < n)%nat -> (n <= 32)%nat -> half + half = 1 -> (forall sp, symm RRing n (hspin RRing h sp)) -> settable RRing h fl = true ->
  eigh_sound RRing eigh -> eigsh_sound RRing eigsh -> eigh_complete eigh ->
  build_espace RRing leb big half eigh eigsh n h fl V hf mu z None "sz" = Ok (esp, egs0) -> (s <= 1)%nat ->
  exists g, build_gf2_exact n esp beta egs (Z.of_nat s) = Ok g /\
  forall e eta, im (zpoint e eta) <> 0 -> exists G, gm_call g e eta = Ok G /\ length G = n /\ (forall r, In r G -> length r = n) /\
    inverse_mat n (entry G) (shifted_mat (zpoint e eta) (one_body big mu (hspin RRing h) s)).
Proof.
  exact (fun A1 A2 A3 A4 A5 A6 A7 A8 A9 A10 A11 A12 A13 A14 A15 A16 =>
    free_pipeline big half n h fl V hf mu z U A1 A2 A3 A4 leb eigh eigsh A5 A6 A7 A8 A9 A10 A11 A12 A13 A14 esp egs0 A15 s beta egs A16).
Qed.
Print Assumptions C78_pipeline.

Example C78_ex : exists g, build_gf2_exact 2 d_es 1 7 1%Z = Ok g /\ forall e eta, im (zpoint e eta) <> 0 -> exists G, gm_call g e eta = Ok G /\ length G = 2%nat /\
  (forall r, In r G -> length r = 2%nat) /\ inverse_mat 2 (entry G) (shifted_mat (zpoint e eta) (d_h 1)).
Proof.
  apply (C78_free 2 d_es d_F 1 7 1 d_h d_family ltac:(lia) d_basis); [|exact d_pairs].
  intros s x y Hs Hx Hy. destruct x as [|[|]], y as [|[|]]; try lia; reflexivity.
Qed.
(** A solver and parameters for which the whole pipeline runs: levels without
    hopping, any number of sites. *)
Definition rleb (a b : R) : bool := if Rle_dec a b then true else false.
Example C78_ex_runs big n eps mu : (1 < n)%nat -> (n <= 32)%nat -> exists esp egs0,
  build_espace RRing rleb big (/ 2) diag_eigh no_eigsh n (hdiag eps) (mkflags true true true) v0 false mu None None "sz" = Ok (esp, egs0) /\
  exists g, build_gf2_exact n esp 1 0 0%Z = Ok g.
Proof.
  intros Hn Hn'. destruct (diag_runs big n eps mu Hn Hn' rleb) as ([esp egs0] & E). exists esp, egs0. split; [exact E|].
  destruct (C78_pipeline big (/ 2) n (hdiag eps) (mkflags true true true) v0 false mu None (fun _ _ => 0) rleb diag_eigh no_eigsh esp egs0 0 1 0) as (g & G & _); eauto; try lia.
  - intros a b. unfold rleb. destruct (Rle_dec a b), (Rle_dec b a); auto; lra.
  - intros a b c. unfold rleb. destruct (Rle_dec a b), (Rle_dec b c), (Rle_dec a c); intros; try discriminate; auto; lra.
  - lra.
  - intros sp i j _ _. cbn. rewrite (Nat.eqb_sym j i). destruct (Nat.eqb_spec i j) as [->|]; reflexivity.
  - exact diag_sound.
  - unfold eigsh_sound, no_eigsh. intros. discriminate.
  - exact diag_complete.
Qed.
