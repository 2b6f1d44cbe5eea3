(** C85-C88: complete exact diagonalisation, from the parameters to its results,
    for every eigensolver that meets the contract of numpy.linalg.eigh. *)
From Coq Require Import String Reals List Arith NArith ZArith Bool Lia Lra.
From Verif Require Import Base RBase RLin CBase OperatorsModel OperatorsSpec FockSpec LookupSpec SectorModel LocalModel CsrSpec NonLocalSpec MatvecModel MbModel MbSpec EspaceModel
  ProjModel CfModel GfModel GfSpec GmModel GmSpec GmEspaceProofs DedModel DedSpec EighProofs ExactSpec ExactProofs ExactMoreProofs FlipExactProofs ExactFinalProofs.
Import ListNotations.
Local Open Scope R_scope.

(** The contract can be met. *)
Theorem C85_contract : eigh_contract real_eigh.
Proof. exact real_eigh_contract. Qed.
Print Assumptions C85_contract.

(** C85: build_espace succeeds, and the energy it returns is the least energy of the
    Hamiltonian over all states of the Fock space, and is attained. *)
Theorem C85_ground big half n h fl V hf mu z U eigh eigsh : model_ok half n h fl V U -> eigh_contract eigh ->
  exists es e, build_espace RRing Rleb big half eigh eigsh n h fl V hf mu z None "sz" = Ok (es, Some e) /\
    (forall psi, e * norm2 n psi <= energy_of n (many_body big half n h V hf mu z U) psi) /\
    (exists psi, norm2 n psi = 1 /\ energy_of n (many_body big half n h V hf mu z U) psi = e).
Proof. exact (ground big half n h fl V hf mu z U eigh eigsh). Qed.
Print Assumptions C85_ground.
(** Every pair of electron numbers once; in each sector all occupations, and a
    complete orthonormal basis of eigenvectors with ascending energies. *)
Theorem C85_sectors big half n h fl V hf mu z U eigh eigsh es egs : model_ok half n h fl V U -> eigh_contract eigh ->
  build_espace RRing Rleb big half eigh eigsh n h fl V hf mu z None "sz" = Ok (es, egs) ->
  NoDup (map fst es) /\ (forall key, In key (map fst es) <-> exists p q, (p <= n)%nat /\ (q <= n)%nat /\ key = [p; q]) /\
  forall p q s, In ([p; q], s) es -> exists up dw cols, s_states RRing s = StSz up dw /\ s_vecs RRing s = Cols RRing cols /\
    (forall u, In u up <-> (u < 2 ^ N.of_nat n)%N /\ popcount u = p) /\ (forall d, In d dw <-> (d < 2 ^ N.of_nat n)%N /\ popcount d = q) /\ NoDup up /\ NoDup dw /\
    let d := (length up * length dw)%nat in let psi k a := nth a (nth k cols []) 0 in
    length (s_vals RRing s) = d /\ length cols = d /\ orthonormal d d psi /\
    (forall k j l, (k < d)%nat -> (j < length up)%nat -> (l < length dw)%nat ->
      rsum (length up) (fun j' => rsum (length dw) (fun l' => many_body big half n h V hf mu z U (nth j' up 0%N) (nth l' dw 0%N) (nth j up 0%N) (nth l dw 0%N) * psi k (j' + l' * length up)%nat)) =
      nth k (s_vals RRing s) 0 * psi k (j + l * length up)%nat) /\
    forall j k, (j <= k)%nat -> (k < d)%nat -> nth j (s_vals RRing s) 0 <= nth k (s_vals RRing s) 0.
Proof. exact (fun MO HC => sectors big half n h fl V hf mu z U eigh eigsh MO HC es egs). Qed.
Print Assumptions C85_sectors.

(** Two sites with hopping -1 and repulsion 3, chemical potential 1. *)
Definition dim_h : hmat RRing := H2 RRing (fun i j => if (i =? j)%nat then 0 else -1).
Definition dim_U (i j : nat) : R := if (i =? j)%nat then 3 else 0.
Definition dim_fl : hflags := mkflags true true true.
Lemma dim_ok : model_ok (/ 2) 2 dim_h dim_fl (VArray RRing dim_U) dim_U.
Proof.
  split; [split; [lia|split; [lia|lra]]|]. split; [reflexivity|]. split; [auto|]. split; [split; exact I|]. split; [|reflexivity].
  intros sp i j _ _. cbn. rewrite (Nat.eqb_sym j i). reflexivity.
Qed.
(** The singlet: amplitude 1/2 on each doubly occupied site and 1 on the covalent
    configurations; its energy per norm is (3 - 5)/2 - 2 = -3. *)
Definition singlet (u d : N) : R :=
  match u, d with 1%N, 1%N | 2%N, 2%N => / 2 | 1%N, 2%N | 2%N, 1%N => 1 | _, _ => 0 end.
Lemma energy_dimer H : energy_of 2 H singlet =
  let e u d := (singlet 1 1 * H 1%N 1%N u d + singlet 1 2 * H 1%N 2%N u d + singlet 2 1 * H 2%N 1%N u d + singlet 2 2 * H 2%N 2%N u d) * singlet u d in
  e 1%N 1%N + e 1%N 2%N + e 2%N 1%N + e 2%N 2%N.
Proof. cbv zeta. unfold energy_of, over_states, rsum, nsum. cbn -[IZR]. cbn. ring. Qed.
Example C85_ex : exists es e, build_espace RRing Rleb (fun _ => true) (/ 2) real_eigh (fun _ _ _ => Err ValueError) 2 dim_h dim_fl (VArray RRing dim_U) false (-1) None None "sz" = Ok (es, Some e) /\ e <= -3.
Proof.
  destruct (C85_ground (fun _ => true) (/ 2) 2 dim_h dim_fl (VArray RRing dim_U) false (-1) None dim_U real_eigh (fun _ _ _ => Err ValueError) dim_ok C85_contract) as (es & e & E & LB & _).
  exists es, e. split; [exact E|]. specialize (LB singlet). rewrite energy_dimer in LB.
  assert (NN : norm2 2 singlet = 5 / 2) by (unfold norm2, over_states, rsum, nsum; cbn; field). rewrite NN in LB.
  cbv zeta in LB.
  cbv -[Rplus Rmult Ropp Rminus Rinv IZR Rdiv Rle] in LB.
  lra.
Qed.

(** C86: with the returned ground state energy the partition function lies between 1
    and 4^n at every temperature, and the Green's function of every site has
    non-negative weights that add up to it, and is causal. *)
Theorem C86_thermal big half n h fl V hf mu z U eigh eigsh es e beta : model_ok half n h fl V U -> eigh_contract eigh ->
  build_espace RRing Rleb big half eigh eigsh n h fl V hf mu z None "sz" = Ok (es, Some e) -> 0 <= beta -> forall pos, (pos < n)%nat ->
  exists g, build_gf_exact n es beta e pos 0%Z = Ok g /\ 1 <= gf_Z g <= 4 ^ n /\ (forall x, In x (gf_q g) -> 0 <= x) /\
    rsum (length (gf_q g)) (fun k => nth k (gf_q g) 0) = gf_Z g /\
    forall en eta, 0 < im (zpoint en eta) -> exists G, gf_call g en eta = Ok G /\ im G < 0.
Proof. exact (fun MO HC => thermal big half n h fl V hf mu z U eigh eigsh MO HC es e beta). Qed.
Print Assumptions C86_thermal.
(** Without interaction, for every hopping matrix: the resolvent of the one-body
    Hamiltonian. *)
Theorem C86_free big half n h fl V hf mu z U eigh eigsh s beta : model_ok half n h fl V U -> eigh_contract eigh ->
  (forall i j, (i < n)%nat -> (j < n)%nat -> U i j = 0) -> inter_Jx RRing V = None -> (s <= 1)%nat ->
  exists es e g, build_espace RRing Rleb big half eigh eigsh n h fl V hf mu z None "sz" = Ok (es, Some e) /\ build_gf2_exact n es beta e (Z.of_nat s) = Ok g /\
  forall en eta, im (zpoint en eta) <> 0 -> exists G, gm_call g en eta = Ok G /\ length G = n /\ (forall r, In r G -> length r = n) /\
    inverse_mat n (entry G) (shifted_mat (zpoint en eta) (one_body big mu (hspin RRing h) s)).
Proof. exact (fun MO HC => free big half n h fl V hf mu z U eigh eigsh MO HC s beta). Qed.
Print Assumptions C86_free.
Example C86_ex : exists es e g, build_espace RRing Rleb (fun _ => true) (/ 2) real_eigh (fun _ _ _ => Err ValueError) 2 dim_h dim_fl (VArray RRing dim_U) false (-1) None None "sz" = Ok (es, Some e) /\
  build_gf_exact 2 es 10 e 1 0%Z = Ok g /\ 1 <= gf_Z g <= 16.
Proof.
  destruct C85_ex as (es & e & E & _). destruct (C86_thermal _ _ _ _ _ _ _ _ _ _ _ _ es e 10 dim_ok C85_contract E ltac:(lra) 1 ltac:(lia)) as (g & EG & B & _).
  exists es, e, g. split; [exact E|]. split; [exact EG|]. lra.
Qed.

(** C87: the stored occupations and energies do not depend on the solver; with one
    one-body matrix for both spins the sectors (p,q) and (q,p) have the same energies. *)
Theorem C87_solver big half n h fl V hf mu z U eigh eigsh eigh' eigsh' es egs es' egs' : model_ok half n h fl V U -> eigh_contract eigh -> eigh_contract eigh' ->
  build_espace RRing Rleb big half eigh eigsh n h fl V hf mu z None "sz" = Ok (es, egs) ->
  build_espace RRing Rleb big half eigh' eigsh' n h fl V hf mu z None "sz" = Ok (es', egs') ->
  egs = egs' /\ forall key s s', In (key, s) es -> In (key, s') es' -> s_states RRing s = s_states RRing s' /\ s_vals RRing s = s_vals RRing s'.
Proof. exact (fun MO HC => solvers big half n h fl V hf mu z U eigh eigsh MO HC eigh' eigsh' es egs es' egs'). Qed.
Print Assumptions C87_solver.
Theorem C87_spin big half n h fl V hf mu z U eigh eigsh es egs p q s s' : model_ok half n h fl V U -> eigh_contract eigh ->
  (forall i j, (i < n)%nat -> (j < n)%nat -> hspin RRing h 1 i j = hspin RRing h 0 i j) ->
  build_espace RRing Rleb big half eigh eigsh n h fl V hf mu z None "sz" = Ok (es, egs) ->
  In ([p; q], s) es -> In ([q; p], s') es -> s_vals RRing s = s_vals RRing s'.
Proof. exact (fun MO HC => spins big half n h fl V hf mu z U eigh eigsh MO HC es egs p q s s'). Qed.
Print Assumptions C87_spin.
(** With different levels for the two spins the sectors differ: levels 1 and 2. *)
Definition ze_h : hmat RRing := H3 RRing (fun s i j => if (i =? j)%nat then (if (s =? 0)%nat then 1 else 2) else 0).
Lemma ze_ok : model_ok (/ 2) 2 ze_h dim_fl (VArray RRing dim_U) dim_U.
Proof.
  split; [split; [lia|split; [lia|lra]]|]. split; [reflexivity|]. split; [auto|]. split; [split; exact I|]. split; [|reflexivity].
  intros sp i j _ _. cbn. rewrite (Nat.eqb_sym j i). reflexivity.
Qed.
Lemma one_state p x l : (forall u, In u l <-> (u < 2 ^ N.of_nat 2)%N /\ popcount u = p) -> NoDup l ->
  (forall u, In u [0; 1; 2; 3]%N -> popcount u = p <-> u = x) -> In x [0; 1; 2; 3]%N -> l = [x].
Proof.
  intros H ND U X.
  assert (L4 : forall u, (u < 2 ^ N.of_nat 2)%N <-> In u [0; 1; 2; 3]%N) by (intros u; change (2 ^ N.of_nat 2)%N with 4%N; cbn [In]; lia).
  assert (A : forall u, In u l -> u = x) by (intros u Hu; apply H in Hu; destruct Hu as [Hu Pu]; apply (U u); auto; now apply L4).
  assert (B : In x l) by (apply H; split; [now apply L4|now apply U]).
  destruct l as [|a l]; [destruct B|]. rewrite (A a (or_introl eq_refl)) in *. f_equal. destruct l as [|b l]; [reflexivity|]. exfalso.
  rewrite (A b (or_intror (or_introl eq_refl))) in ND. inversion ND as [|? ? NI]. apply NI. now left.
Qed.
Example C87_ex_differ : exists es egs s s', build_espace RRing Rleb (fun _ => true) (/ 2) real_eigh (fun _ _ _ => Err ValueError) 2 ze_h dim_fl (VArray RRing dim_U) false 0 None None "sz" = Ok (es, egs) /\
  In ([2; 0]%nat, s) es /\ In ([0; 2]%nat, s') es /\ s_vals RRing s = [2] /\ s_vals RRing s' = [4].
Proof.
  destruct (C85_ground (fun _ => true) (/ 2) 2 ze_h dim_fl (VArray RRing dim_U) false 0 None dim_U real_eigh (fun _ _ _ => Err ValueError) ze_ok C85_contract) as (es & e & E & _).
  destruct (C85_sectors _ _ _ _ _ _ _ _ _ _ _ _ _ _ ze_ok C85_contract E) as (_ & KEY & SEC).
  assert (ST : forall p q, (p <= 2)%nat -> (q <= 2)%nat -> exists s, In ([p; q], s) es).
  { intros p q Hp Hq. assert (X : In [p; q] (map fst es)) by (apply KEY; eauto). apply in_map_iff in X. destruct X as ([k s] & X & Y). cbn in X. subst k. eauto. }
  destruct (ST 2%nat 0%nat ltac:(lia) ltac:(lia)) as [s I]. destruct (ST 0%nat 2%nat ltac:(lia) ltac:(lia)) as [s' I'].
  exists es, (Some e), s, s'. split; [exact E|]. split; [exact I|]. split; [exact I'|].
  assert (P2 : forall u, In u [0; 1; 2; 3]%N -> popcount u = 2%nat <-> u = 3%N) by (intros u [<-|[<-|[<-|[<-|[]]]]]; vm_compute; split; intros; congruence).
  assert (P0 : forall u, In u [0; 1; 2; 3]%N -> popcount u = 0%nat <-> u = 0%N) by (intros u [<-|[<-|[<-|[<-|[]]]]]; vm_compute; split; intros; congruence).
  split.
  - destruct (SEC _ _ _ I) as (up & dw & cols & _ & _ & HU & HD & NU & ND & SV).
    rewrite (one_state 2 3 up HU NU P2 ltac:(cbn; auto)), (one_state 0 0 dw HD ND P0 ltac:(cbn; auto)) in SV. cbn [length Nat.mul Nat.add] in SV. destruct SV as (LV & _ & ON & EV & _).
    destruct (s_vals RRing s) as [|v [|]]; try discriminate LV. f_equal. specialize (EV 0 0 0 ltac:(lia) ltac:(lia) ltac:(lia))%nat. specialize (ON 0 0 ltac:(lia) ltac:(lia))%nat.
    set (x := nth 0 (nth 0 cols []) 0) in *. cbv -[x Rplus Rmult Ropp Rminus Rinv IZR Rdiv Rle] in EV, ON. nra.
  - destruct (SEC _ _ _ I') as (up & dw & cols & _ & _ & HU & HD & NU & ND & SV).
    rewrite (one_state 0 0 up HU NU P0 ltac:(cbn; auto)), (one_state 2 3 dw HD ND P2 ltac:(cbn; auto)) in SV. cbn [length Nat.mul Nat.add] in SV. destruct SV as (LV & _ & ON & EV & _).
    destruct (s_vals RRing s') as [|v [|]]; try discriminate LV. f_equal. specialize (EV 0 0 0 ltac:(lia) ltac:(lia) ltac:(lia))%nat. specialize (ON 0 0 ltac:(lia) ltac:(lia))%nat.
    set (x := nth 0 (nth 0 cols []) 0) in *. cbv -[x Rplus Rmult Ropp Rminus Rinv IZR Rdiv Rle] in EV, ON. nra.
Qed.

(** C88: the search for the ground sector never fails, nor does a trial of the
    distributional impurity solver. *)
Theorem C88_lookup big half n h fl V hf mu z U eigh eigsh es egs tol : model_ok half n h fl V U -> eigh_contract eigh ->
  build_espace RRing Rleb big half eigh eigsh n h fl V hf mu z None "sz" = Ok (es, egs) -> 0 < tol ->
  exists key s e, egs = Some e /\ gs_sector tol es egs = Ok (key, s) /\ In (key, s) es /\ Rabs (nth 0 (s_vals RRing s) 0 - e) < tol /\
    exists v cols up dw, s_vecs RRing s = Cols RRing (v :: cols) /\ s_states RRing s = StSz up dw /\ length v = (length dw * length up)%nat.
Proof. exact (fun MO HC => lookup big half n h fl V hf mu z U eigh eigsh MO HC es egs tol). Qed.
Print Assumptions C88_lookup.
Theorem C88_trial big half eigh eigsh fsolve kB wild n U sigma0 beta zs poles : (1 < n)%nat -> (n <= 32)%nat -> half + half = 1 -> eigh_contract eigh ->
  length poles = n -> increasing n (fun i => nth i poles 0) -> finds_roots fsolve n (fun i => nth i poles 0) ->
  exists r, siam_trial big half eigh eigsh fsolve kB wild n U sigma0 beta zs poles = Ok r.
Proof. exact (fun Hn Hn' Hh HC => trial_total big half eigh eigsh fsolve kB wild n U sigma0 beta zs Hn Hn' Hh HC poles). Qed.
Print Assumptions C88_trial.
(** Poles -1 and 1, interaction 2 and chemical shift 1. *)
Example C88_ex : exists r, siam_trial (fun _ => true) (/ 2) real_eigh (fun _ _ _ => Err ValueError) (fun _ x0 => x0) 1 (fun s _ => s) 2 2 1 10 [(0, 1)] [-1; 1] = Ok r.
Proof.
  apply C88_trial; [lia|lia|lra|exact C85_contract|reflexivity| |].
  - intros i Hi. destruct i; [cbn; lra|lia].
  - intros f _ k Hk. destruct k; [|lia]. unfold pole_sum, rsum, nsum. cbn. split; [lra|]. match goal with |- ?x = ?y => change (@eq R x y) end. field.
Qed.
