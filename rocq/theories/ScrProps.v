(** Property C129: Green's functions of screened dictionaries. *)
From Coq Require Import String Reals List Arith NArith ZArith Bool Lia Lra.
From Verif Require Import Base RBase RLin CBase SectorModel LocalModel CsrSpec MatvecModel MbModel MbSpec EspaceModel EspaceRealModel EspaceMoreProofs ProjModel ProjSpec CfModel CfSpec GfModel GfSpec GmModel GmSpec ExactSpec EighProofs ExactProps
  SymSpec RelSpec RelCorProofs GflModel GflSpec AgrModel AgrSpec AgrInstProofs AgrMainProofs SiamCutProofs VisSpec ScrSpec ScrProofs ScrRelProofs ScrMainProofs ScrExProofs.
Import ListNotations.
Local Open Scope R_scope.
Local Notation build := (build_espace RRing Rleb).
Local Notation usable repr eight := (repr = "cf"%string \/ repr = "sp"%string /\ GflSpec.eigh_sound eight).
Local Notation runs_out n prod tridiag s sc pos := (krylov n prod tridiag (Z.of_nat s) sc (fun op p' q' t i a => exc n op (Z.of_nat s) pos p' q' t i a) 11).

(** C129: the value is the Lehmann sum in which the states removed weigh nothing, over the weights kept.
    Transitions between a state kept and a state removed still count. *)
Theorem C129_value big half n h fl V hf mu z U eigh eigsh es egs tridiag eight keep sc beta e0 s repr F pos separate :
  model_ok half n h fl V U -> eigh_contract eigh -> build big half eigh eigsh n h fl V hf mu z None "sz" = Ok (es, egs) -> screen_espace RRing keep es = (Ok tt, sc) ->
  (s <= 1)%nat -> usable repr eight -> lists_family n es F -> (pos < n)%nat -> undisturbed n (Z.of_nat s) sc -> runs_out n (product_of big half n h fl V hf mu z) tridiag s sc pos ->
  exists ge gh, gf_lanczos_of big half eigh eigsh n h fl V hf mu z tridiag eight sc beta e0 pos repr (Z.of_nat s) separate = Ok (sc, ge, gh) /\
  forall e eta, im (zpoint e eta) <> 0 -> separate = false ->
    gl_call ge e eta = Ok (cxdiv (lehmann_w n s pos pos (cut_weight keep beta e0) F (zpoint e eta)) (rcx (Zsum_w n (cut_weight keep beta e0) F))).
Proof.
  exact (fun MO HC HB HSC Hs HR => kept_value big half n h fl V hf mu z U MO eigh eigsh HC es egs HB tridiag eight keep sc HSC beta e0 s repr Hs HR F pos separate).
Qed.
Print Assumptions C129_value.

(** Two related models, each screened with its own ground energy. *)
Theorem C129_related n hole sw rho sg big half h fl V hf mu z U big' half' h' fl' V' hf' mu' z' U' eigh eigh' eigsh eigsh' es es' e e' tridiag tridiag' eight eight' beta bs cutoff sc sc' s repr repr' pos :
  model_ok half n h fl V U -> model_ok half' n h' fl' V' U' -> related n hole sw rho sg (params_of big h V hf mu z U) (params_of big' h' V' hf' mu' z' U') -> eigh_contract eigh -> eigh_contract eigh' ->
  build big half eigh eigsh n h fl V hf mu z None "sz" = Ok (es, Some e) -> build big' half' eigh' eigsh' n h' fl' V' hf' mu' z' None "sz" = Ok (es', Some e') ->
  screen_espace RRing (boltzmann bs e cutoff) es = (Ok tt, sc) -> screen_espace RRing (boltzmann bs e' cutoff) es' = (Ok tt, sc') ->
  (s <= 1)%nat -> usable repr eight -> usable repr' eight' -> (pos < n)%nat -> undisturbed n (Z.of_nat s) sc ->
  runs_out n (product_of big half n h fl V hf mu z) tridiag s sc pos -> runs_out n (product_of big' half' n h' fl' V' hf' mu' z') tridiag' (spin' sw s) sc' (rho pos) ->
  exists ge gh ge' gh',
    gf_lanczos_of big half eigh eigsh n h fl V hf mu z tridiag eight sc beta e pos repr (Z.of_nat s) false = Ok (sc, ge, gh) /\
    gf_lanczos_of big' half' eigh' eigsh' n h' fl' V' hf' mu' z' tridiag' eight' sc' beta e' (rho pos) repr' (Z.of_nat (spin' sw s)) false = Ok (sc', ge', gh') /\
    forall E eta E' eta', im (zpoint E eta) <> 0 -> zpoint E' eta' = image_z hole (zpoint E eta) ->
      exists g, gl_call ge E eta = Ok g /\ gl_call ge' E' eta' = Ok (cxmul (rcx (pm hole)) g).
Proof.
  exact (fun MO MO' HRl HC HC' HB HB' HSC HSC' Hs HR HR' => related_screened n hole sw rho sg big half h fl V hf mu z U big' half' h' fl' V' hf' mu' z' U' MO MO' HRl eigh eigh' eigsh eigsh' HC HC' es es' e e' HB HB'
    tridiag tridiag' eight eight' beta bs cutoff sc sc' s repr repr' HSC HSC' Hs HR HR' pos).
Qed.
Print Assumptions C129_related.

(** Another eigensolver, Lanczos routine or representation gives the same function. *)
Theorem C129_solver n big half h fl V hf mu z U eigh eigsh es e tridiag eight beta bs cutoff sc repr eigh' eigsh' es' e' sc' tridiag' eight' repr' s pos :
  model_ok half n h fl V U -> eigh_contract eigh -> eigh_contract eigh' -> build big half eigh eigsh n h fl V hf mu z None "sz" = Ok (es, Some e) -> build big half eigh' eigsh' n h fl V hf mu z None "sz" = Ok (es', Some e') ->
  screen_espace RRing (boltzmann bs e cutoff) es = (Ok tt, sc) -> screen_espace RRing (boltzmann bs e' cutoff) es' = (Ok tt, sc') ->
  (s <= 1)%nat -> usable repr eight -> usable repr' eight' -> (pos < n)%nat -> undisturbed n (Z.of_nat s) sc ->
  runs_out n (product_of big half n h fl V hf mu z) tridiag s sc pos -> runs_out n (product_of big half n h fl V hf mu z) tridiag' s sc' pos ->
  exists ge gh ge' gh', gf_lanczos_of big half eigh eigsh n h fl V hf mu z tridiag eight sc beta e pos repr (Z.of_nat s) false = Ok (sc, ge, gh) /\
    gf_lanczos_of big half eigh' eigsh' n h fl V hf mu z tridiag' eight' sc' beta e' pos repr' (Z.of_nat s) false = Ok (sc', ge', gh') /\
    forall E eta, im (zpoint E eta) <> 0 -> exists g, gl_call ge E eta = Ok g /\ gl_call ge' E eta = Ok g.
Proof.
  exact (fun MO HC HC' HB HB' HSC HSC' Hs HR HR' => screened_solver n big half h fl V hf mu z U MO eigh eigsh HC es e HB tridiag eight beta bs cutoff sc repr HSC HR eigh' eigsh' es' e' sc' tridiag' eight' repr' s pos HC' HB' HSC' Hs HR').
Qed.
Print Assumptions C129_solver.

(** Equal one-body matrices: both spins have the same function. *)
Theorem C129_spin n big half h fl V hf mu z U eigh eigsh es e tridiag eight beta bs cutoff sc repr pos :
  model_ok half n h fl V U -> eigh_contract eigh -> build big half eigh eigsh n h fl V hf mu z None "sz" = Ok (es, Some e) -> screen_espace RRing (boltzmann bs e cutoff) es = (Ok tt, sc) ->
  usable repr eight -> spin_free n h -> (pos < n)%nat -> undisturbed n 0 sc ->
  runs_out n (product_of big half n h fl V hf mu z) tridiag 0%nat sc pos -> runs_out n (product_of big half n h fl V hf mu z) tridiag 1%nat sc pos ->
  exists ge gh ge' gh', gf_lanczos_of big half eigh eigsh n h fl V hf mu z tridiag eight sc beta e pos repr 0 false = Ok (sc, ge, gh) /\
    gf_lanczos_of big half eigh eigsh n h fl V hf mu z tridiag eight sc beta e pos repr 1 false = Ok (sc, ge', gh') /\
    forall E eta, im (zpoint E eta) <> 0 -> exists g, gl_call ge E eta = Ok g /\ gl_call ge' E eta = Ok g.
Proof.
  exact (fun MO HC HB HSC HR => screened_spin n big half h fl V hf mu z U MO eigh eigsh HC es e HB tridiag eight beta bs cutoff sc repr HSC HR pos).
Qed.
Print Assumptions C129_spin.

(** A model that is its own image under the exchange of electrons and holes: the function of a fixed
    site is odd, conjugate at the conjugate point, and purely imaginary on the imaginary axis. *)
Theorem C129_mirror n big half h fl V hf mu z U eigh eigsh es e tridiag eight beta bs cutoff sc repr rho sg s pos :
  model_ok half n h fl V U -> eigh_contract eigh -> build big half eigh eigsh n h fl V hf mu z None "sz" = Ok (es, Some e) -> screen_espace RRing (boltzmann bs e cutoff) es = (Ok tt, sc) ->
  usable repr eight -> related n true false rho sg (params_of big h V hf mu z U) (params_of big h V hf mu z U) -> (s <= 1)%nat -> (pos < n)%nat -> rho pos = pos -> undisturbed n (Z.of_nat s) sc ->
  runs_out n (product_of big half n h fl V hf mu z) tridiag s sc pos ->
  exists ge gh, gf_lanczos_of big half eigh eigsh n h fl V hf mu z tridiag eight sc beta e pos repr (Z.of_nat s) false = Ok (sc, ge, gh) /\
    (forall E eta E' eta', im (zpoint E eta) <> 0 -> zpoint E' eta' = cxopp (zpoint E eta) -> exists g, gl_call ge E eta = Ok g /\ gl_call ge E' eta' = Ok (cxopp g)) /\
    (forall E eta E' eta', im (zpoint E eta) <> 0 -> zpoint E' eta' = cxconj (zpoint E eta) -> exists g, gl_call ge E eta = Ok g /\ gl_call ge E' eta' = Ok (cxconj g)) /\
    (forall E eta, im (zpoint E eta) <> 0 -> re (zpoint E eta) = 0 -> exists g, gl_call ge E eta = Ok g /\ re g = 0).
Proof.
  exact (fun MO HC HB HSC HR => screened_mirror n big half h fl V hf mu z U MO eigh eigsh HC es e HB tridiag eight beta bs cutoff sc repr HSC HR rho sg s pos).
Qed.
Print Assumptions C129_mirror.
(** Half-filled models are such models. *)
Theorem C129_half n big half h fl V hf mu z U sg : model_ok half n h fl V U -> half_filled n big h V hf mu z U sg ->
  related n true false (fun x => x) sg (params_of big h V hf mu z U) (params_of big h V hf mu z U).
Proof. exact (fun MO HS => half_rel n big half h fl V hf mu z U MO sg HS). Qed.
Print Assumptions C129_half.

(** The condition carries over, and holds when the stored sectors are large or are not neighbours. *)
Theorem C129_undisturbed n hole sw rho sg big half h fl V hf mu z U big' half' h' fl' V' hf' mu' z' U' eigh eigh' eigsh eigsh' es es' e e' bs cutoff sc sc' s :
  model_ok half n h fl V U -> model_ok half' n h' fl' V' U' -> related n hole sw rho sg (params_of big h V hf mu z U) (params_of big' h' V' hf' mu' z' U') -> eigh_contract eigh -> eigh_contract eigh' ->
  build big half eigh eigsh n h fl V hf mu z None "sz" = Ok (es, Some e) -> build big' half' eigh' eigsh' n h' fl' V' hf' mu' z' None "sz" = Ok (es', Some e') ->
  screen_espace RRing (boltzmann bs e cutoff) es = (Ok tt, sc) -> screen_espace RRing (boltzmann bs e' cutoff) es' = (Ok tt, sc') -> (s <= 1)%nat ->
  undisturbed n (Z.of_nat s) sc -> undisturbed n (Z.of_nat (spin' sw s)) sc'.
Proof.
  exact (fun MO MO' HRl HC HC' HB HB' HSC HSC' Hs => undisturbed_image n hole sw rho sg big half h fl V hf mu z U big' half' h' fl' V' hf' mu' z' U' MO MO' HRl eigh eigh' eigsh eigsh' HC HC' es es' e e' HB HB' bs cutoff sc sc' s HSC HSC' Hs).
Qed.
Print Assumptions C129_undisturbed.
Theorem C129_apart n ispin es : (forall p q s, In ([p; q], s) es -> (10 < dimn n p q)%nat \/ listed [p; q] (flat_map (targets n ispin) (map fst es)) = false) -> undisturbed n ispin es.
Proof. exact (undisturbed_apart n ispin es). Qed.
Print Assumptions C129_apart.

(** Two separate sites with a repulsion 2 at half filling.  Screening with 1/2 at inverse temperature 5
    leaves sectors with two electrons only; the function is computed from them and is purely imaginary at the point i. *)
Example C129_ex : exists es e sc ge gh g,
  build (fun _ => true) (/ 2) real_eigh (fun _ _ _ => Err ValueError) 2 at_h at_fl (VArray RRing at_U) false (-1) None None "sz" = Ok (es, Some e) /\
  screen_espace RRing (boltzmann 5 e (/ 2)) es = (Ok tt, sc) /\ (forall p q s, In ([p; q], s) sc -> (p + q = 2)%nat) /\
  gf_lanczos_of (fun _ => true) (/ 2) real_eigh (fun _ _ _ => Err ValueError) 2 at_h at_fl (VArray RRing at_U) false (-1) None (fun _ _ => Err ValueError) (fun _ _ => Err ValueError) sc 5 e 0 "cf" 0 false = Ok (sc, ge, gh) /\
  gl_call ge (rcx 0) 1 = Ok g /\ re g = 0.
Proof.
  destruct (C85_ground (fun _ => true) (/ 2) 2 at_h at_fl (VArray RRing at_U) false (-1) None at_U real_eigh (fun _ _ _ => Err ValueError) at_ok C85_contract) as (es & e & E & _).
  pose proof (inst_sectors (fun _ => true) (/ 2) 2 at_h at_fl (VArray RRing at_U) false (-1) None at_U at_ok real_eigh (fun _ _ _ => Err ValueError) C85_contract es (Some e) E) as SE.
  pose proof (screen_ok RRing (boltzmann 5 e (/ 2)) es (sectors_paired 2 es SE) (proj1 SE)) as ES.
  destruct (C129_mirror 2 (fun _ => true) (/ 2) at_h at_fl (VArray RRing at_U) false (-1) None at_U real_eigh (fun _ _ _ => Err ValueError) es e (fun _ _ => Err ValueError) (fun _ _ => Err ValueError) 5 5 (/ 2) _ "cf" (fun x => x) (fun _ => false) 0 0
    at_ok C85_contract E ES (or_introl eq_refl) (C129_half 2 _ _ _ _ _ _ _ _ _ _ at_ok at_half) ltac:(lia) ltac:(lia) eq_refl (at_undisturbed es e _ E _ ES 0 ltac:(lia)) (small_krylov 2 _ _ _ _ _ ltac:(lia))) as (ge & gh & E1 & _ & _ & H).
  destruct (H (rcx 0) 1) as (g & G & Q); [unfold zpoint; cbn; lra|unfold zpoint; cbn; lra|].
  exists es, e, (cut_all RRing (boltzmann 5 e (/ 2)) es), ge, gh, g. split; [exact E|]. split; [exact ES|]. split; [intros p q s I; exact (proj1 (at_kept es e _ E _ ES p q s I))|]. split; [exact E1|]. split; [exact G|exact Q].
Qed.
