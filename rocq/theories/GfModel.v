(** Model of the Green's function builder of edpyt/gf_exact.py, with exact real
    arithmetic. *)
From Coq Require Import Reals List Arith NArith ZArith Bool.
From Verif Require Import Base RBase RLin CBase SectorModel LocalModel MatvecModel EspaceModel ProjModel CfModel.
Import ListNotations.
Local Open Scope R_scope.

(** [espace[key]] and [espace.get(key)]. *)
Definition es_find (es : espace RRing) (q : qnums) : option (sct RRing) :=
  match find (fun e => if list_eq_dec Nat.eq_dec (fst e) q then true else false) es with Some e => Some (snd e) | None => None end.
Definition es_get (es : espace RRing) (q : qnums) : res (sct RRing) :=
  match es_find es q with Some s => Ok s | None => Err KeyError end.

(** [np.exp(-beta*(e-egs))]. *)
Definition boltz (beta egs e : R) : R := exp (- beta * (e - egs)).
(** gf_exact.py:131-132 (and gf_lanczos.py:247-248), the partition function. *)
Definition partition (beta egs : R) (es : espace RRing) : R :=
  @bsum RRing _ (fun e => @bsum RRing _ (boltz beta egs) (s_vals RRing (snd e))) es.

(** gf_exact.py:29-39 [class Gf]; [gf_call] at one energy. *)
Record gf_t := mkgf { gf_q : list R; gf_l : list R; gf_Z : R }.
Definition gf_call (g : gf_t) (e : cx) (eta : R) : res cx :=
  do x <- k_sp (gf_l g) (gf_q g) e eta; Ok (cxdiv x (rcx (gf_Z g))).

(** The flattened energy differences and weights, gf_exact.py:122-126. *)
Definition lambdas_of (egs : R) (I J : sct RRing) : list R :=
  flat_map (fun ej : R => map (fun ei : R => (ej - egs) - (ei - egs)) (s_vals RRing I)) (s_vals RRing J).
Definition weights_of (beta egs : R) (I J : sct RRing) (b : list (list R)) : list R :=
  flat_map (fun p : R * list R => map (fun r : R * R => snd r ^ 2 * (boltz beta egs (fst p) + boltz beta egs (fst r))) (combine (s_vals RRing I) (snd p)))
    (combine (s_vals RRing J) b).

(** [[project_exact_up, project_exact_dw][ispin]]. *)
Definition pick {A} (ispin : Z) (up dw : A) : res A :=
  match ispin with 0 | (-2) => Ok up | 1 | (-1) => Ok dw | _ => Err IndexError end%Z.

(** gf_exact.py:88-140 [build_gf_exact]; [n] is [H.shape[-1]]; H and V are not
    used otherwise.  Keys that are not pairs cannot be unpacked. *)
Definition build_gf_exact (n : nat) (es : espace RRing) (beta egs : R) (pos : nat) (ispin : Z) : res gf_t :=
  do project <- pick ispin (project_exact_up RRing) (project_exact_dw RRing);
  do (qs, ls) <- foldM (fun acc key =>
      match key with
      | [nupI; ndwI] =>
          do sI <- es_get es [nupI; ndwI];
          if (S nupI <=? n)%nat then
            do sJ <- es_get es [S nupI; ndwI];
            do b <- project pos n OpCdg sI sJ;
            Ok (fst acc ++ weights_of beta egs sI sJ b, snd acc ++ lambdas_of egs sI sJ)
          else Ok acc
      | _ => Err ValueError
      end) (map fst es) ([] : list R, [] : list R);
  Ok (mkgf qs ls (partition beta egs es)).
