(** Properties C55, C71 and C72: the displays of edpyt/eshow.py. *)
From Coq Require Import Reals List Arith NArith Bool Lia Permutation.
From Verif Require Import Base OperatorsSpec LocalModel MatvecModel EspaceModel ShowModel ShowSpec ShowProofs.
Import ListNotations.

(** C55: one group of characters per site, and no two states alike. *)
Theorem C55_rendered a b n : (a < 2 ^ N.of_nat n)%N -> (b < 2 ^ N.of_nat n)%N -> 1 <= n -> fock a b n = Ok (rendered a b n).
Proof. exact (fock_rendered a b n). Qed.
Print Assumptions C55_rendered.
Theorem C55_injective a b n a' b' n' : (a < 2 ^ N.of_nat n)%N -> (b < 2 ^ N.of_nat n)%N -> (a' < 2 ^ N.of_nat n')%N -> (b' < 2 ^ N.of_nat n')%N ->
  rendered a b n = rendered a' b' n' -> n = n' /\ a = a' /\ b = b'.
Proof. exact (rendered_inj a b n a' b' n'). Qed.
Print Assumptions C55_injective.
(** fock(3,1,2) = '|ud,u>', the example of the source. *)
Example C55_ex : fock 3 1 2 = Ok [Bar; Up; Down; Comma; Up; Close] /\ fock 4 2 3 = Ok [Bar; Zero; Comma; Down; Comma; Up; Close].
Proof. split; reflexivity. Qed.

(** C71: for charge sectors every stored pair is printed once, in the order of
    the energies, with the states of its sector. *)
Theorem C71_listing {S} (show : R -> S) n (espace : list (qnums * (list N * list R * list (list R)))) : 1 <= n ->
  exists ls tss, eprint show (map (fun e => (fst e, (StN (fst (fst (snd e))), snd (fst (snd e)), snd (snd e)))) espace) n = Ok ls /\
  length tss = length espace /\
  (forall i, i < length espace -> let states := fst (fst (snd (nth i espace ([], ([], [], []))))) in
     length (nth i tss []) = length states /\ forall k, k < length states -> exists up dw, halves (nth k states 0%N) n up dw /\ nth k (nth i tss []) [] = rendered up dw n) /\
  Permutation ls (flat_map (fun p : (qnums * (list N * list R * list (list R))) * list text =>
    map (fun q : R * list R => (fst (fst p), fst q, combine (map show (snd q)) (snd p))) (combine (snd (fst (snd (fst p)))) (snd (snd (fst p))))) (combine espace tss)) /\
  ascending (map (fun l => snd (fst l)) ls).
Proof. exact (eprint_N show n espace). Qed.
Print Assumptions C71_listing.
(** Refuted for the usual sectors of fixed spin. *)
Theorem C71_refuted {S} (show : R -> S) n ns up dw vals vecs rest : eprint show ((ns, (StSz up dw, vals, vecs)) :: rest) n = Err TypeError.
Proof. exact (eprint_Sz show n ns up dw vals vecs rest). Qed.
Print Assumptions C71_refuted.
Example C71_ex : match eprint (fun x => x) [([0], (StN [0%N], [3%R], [[1%R]]))] 1 with Ok [l] => l = ([0], 3%R, [(1%R, [Bar; Zero; Close])]) | _ => False end.
Proof. reflexivity. Qed.

(** C72: one line per eigenvalue, at its charge. *)
Theorem C72_spectrum espace y lo hi : (forall e, In e espace -> length (fst e) = 1 \/ length (fst e) = 2) -> pdisplay espace = (y, lo, hi) ->
  exists xs, length xs = length y /\ lo = map (fun x => (INR x - 2 / 10)%R) xs /\ hi = map (fun x => (INR x + 2 / 10)%R) xs /\
  Permutation (combine xs y) (flat_map (fun e => map (fun v => (electrons (fst e), v)) (snd e)) espace).
Proof. exact (pdisplay_electrons espace y lo hi). Qed.
Print Assumptions C72_spectrum.
Example C72_ex : fst (fst (pdisplay [([0; 1], [5%R]); ([1; 1], [7%R; 8%R]); ([1; 0], [6%R])])) = [5%R; 6%R; 7%R; 8%R].
Proof. reflexivity. Qed.
