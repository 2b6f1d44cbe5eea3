(** Model of edpyt/eshow.py. *)
From Coq Require Import Reals List Arith NArith ZArith Bool.
From Verif Require Import Base RBase OperatorsModel LookupModel SectorModel LocalModel MatvecModel EspaceModel.
Import ListNotations.

(** The characters used: | o up-arrow down-arrow , > *)
Inductive sym := Bar | Zero | Up | Down | Comma | Close.
Definition text := list sym.

(** eshow.py:81-89: the characters added for one site. *)
Definition cell (a b : bool) : text := (if negb (a || b) then [Zero] else []) ++ (if a then [Up] else []) ++ (if b then [Down] else []) ++ [Comma].
Definition item {A} (l : list A) (i : nat) : res A := match nth_error l i with Some x => Ok x | None => Err IndexError end.
(** eshow.py:53-90 [fock]; [nup[i]] raises IndexError beyond the end. *)
Definition fock (sup sdw : N) (n : nat) : res text :=
  let nup := binrep sup n in
  let ndw := binrep sdw n in
  do state <- foldM (fun state i =>
      do a <- item nup i;
      do b <- item ndw i;
      Ok (state ++ cell a b)) (seq 0 n) [Bar];
  Ok (removelast state ++ [Close]).

(** eshow.py:25-40 [fockstates].  [hasattr(states,'up')] asks the list just
    created, so the second branch is always taken; over an Sz sector it walks
    through the two arrays of the pair, and [np.binary_repr] of an array raises
    TypeError.  The masks are 64-bit integers, unbounded here. *)
Definition fockstates (n : nat) (st : states_t) : res (list text) :=
  let mask_up := (N.shiftl 1 (N.of_nat n) - 1)%N in
  let mask_dw := N.shiftl mask_up (N.of_nat n) in
  match st with
  | StSz up dw => Err TypeError
  | StN states => mapM (fun s => fock (N.land s mask_up) (N.shiftr (N.land s mask_dw) (N.of_nat n)) n) states
  end.

(** [sorted(l, key=...)]: stable, ascending. *)
Section Sort.
Context {A : Type} (key : A -> R).
Fixpoint put (x : A) (l : list A) : list A :=
  match l with
  | [] => [x]
  | y :: l => if Rltb (key y) (key x) then y :: put x l else x :: y :: l
  end.
Definition sorted_by (l : list A) : list A := fold_right put [] l.
End Sort.

(** eshow.py:22-46 [eprint]: what is printed, one entry (sector, energy, terms)
    per line, a term being a rendered coefficient and a rendered state.  [show]
    is [evec.round(3).astype(str)]; [zip] stops at the shorter list. *)
Definition line (S : Type) := (qnums * R * list (S * text))%type.
Definition eprint {S} (show : R -> S) (espace : list (qnums * (states_t * list R * list (list R)))) (n : nat) : res (list (line S)) :=
  do estates <- foldM (fun estates e =>
      let '(ns, (st, vals, vecs)) := (e : qnums * (states_t * list R * list (list R))) in
      do fs <- fockstates n st;
      let evecs := map (fun v => combine (map show v) fs) vecs in
      Ok (estates ++ map (fun p : R * list (S * text) => (ns, fst p, snd p)) (combine vals evecs))) espace [];
  Ok (sorted_by (fun l : line S => snd (fst l)) estates).

(** eshow.py:6-19 [pdisplay]: the heights and the two ends of the lines drawn. *)
Definition charge (key : qnums) : nat := fold_right Nat.add 0 key.
Fixpoint group (d : list (nat * list R)) (k : nat) (l : list R) : list (nat * list R) :=
  match d with
  | [] => [(k, l)]
  | (k', l') :: d => if (k' =? k)%nat then (k', l' ++ l) :: d else (k', l') :: group d k l
  end.
Definition pdisplay (espace : list (qnums * list R)) : list R * list R * list R :=
  let pspace := fold_left (fun d e => group d (charge (fst e)) (snd e)) espace [] in
  let xavg := flat_map (fun e => map (fun _ => INR (fst e)) (snd e)) pspace in
  let y := flat_map snd pspace in
  (y, map (fun x => (x - 2 / 10)%R) xavg, map (fun x => (x + 2 / 10)%R) xavg).
