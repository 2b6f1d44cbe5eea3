(** Model of edpyt/sqtnl.py:10-34: sequential elements taken out of the second-order ones. *)
From Coq Require Import Reals List Arith NArith ZArith Bool.
From Verif Require Import Base RBase RLin LookupModel SectorModel LocalModel MatvecModel EspaceModel ProjModel GfModel RateModel TransModel CotModel TnlModel.
Import ListNotations.
Local Open Scope R_scope.

(** sqtnl.py:99-110: an element with the attribute [spin]. *)
Notation labelled := (nat * gfel)%type.
(** Keys (idF, idI, spin) *)
Notation key3 := (key2 * nat)%type.
Definition key3_eqb (a b : key3) : bool := key_eqb (fst a) (fst b) && (snd a =? snd b)%nat.
(** [d[k].append(v)] *)
Fixpoint append3 (d : list (key3 * list labelled)) (k : key3) (v : labelled) : list (key3 * list labelled) :=
  match d with
  | [] => [(k, [v])]
  | (k', l) :: d => if key3_eqb k' k then (k', l ++ [v]) :: d else (k', l) :: append3 d k v
  end.
(** [d[k].extend(l)] *)
Fixpoint extend (d : list (key2 * list labelled)) (k : key2) (l : list labelled) : list (key2 * list labelled) :=
  match d with
  | [] => [(k, l)]
  | (k', l') :: d => if key_eqb k' k then (k', l' ++ l) :: d else (k', l') :: extend d k l
  end.
Definition row_of_path {X} (l : list X) (j : nat) : res X := match nth_error l j with Some x => Ok x | None => Err IndexError end.

(** [gfedict] and [gfhdict] *)
Notation gfdicts := (list (key3 * list labelled) * list (key3 * list labelled))%type.
(** sqtnl.py:22-24 and 26-28 for one [j]; [N] is at least 1 for a hole. *)
Definition ext_row (N f i : nat) (spins : nat * nat) (p : path) (D : gfdicts) (j : nat) : res gfdicts :=
  let '(De, Dh) := D in
  match p_kind p with
  | Electron =>
      do vI <- row_of_path (p_vI p) j; do E <- row_of_path (p_E p) j;
      let De := append3 De (([N + 1; j]%nat, [N; i]), snd spins) (snd spins, mkgfel Electron [N + 1; j]%nat [N; i] vI E) in
      do vF <- row_of_path (p_vF p) j;
      Ok (De, append3 Dh (([N; f], [N + 1; j]%nat), fst spins) (fst spins, mkgfel Hole [N; f] [N + 1; j]%nat vF E))
  | Hole =>
      do vI <- row_of_path (p_vI p) j; do E <- row_of_path (p_E p) j;
      let Dh := append3 Dh (([N - 1; j]%nat, [N; i]), snd spins) (snd spins, mkgfel Hole [N - 1; j]%nat [N; i] vI E) in
      do vF <- row_of_path (p_vF p) j;
      Ok (append3 De (([N; f], [N - 1; j]%nat), fst spins) (fst spins, mkgfel Electron [N; f] [N - 1; j]%nat vF E), Dh)
  end.
Definition ext_path (N f i : nat) (spins : nat * nat) (D : gfdicts) (p : path) : res gfdicts :=
  foldM (ext_row N f i spins p) (seq 0 (length (p_vI p))) D.
Definition ext_sigma (N f i : nat) (D : gfdicts) (s : nsigma) : res gfdicts := foldM (ext_path N f i (n_spins s)) (n_gf2 s) D.
(** sqtnl.py:14-28; both labels are unpacked, the number of electrons is that of [idF]. *)
Definition ext_entry (D : gfdicts) (e : key2 * list nsigma) : res gfdicts :=
  match snd (fst e), fst (fst e) with
  | [_; i], [N; f] => if (i =? f)%nat then foldM (ext_sigma N f i) (snd e) D else Ok D
  | _, _ => Err ValueError
  end.
(** sqtnl.py:10-34 [extract_sequential_from_cotunneling] *)
Definition ext_merge (D : list (key2 * list labelled)) (d : list (key3 * list labelled)) : list (key2 * list labelled) :=
  fold_left (fun D e => extend D (fst (fst e)) (snd e)) d D.
Definition extract_sequential (d : list (key2 * list nsigma)) : res (list (key2 * list labelled)) :=
  do D <- foldM ext_entry d ([], []);
  Ok (ext_merge (ext_merge [] (fst D)) (snd D)).
(** The dictionary as it is used by [build_rate_and_transition_matrices], which ignores the spins. *)
Definition unlabelled (d : list (key2 * list labelled)) : list (key2 * list gfel) := map (fun e => (fst e, map snd (snd e))) d.
