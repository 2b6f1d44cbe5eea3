(** Model of edpyt/espace.py. *)
From Coq Require Import String Ascii List Arith NArith ZArith Bool.
From Verif Require Import Base LookupModel SectorModel LocalModel MatvecModel MbModel.
Import ListNotations.

(** Python [l[:k]] for an integer [k]. *)
Definition pyslice {A} (k : Z) (l : list A) : list A :=
  if (k <? 0)%Z then firstn (Z.to_nat (Z.of_nat (length l) + k)) l else firstn (Z.to_nat k) l.

(** [a[i]] with an integer [i]: negative indices count from the end. *)
Definition pyget {A} (l : list A) (i : Z) : res A :=
  let j := if (i <? 0)%Z then (i + Z.of_nat (length l))%Z else i in
  if (j <? 0)%Z then Err IndexError
  else match nth_error l (Z.to_nat j) with Some a => Ok a | None => Err IndexError end.

(** [a[i] = x] for a non-negative index. *)
Definition pyset {A} (l : list A) (i : nat) (x : A) : res (list A) :=
  match upd l i x with Some l' => Ok l' | None => Err IndexError end.

(** [str.lower], [str.upper] on ASCII characters; no other character maps to
    's', 'z' or 'N'. *)
Definition ascii_lower (c : ascii) : ascii :=
  let k := nat_of_ascii c in if (65 <=? k) && (k <=? 90) then ascii_of_nat (k + 32) else c.
Definition ascii_upper (c : ascii) : ascii :=
  let k := nat_of_ascii c in if (97 <=? k) && (k <=? 122) then ascii_of_nat (k - 32) else c.
Fixpoint str_map (f : ascii -> ascii) (s : string) : string :=
  match s with EmptyString => EmptyString | String c s => String (f c) (str_map f s) end.

Inductive symm_t := SymSz | SymN.
(** The tests [symmetry.lower() == 'sz'] / [symmetry.upper() == 'N'] of
    espace.py:91-102 and 139-148. *)
Definition symmetry_of (s : string) : res symm_t :=
  if String.eqb (str_map ascii_lower s) "sz" then Ok SymSz
  else if String.eqb (str_map ascii_upper s) "N" then Ok SymN
  else Err NotImplementedError.

(** Quantum numbers: [(nup,ndw)] or [(ndu,)]. *)
Definition qnums := list nat.

(** espace.py:111-132: the quantum numbers in the order of the iterators. *)
Definition iter_qns (sym : symm_t) (n : nat) : list qnums :=
  match sym with
  | SymSz => flat_map (fun nup => map (fun ndw => [nup; ndw]) (seq 0 (S n))) (seq 0 (S n))
  | SymN => map (fun ndu => [ndu]) (seq 0 (S (2 * n)))
  end.
(** espace.py:35-53 [build_empty_sector] and the sectors made by the iterators. *)
Definition qns_states (n : nat) (q : qnums) : res states_t :=
  match q with
  | [p] => do l <- generate_states (2 * n) p; Ok (StN l)
  | [nup; ndw] => do up <- generate_states n nup; do dw <- generate_states n ndw; Ok (StSz up dw)
  | _ => Err ValueError
  end.
(** espace.py:141 and 145. *)
Definition qns_index (sym : symm_t) (n : nat) (q : qnums) : nat :=
  match sym with SymSz => nth 0 q 0 * (n + 1) + nth 1 q 0 | SymN => nth 0 q 0 end.

(** espace.py:89-108 [get_espace_dim]; [neig_max] is [None] or an integer. *)
Definition clip (neig_max : option Z) (l : list Z) : list Z :=
  match neig_max with
  | None => l
  | Some m => if Z.eqb m 0 then l else map (fun x => if (x <=? m)%Z then x else m) l
  end.
Definition get_espace_dim (n : nat) (neig_max : option Z) (symmetry : string) : res (list Z) :=
  do sym <- symmetry_of symmetry;
  do l <- match sym with
          | SymSz =>
            foldM (fun l q =>
              do i <- get_sector_index (Z.of_nat n) (Z.of_nat (nth 0 q 0)) (Z.of_nat (nth 1 q 0));
              pyset l (Z.to_nat i) (Z.of_nat (get_sector_dim n (nth 0 q 0) (nth 1 q 0))))
              (iter_qns SymSz n) (repeat 0%Z ((n + 1) * (n + 1)))
          | SymN =>
            foldM (fun l q => pyset l (nth 0 q 0) (Z.of_nat (binom (2 * n) (nth 0 q 0))))
              (iter_qns SymN n) (repeat 0%Z (2 * n + 1))
          end;
  Ok (clip neig_max l).

Section Espace.
Variable K : CRing.
(** Comparison of energies (no NaN). *)
Variable leb : K -> K -> bool.

(** [sct.eigvecs]: [None], an array with fewer than two dimensions, or the list
    of its columns. *)
Inductive evecs := NoVecs | Vec1 | Cols (c : list (list K)).
(** A dataclass instance [Sector] with eigenvalues set. *)
Record sct := mksct { s_states : states_t; s_vals : list K; s_vecs : evecs }.
Definition s_d (s : sct) : nat := states_dim (s_states s).
(** A Python dict in insertion order. *)
Definition espace := list (qnums * sct).

Section Solve.
Variable big : K -> bool.
Variable half : K.
(** The two eigensolvers: [np.linalg.eigh(ham)] and [sla.eigsh(d,k,matvec)];
    each returns eigenvalues and the columns of the eigenvector array. *)
Variable eigh : dense K -> res (list K * list (list K)).
Variable eigsh : nat -> Z -> (list K -> res (list K)) -> res (list K * list (list K)).
(** Arguments shared by all sectors and the module-level parameters
    (shared.py).  [build_mb_ham] leaves the flags such that every later call
    behaves like the first one (C22_flag_after), so they are not threaded. *)
Variable n : nat.
Variable h : hmat K.
Variable fl : hflags.
Variable V : inter K.
Variable hf : bool.
Variable mu : K.
Variable z : option (nat -> K).

Definition sector_ops (st : states_t) : res (list (op K)) :=
  do r <- fst (build_mb_ham K big half n h fl V st hf mu z); Ok (fst r).

(** espace.py:69-76 [_solve_lapack]. *)
Definition solve_lapack (st : states_t) : res (list K * list (list K)) :=
  do ops <- sector_ops st;
  do ham <- todense K ops;
  eigh ham.
(** espace.py:79-86 [_solve_arpack]; the product's uninitialised output has no
    influence (C23_output_contents_irrelevant), any array of that size is used. *)
Definition solve_arpack (st : states_t) (k : Z) : res (list K * list (list K)) :=
  do ops <- sector_ops st;
  eigsh (states_dim st) k (fun w => matvec K (fun _ => true) ops w w None).
(** espace.py:56-66 [solve_sector]. *)
Definition solve_sector (st : states_t) (k : option Z) : res (list K * list (list K)) :=
  let d := Z.of_nat (states_dim st) in
  let k := match k with None => d | Some k => k end in
  if ((k =? d) || (d <=? 512))%Z then
    do r <- solve_lapack st;
    Ok (if (k <? d)%Z then (pyslice k (fst r), pyslice k (snd r)) else r)
  else solve_arpack st k.

(** [eigvals.min()] and [min(x, egs)]; [None] is [np.inf]. *)
Definition kmin (a b : K) : K := if leb a b then a else b.
Definition kmin_inf (a : K) (e : option K) : option K :=
  match e with None => Some a | Some b => Some (kmin a b) end.
Definition list_min (l : list K) : option K :=
  match l with [] => None | a :: l => Some (fold_left kmin l a) end.

(** The loop body espace.py:156-169. *)
Definition espace_step (sym : symm_t) (neig_sector : list Z) (acc : espace * option K) (q : qnums)
    : res (espace * option K) :=
  do st <- qns_states n q;
  do neig <- pyget neig_sector (Z.of_nat (qns_index sym n q));
  if Z.eqb neig 0 then Ok acc
  else
    do r <- solve_sector st (Some neig);
    match list_min (fst r) with
    | None => Ok acc
    | Some m => Ok (fst acc ++ [(q, mksct st (fst r) (Cols (snd r)))], kmin_inf m (snd acc))
    end.

(** espace.py:135-171 [build_espace]. *)
Definition build_espace (neig_sector : option (list Z)) (symmetry : string) : res (espace * option K) :=
  do sym <- symmetry_of symmetry;
  do neig_sector <- match neig_sector with
                    | Some l => Ok l
                    | None => get_espace_dim n None symmetry
                    end;
  foldM (espace_step sym neig_sector) (iter_qns sym n) ([], None).

End Solve.

(** ** Screening *)
(** [np.exp(-beta*(e-egs)) > cutoff] for one eigenvalue. *)
Variable relevant : K -> bool.

Fixpoint positions (i : nat) (l : list K) : list nat :=
  match l with [] => [] | a :: l => if relevant a then i :: positions (S i) l else positions (S i) l end.
Definition take_idx {A} (l : list A) (idx : list nat) : res (list A) :=
  mapM (fun i => match nth_error l i with Some a => Ok a | None => Err IndexError end) idx.

(** One pass of the loop espace.py:210-220 over the dict: the exception if one
    is raised, the dict with its (mutated) sectors, the keys to delete. *)
Definition screen_sector (s : sct) : res (option sct) :=
  if existsb relevant (s_vals s) then
    match s_vecs s with
    | NoVecs => Err AttributeError
    | Vec1 => Err RuntimeError
    | Cols c =>
      let keep_idx := positions 0 (s_vals s) in
      do v <- take_idx (s_vals s) keep_idx;
      do c <- take_idx c keep_idx;
      Ok (Some (mksct (s_states s) v (Cols c)))
    end
  else Ok None.
Fixpoint screen_loop (esp : espace) : option exn * espace * list qnums :=
  match esp with
  | [] => (None, [], [])
  | (q, s) :: rest =>
    match screen_sector s with
    | Err e => (Some e, (q, s) :: rest, [])
    | Ok None => let '(e, esp, del) := screen_loop rest in (e, (q, s) :: esp, q :: del)
    | Ok (Some s') => let '(e, esp, del) := screen_loop rest in (e, (q, s') :: esp, del)
    end
  end.
Definition qeqb (a b : qnums) : bool := if list_eq_dec Nat.eq_dec a b then true else false.
(** [espace.pop(qns)]. *)
Definition pop (q : qnums) (esp : espace) : espace := filter (fun e => negb (qeqb (fst e) q)) esp.
(** espace.py:202-223 [screen_espace]: outcome, and the caller's dict afterwards.
    (When the eigenvector lookup raises IndexError the eigenvalues of that
    sector are already cut; not modelled.) *)
Definition screen_espace (esp : espace) : res unit * espace :=
  match screen_loop esp with
  | (Some e, esp, _) => (Err e, esp)
  | (None, esp, del) => (Ok tt, fold_left (fun esp q => pop q esp) del esp)
  end.

(** ** Spectrum of independent particles *)
(** Right shift of a uint32 by an amount of 64 or more is undefined in the
    generated code: [wild] gives the result. *)
Variable wild : N -> nat -> N.
Local Open Scope cr_scope.
Definition shr (s : N) (i : nat) : N := if (i <? 64)%nat then N.shiftr s (N.of_nat i) else wild s i.
(** build_mb_ham.py:80-102 [sum_diags_contrib]. *)
Definition sum_diags_contrib (diags : list K) (s : N) : K :=
  fold_left (fun r i => if N.eqb (N.land (shr s i) 1) 0 then r else r + nth i diags 0)
    (seq 0 (length diags)) 0.
(** build_mb_ham.py:105-130 [add_onsites]: the entries written to [vec_diag],
    which all lie inside it. *)
Definition add_onsites (eup edw int_diags : list K) (up dw : list N) (hfshift : K) : list K :=
  flat_map (fun sdw => map (fun sup =>
    sum_diags_contrib eup sup + sum_diags_contrib edw sdw
    + sum_diags_contrib int_diags (N.land sup sdw) + hfshift) up) dw.

(** [eigvals.sort()]. *)
Fixpoint insert (a : K) (l : list K) : list K :=
  match l with [] => [a] | b :: l => if leb a b then a :: b :: l else b :: insert a l end.
Definition sort (l : list K) : list K := fold_right insert [] l.

(** [np.tile(ek,(2,n))]: two rows, each [n] copies of [ek] one after the other. *)
Definition tile (k : nat) (l : list K) : list K := concat (repeat l k).

(** espace.py:174-199 [build_non_interacting_espace]; [eigvals.min()] of the
    sorted array. *)
Definition non_interacting_step (n : nat) (ek : list K) (acc : espace * option K) (q : qnums)
    : res (espace * option K) :=
  do st <- qns_states n q;
  match st with
  | StSz up dw =>
    let row := tile n ek in
    let vals := sort (add_onsites row row (repeat 0 n) up dw 0) in
    match list_min vals with
    | None => Err ValueError
    | Some m => Ok (fst acc ++ [(q, mksct st vals NoVecs)], kmin_inf m (snd acc))
    end
  | StN _ => Err AttributeError
  end.
Definition build_non_interacting_espace (ek : list K) : res (espace * option K) :=
  let n := length ek in
  foldM (non_interacting_step n ek) (iter_qns SymSz n) ([], None).

(** ** Adjusting the number of requested eigenvalues *)
Definition neig_increase (n : nat) (neig : list Z) (nup ndw : nat) : res (list Z) :=
  do i <- get_sector_index (Z.of_nat n) (Z.of_nat nup) (Z.of_nat ndw);
  do x <- pyget neig i;
  pyset neig (Z.to_nat i) (Z.min (Z.of_nat (get_sector_dim n nup ndw)) (x + 1)).
Definition neig_decrease (n : nat) (neig : list Z) (nup ndw : nat) : res (list Z) :=
  do i <- get_sector_index (Z.of_nat n) (Z.of_nat nup) (Z.of_nat ndw);
  do x <- pyget neig i;
  pyset neig (Z.to_nat i) (Z.max 1 (x - 1)).

(** espace.py:255-260: advance [iter_keys] to the key, decreasing on the way. *)
Fixpoint adjust_skip (n : nat) (iter : list qnums) (q : qnums) (neig : list Z)
    : res (list qnums * list Z) :=
  match iter with
  | [] => Err StopIteration
  | q' :: iter =>
    if qeqb q q' then Ok (iter, neig)
    else do neig <- neig_decrease n neig (nth 0 q' 0%nat) (nth 1 q' 0%nat); adjust_skip n iter q neig
  end.
(** espace.py:254-266, one key. *)
Definition adjust_key (n : nat) (st : list qnums * list Z) (e : qnums * sct)
    : res (list qnums * list Z) :=
  match fst e with
  | [nup; ndw] =>
    do r <- adjust_skip n (fst st) (fst e) (snd st);
    let '(iter, neig) := r in
    do i <- get_sector_index (Z.of_nat n) (Z.of_nat nup) (Z.of_nat ndw);
    do x <- pyget neig i;
    let size := Z.of_nat (length (s_vals (snd e))) in
    if Z.eqb size x then do neig <- neig_increase n neig nup ndw; Ok (iter, neig)
    else if (size <? x)%Z then do neig <- neig_decrease n neig nup ndw; Ok (iter, neig)
    else Ok (iter, neig)
  | _ => Err ValueError   (* unpacking into nup, ndw *)
  end.
(** espace.py:226-270 [adjust_neigsector]: the request array afterwards
    (changed in place in the source). *)
Definition adjust_neigsector (n : nat) (esp : espace) (neig : list Z) : res (list Z) :=
  do r <- foldM (adjust_key n) esp (iter_qns SymSz n, neig);
  foldM (fun neig q => neig_decrease n neig (nth 0 q 0%nat) (nth 1 q 0%nat)) (fst r) (snd r).

End Espace.
