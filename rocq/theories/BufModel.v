(** Model of the closures of edpyt/fit_cg.py with their shared work arrays:
    [Delta], [DDelta], [Chi2], [dChi2] as wired by [fit_hybrid]. Exact complex
    arithmetic. The arrays made with [np.empty] hold arbitrary values. *)
From Coq Require Import Reals List Arith ZArith Bool.
From Verif Require Import Base RBase RLin CBase FitModel.
Import ListNotations.
Local Open Scope R_scope.

(** fit_cg.py:9-16 [_delta], writing into the caller's [out]. *)
Definition delta_into (p : list R) (z out : list cx) : list cx :=
  let ek := eks p in let vk2 := map (fun v => v ^ 2) (vks p) in
  fold_left (fun out i =>
    fold_left (fun out j => upd_tot out i (cxadd (nth i out (rcx 0)) (cxdiv (rcx (nth j vk2 0)) (cxsub (nth i z (rcx 0)) (rcx (nth j ek 0))))))
      (seq 0 (length ek)) (upd_tot out i (rcx 0)))
    (seq 0 (length z)) out.
(** fit_cg.py:26-34 [_ddelta], writing into the rows of the caller's [out]. *)
Definition ddelta_into (p : list R) (z : list cx) (out : list (list cx)) : list (list cx) :=
  fold_left (fun out i => upd_tot out i (ddelta1 p (nth i z (rcx 0)) (nth i out []))) (seq 0 (length z)) out.

(** The three arrays that outlive a call: [out] of [Delta] (line 20), [out] of
    [DDelta] (line 38), [F] of [dChi2] (line 59). *)
Record buffers := { b_delta : list cx; b_ddelta : list (list cx); b_F : list cx }.

(** What the optimiser, or a script, may call. *)
Inductive call := CallDelta (p : list R) | CallChi2 (p : list R) | CallDchi2 (p : list R).
(** [delta(p)] returns the array [out] itself (a ufunc returns its output
    argument): a reference, not a copy. *)
Inductive answer := TheArray | Number (x : R) | Vector (g : res (list R)).

(** fit_cg.py:19-23, 52-55, 58-64; [n] is the [p.size] given to [DDelta] on line
    70. A [p] of another size does not match the signature of [_ddelta] and raises. *)
Definition step (z vals : list cx) (n : nat) (b : buffers) (c : call) : buffers * answer :=
  match c with
  | CallDelta p => ({| b_delta := delta_into p z (b_delta b); b_ddelta := b_ddelta b; b_F := b_F b |}, TheArray)
  | CallChi2 p =>
      let d := delta_into p z (b_delta b) in
      ({| b_delta := d; b_ddelta := b_ddelta b; b_F := b_F b |}, Number (chi2_loop vals d))
  | CallDchi2 p =>
      let d := delta_into p z (b_delta b) in
      if negb (length vals =? length d)%nat then ({| b_delta := d; b_ddelta := b_ddelta b; b_F := b_F b |}, Vector (Err ValueError)) else
      let F := map (fun q : cx * cx => cxsub (fst q) (snd q)) (combine vals d) in
      if negb (length p =? n)%nat then ({| b_delta := d; b_ddelta := b_ddelta b; b_F := F |}, Vector (Err ValueError)) else
      let dx := ddelta_into p z (b_ddelta b) in
      ({| b_delta := d; b_ddelta := dx; b_F := F |},
       Vector (Ok (map (fun k => -2 * (dotr (map re F) (map (fun row => re (nth k row (rcx 0))) dx)
                                     + dotr (map im F) (map (fun row => im (nth k row (rcx 0))) dx)) / INR (length vals)) (seq 0 n))))
  end.
Fixpoint session (z vals : list cx) (n : nat) (b : buffers) (cs : list call) : buffers * list answer :=
  match cs with
  | [] => (b, [])
  | c :: cs => let (b, a) := step z vals n b c in let (b, l) := session z vals n b cs in (b, a :: l)
  end.
