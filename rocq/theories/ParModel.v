(** Model of the script edpyt/ded.py: distribution of the samples over MPI ranks, reduction of
    their results, self-consistency loop.  The solver and [smooth] are parameters. *)
From Coq Require Import String Reals List Arith NArith ZArith Bool.
From Verif Require Import Base RBase RLin CBase.
Import ListNotations.
Local Open Scope R_scope.

(** ** line 17 [from edpyt.dedlib import ded_solve, smooth] *)
(** What the two modules define (dedlib.py, dedlib_dev.py). *)
Definition dedlib_names : list string :=
  ["cumsum"; "RandomSampler"; "Gf0"; "Gfimp"; "get_occupation"; "get_entropy"; "_calc_entropy"; "_get_entropy_params"; "build_siam"; "siam_solve"; "build_moam"; "moam_solve"; "smooth";
   "defaultdict"; "np"; "njit"; "fsolve"; "interp1d"; "fftpack"; "physical_constants"; "build_gf_lanczos"; "kB"; "build_espace"; "screen_espace"; "adjust_neigsector"; "build_non_interacting_espace"; "build_gf_exact"; "check_full"; "_random"]%string.
Definition dedlib_dev_names : list string :=
  ["cumsum"; "RandomSampler"; "Gf0"; "Gfimp"; "get_evecs_occupation"; "get_occupation"; "get_entropy"; "_calc_entropy"; "_get_entropy_params"; "build_siam"; "ded_solve"; "build_moam"; "_get_occupation_full"; "get_occupation_full"; "ded_solve_multi"; "smooth"]%string.
Definition import_from (names wanted : list string) : res unit :=
  if forallb (fun w => existsb (String.eqb w) names) wanted then Ok tt else Err ImportError.

(** ** lines 60-68, the share of a rank *)
Definition my_N (N size rank : nat) : nat := N / size + (if (rank =? size - 1)%nat then N mod size else 0).
Definition my_start (n N size rank : nat) : nat := 2 * n * (N / size) * rank.
(** lines 62-65, 100 [init_rng]: the generator is seeded and [my_start] numbers are thrown away, so
    the [i]-th number that the rank draws is number [my_start + i] of the stream of that seed;
    [sample] number [t] of the rank takes [n] of them (dedlib.py:66-67). *)
Definition position (n N size rank t i : nat) : nat := my_start n N size rank + (t * n + i).
Definition rank_draw (stream : nat -> R) (n N size rank t : nat) : list R := map (fun i => stream (position n N size rank t i)) (seq 0 n).

(** ** lines 93-131, the loop *)
Section Loop.
Variables (size : nat) (tol : R) (max_it : nat).
(** [solve rank sigma0]: the buffer of the rank, lines 98-109: self-energy on the grid, then
    the two occupations and the entropy. *)
Variable solve : nat -> R -> list cx.
(** line 122: [smooth(wr, sigma)(0.).real] *)
Variable at_fermi : list cx -> R.
Definition badd (x y : list cx) : list cx := map (fun p => cxadd (fst p) (snd p)) (List.combine x y).
(** line 114 [comm.Reduce(..., op=MPI.SUM)] and lines 118-121: division by the number of ranks. *)
Definition reduce (sigma0 : R) : list cx := fold_left badd (map (fun r => solve r sigma0) (seq 1 (size - 1))) (solve 0%nat sigma0).
Definition root_buffer (sigma0 : R) : list cx := map (fun x => cxdiv x (rcx (INR size))) (reduce sigma0).
(** [recvbuf[:-3]] *)
Definition drop3 (l : list cx) : list cx := firstn (length l - 3) l.
Definition root_eps (sigma0 : R) : R := at_fermi (drop3 (root_buffer sigma0)).
(** line 95: the condition of the loop. *)
Definition goes_on (it : nat) (eps : R) : bool := (it <? max_it)%nat && Rltb tol (Rabs eps).
(** How the ranks leave the loop: all of them, after [it] rounds; or the root leaves after
    [it] rounds while the others wait for it in the next Reduce and bcast. *)
Inductive outcome := Finished (it : nat) (sigma0 : R) | Deadlock (it : nat) (sigma0 : R).
(** [eps] of the root and of the other ranks (line 94: tol + 1).  Line 130 adds the value of
    the root to sigma0 everywhere, but assigns [eps] on the root only (line 122). *)
Fixpoint rounds (fuel it : nat) (sigma0 eps eps_other : R) : res outcome :=
  match fuel with
  | O => Err OutOfFuel
  | S fuel =>
      match goes_on it eps, (1 <? size)%nat && goes_on it eps_other with
      | false, false => Ok (Finished it sigma0)
      | false, true => Ok (Deadlock it sigma0)
      | true, false => if (1 <? size)%nat then Ok (Deadlock it sigma0) else let e := root_eps sigma0 in rounds fuel (S it) (sigma0 + e) e eps_other
      | true, true => let e := root_eps sigma0 in rounds fuel (S it) (sigma0 + e) e eps_other
      end
  end.
Definition script (sigma0 : R) : res outcome := rounds (S max_it) 0 sigma0 (tol + 1) (tol + 1).
End Loop.
