(** C118, C119: the script ded.py. *)
From Coq Require Import String Reals List Arith NArith ZArith Bool Lia Lra Psatz.
From Verif Require Import Base RBase RLin CBase DedModel ParModel ParSpec ParProofs.
Import ListNotations.
Local Open Scope R_scope.

(** C118: every sample belongs to one rank. *)
Theorem C118_shares N size : (0 < size)%nat -> total_count size (my_N N size) = N.
Proof. exact (shares_sum N size). Qed.
Theorem C118_other N size r : (r < size - 1)%nat -> my_N N size r = (N / size)%nat.
Proof. exact (share_other N size r). Qed.
(** Fewer samples than ranks: all but the last have none and their solver divides by 0. *)
Theorem C118_few big half eigh eigsh fsolve kB wild n U sigma0 beta zs dos nsamples sigma N size r draws z0 rs : (N < size)%nat -> (r < size - 1)%nat ->
  hd_error zs = Some z0 -> sampler_init dos (re z0) (re (last zs z0)) n nsamples = Ok rs ->
  siam_solve big half eigh eigsh fsolve kB wild n U sigma0 beta zs dos nsamples sigma (my_N N size r) draws = Err ZeroDivisionError.
Proof. exact (few big half eigh eigsh fsolve kB wild n U sigma0 beta zs dos nsamples sigma N size r draws z0 rs). Qed.
Example C118_ex_shares : map (my_N 11 4) (seq 0 4) = [2; 2; 2; 5]%nat /\ map (my_N 3 4) (seq 0 4) = [0; 0; 0; 3]%nat.
Proof. split; reflexivity. Qed.

(** What the root computes. *)
Theorem C118_root size solve sigma0 len j : (0 < size)%nat -> (forall r, (r < size)%nat -> length (solve r sigma0) = len) -> (j < len)%nat ->
  length (root_buffer size solve sigma0) = len /\
  nth j (root_buffer size solve sigma0) (rcx 0) = cxdiv (csum size (fun r => nth j (solve r sigma0) (rcx 0))) (rcx (INR size)).
Proof. exact (fun a b => root_entry size solve sigma0 len a b j). Qed.
(** If every rank returns the mean over its samples, this is the mean over all samples,
    whatever their values, exactly if the number of ranks divides the number of samples. *)
Theorem C118_average_iff N size : (0 < size)%nat -> (size <= N)%nat ->
  ((forall solve sigma0 len j x, (forall r, (r < size)%nat -> length (solve r sigma0) = len) -> (j < len)%nat ->
      (forall r, (r < size)%nat -> nth j (solve r sigma0) (rcx 0) = rank_mean (my_N N size) x r) ->
      nth j (root_buffer size solve sigma0) (rcx 0) = all_mean size (my_N N size) x) <-> (N mod size = 0)%nat).
Proof. exact (root_mean_iff N size). Qed.
Theorem C118_weights N size solve sigma0 len j x : (0 < size)%nat -> (size <= N)%nat -> (forall r, (r < size)%nat -> length (solve r sigma0) = len) -> (j < len)%nat ->
  (forall r, (r < size)%nat -> nth j (solve r sigma0) (rcx 0) = rank_mean (my_N N size) x r) ->
  nth j (root_buffer size solve sigma0) (rcx 0) = csum size (fun r => cxmul (rcx (/ (INR size * INR (my_N N size r)))) (csum (my_N N size r) (x r))).
Proof. exact (root_weights N size solve sigma0 len j x). Qed.
(** Five samples on two ranks, the two of rank 0 with value 1: 1/2 instead of 2/5. *)
Example C118_ex_root : nth 0 (root_buffer 2 (fun r _ => [if (r =? 0)%nat then rcx 1 else rcx 0]) 0) (rcx 0) = rcx (1 / 2) /\ all_mean 2 (my_N 5 2) (fun r _ => if (r =? 0)%nat then rcx 1 else rcx 0) = rcx (2 / 5).
Proof.
  split; [cbn|unfold all_mean, total_count, csum, nsum; cbn]; unfold rcx, cxdiv, cxinv, cxadd, cxmul, cxn2; cbn; f_equal; field.
Qed.

(** The random numbers of the ranks are disjoint if every rank needs at most twice its
    (minimal) number of accepted samples. *)
Theorem C118_disjoint n N size r r' t t' i i' : (t < 2 * (N / size))%nat -> (t' < 2 * (N / size))%nat -> (i < n)%nat -> (i' < n)%nat ->
  position n N size r t i = position n N size r' t' i' -> r = r' /\ t = t' /\ i = i'.
Proof. exact (positions_distinct n N size r r' t t' i i'). Qed.
(** A trial takes [n] consecutive numbers, the first one of a rank 2 n (N / size) rank numbers into the stream. *)
Theorem C118_draws stream n N size r t : length (rank_draw stream n N size r t) = n /\ forall i, (i < n)%nat -> nth i (rank_draw stream n N size r t) 0 = stream (2 * n * (N / size) * r + (t * n + i))%nat.
Proof. exact (draw_entries stream n N size r t). Qed.
(** Beyond that a rank repeats the samples of the next ones from their first on. *)
Theorem C118_repeated_refuted stream n N size r r' t' : (r <= r')%nat -> rank_draw stream n N size r (2 * (N / size) * (r' - r) + t') = rank_draw stream n N size r' t'.
Proof. exact (draws_shared stream n N size r r' t'). Qed.
(** Four poles, six samples, three ranks: the fifth trial of rank 0 is the first of rank 1. *)
Example C118_ex_repeated : rank_draw INR 4 6 3 0 4 = map INR [16; 17; 18; 19]%nat /\ rank_draw INR 4 6 3 1 0 = map INR [16; 17; 18; 19]%nat.
Proof. split; reflexivity. Qed.

(** C119: the import fails. *)
Theorem C119_import_refuted : import_from dedlib_names ["ded_solve"; "smooth"]%string = Err ImportError /\ import_from dedlib_dev_names ["ded_solve"; "smooth"]%string = Ok tt.
Proof. split; reflexivity. Qed.
(** The update is made from the averaged self-energy without the three numbers behind it. *)
Theorem C119_eps size solve at_fermi s w : (0 < size)%nat -> (forall r, (r < size)%nat -> length (solve r s) = (w + 3)%nat) ->
  root_eps size solve at_fermi s = at_fermi (map (fun j => cxdiv (csum size (fun r => nth j (solve r s) (rcx 0))) (rcx (INR size))) (seq 0 w)).
Proof. exact (eps_value size solve at_fermi s w). Qed.
(** One rank: the loop stops after the first round that meets the tolerance, or after max_it;
    several: they leave the loop together only if no earlier round than the last meets it. *)
Theorem C119_full size tol max_it solve at_fermi s : 0 <= tol -> (0 < max_it)%nat -> let f := root_eps size solve at_fermi in
  (forall i, (S i < max_it)%nat -> tol < Rabs (f (iterate f i s))) -> script size tol max_it solve at_fermi s = Ok (Finished max_it (iterate f max_it s)).
Proof. exact (fun a => script_full size tol max_it solve at_fermi a s). Qed.
Theorem C119_converged_refuted size tol max_it solve at_fermi s k : 0 <= tol -> (0 < k)%nat -> (k < max_it)%nat -> let f := root_eps size solve at_fermi in
  (forall i, (S i < k)%nat -> tol < Rabs (f (iterate f i s))) -> Rabs (f (iterate f (k - 1) s)) <= tol ->
  script size tol max_it solve at_fermi s = Ok (if (1 <? size)%nat then Deadlock k (iterate f k s) else Finished k (iterate f k s)).
Proof. exact (fun a => script_converged size tol max_it solve at_fermi a s k). Qed.
(** These are all cases: the root always leaves the loop. *)
Theorem C119_cases size tol max_it solve at_fermi s : let f := root_eps size solve at_fermi in max_it = 0%nat \/ ((0 < max_it)%nat /\ forall i, (S i < max_it)%nat -> tol < Rabs (f (iterate f i s))) \/
  exists k, (0 < k)%nat /\ (k < max_it)%nat /\ (forall i, (S i < k)%nat -> tol < Rabs (f (iterate f i s))) /\ Rabs (f (iterate f (k - 1) s)) <= tol.
Proof. exact (script_cases size tol max_it solve at_fermi s). Qed.
Theorem C119_none size tol solve at_fermi s : script size tol 0 solve at_fermi s = Ok (Finished 0 s).
Proof. exact (script_none size tol 0 solve at_fermi s eq_refl). Qed.
(** With one rank a stop before max_it means convergence. *)
Theorem C119_stopped tol max_it solve at_fermi s k s' : 0 <= tol -> (k < max_it)%nat -> script 1 tol max_it solve at_fermi s = Ok (Finished k s') ->
  exists last, s' = last + root_eps 1 solve at_fermi last /\ Rabs (root_eps 1 solve at_fermi last) <= tol.
Proof. exact (script_stopped tol max_it solve at_fermi s k s'). Qed.
(** Sigma(0) = -sigma0/2: sigma0 is halved in every round; tolerance 1/8 is met in round 3. *)
Definition ex_solve (_ : nat) (s : R) : list cx := [rcx (- s / 2); rcx 0; rcx 0; rcx 0].
Definition ex_fermi (l : list cx) : R := re (nth 0 l (rcx 0)).
Lemma ex_eps size s : size = 1%nat \/ size = 2%nat -> root_eps size ex_solve ex_fermi s = - s / 2.
Proof. intros [->| ->]; unfold root_eps, ex_fermi, root_buffer, reduce, drop3, ex_solve, badd; cbn; unfold rcx, cxdiv, cxinv, cxadd, cxmul, cxn2; cbn; field. Qed.
Lemma ex_run size : size = 1%nat \/ size = 2%nat -> script size (1 / 8) 10 ex_solve ex_fermi 1 = Ok (if (1 <? size)%nat then Deadlock 3 (1 / 8) else Finished 3 (1 / 8)).
Proof.
  intros Hs. pose proof (fun s => ex_eps size s Hs) as E. assert (I : forall k, iterate (root_eps size ex_solve ex_fermi) k 1 = (1 / 2) ^ k).
  { induction k as [|k IH]; [reflexivity|]. cbn [iterate pow]. rewrite E, IH. field. }
  pose proof (C119_converged_refuted size (1 / 8) 10 ex_solve ex_fermi 1 3 ltac:(lra) ltac:(lia) ltac:(lia)) as H. cbv zeta in H. rewrite H.
  - rewrite I. replace ((1 / 2) ^ 3) with (1 / 8) by field. reflexivity.
  - intros i Hi. rewrite I, E. assert (i = 0 \/ i = 1)%nat as [->| ->] by lia; cbn [pow]; unfold Rabs; destruct (Rcase_abs _); lra.
  - rewrite I, E. cbn [pow Nat.sub]. unfold Rabs; destruct (Rcase_abs _); lra.
Qed.
Example C119_ex1 : script 1 (1 / 8) 10 ex_solve ex_fermi 1 = Ok (Finished 3 (1 / 8)).
Proof. exact (ex_run 1 (or_introl eq_refl)). Qed.
Example C119_ex2 : script 2 (1 / 8) 10 ex_solve ex_fermi 1 = Ok (Deadlock 3 (1 / 8)).
Proof. exact (ex_run 2 (or_intror eq_refl)). Qed.

Print Assumptions C118_shares.
Print Assumptions C118_other.
Print Assumptions C118_few.
Print Assumptions C118_root.
Print Assumptions C118_average_iff.
Print Assumptions C118_weights.
Print Assumptions C118_disjoint.
Print Assumptions C118_draws.
Print Assumptions C118_repeated_refuted.
Print Assumptions C119_import_refuted.
Print Assumptions C119_eps.
Print Assumptions C119_full.
Print Assumptions C119_converged_refuted.
Print Assumptions C119_cases.
Print Assumptions C119_none.
Print Assumptions C119_stopped.
