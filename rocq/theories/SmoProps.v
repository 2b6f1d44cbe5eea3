(** Theorems about the smoothing of self-energies (C113). *)
From Coq Require Import Reals List Arith ZArith Bool Lia Lra.
From Verif Require Import Base RBase RLin CBase SmoModel SmoSpec SmoProofs SmoRunProofs.
Import ListNotations.
Local Open Scope R_scope.

(** C113: [smooth] samples the straight lines through the data on a grid of spacing
    about 0.01, removes the oscillations faster than the cutoff and joins the results
    by straight lines; it is zero outside the range of the data. *)
Theorem C113_smooth : forall energies sigma cutoff, increasing energies -> length energies = length sigma -> (2 <= length energies)%nat ->
  1 / 100 <= nth (length energies - 1) energies 0 - nth 0 energies 0 ->
  exists n f (s y : nat -> cx), smooth energies sigma cutoff = Ok f /\ (2 <= n)%nat /\
  INR n <= 100 * (nth (length energies - 1) energies 0 - nth 0 energies 0) + 1 < INR n + 1 /\
  let a := nth 0 energies 0 in let b := nth (length energies - 1) energies 0 in
  let step := (b - a) / INR (n - 1) in let g := fun j => a + INR j * step in
  (forall j, (j < n)%nat -> between (fun i => nth i energies 0) (fun i => nth i sigma (rcx 0)) (length energies) (g j) (s j)) /\
  lowpass n (cutoff * (INR n * step)) (fun j => re (s j)) (fun j => re (y j)) /\ lowpass n (cutoff * (INR n * step)) (fun j => im (s j)) (fun j => im (y j)) /\
  (forall j, (j < n)%nat -> f (g j) = y j) /\ (forall x, a <= x <= b -> between g y n x (f x)) /\ forall x, x < a \/ b < x -> f x = rcx 0.
Proof. exact smooth_ok. Qed.
Print Assumptions C113_smooth.
(** That fixes the filtered samples: a linear projection that keeps the mean and never
    increases the norm. *)
Theorem C113_unique : forall n limit x y y', lowpass n limit x y -> lowpass n limit x y' -> forall j, (j < n)%nat -> y j = y' j.
Proof. exact lowpass_unique. Qed.
Print Assumptions C113_unique.
Theorem C113_value : forall n limit x y j, lowpass n limit x y -> (j < n)%nat ->
  y j = / INR n * rsum n (fun k => if slow_dec n limit k then cosamp n k x * cos (2 * PI / INR n * INR k * INR j) + sinamp n k x * sin (2 * PI / INR n * INR k * INR j) else 0).
Proof. exact lowpass_value. Qed.
Print Assumptions C113_value.
Theorem C113_twice : forall n limit x y, lowpass n limit x y -> lowpass n limit y y.
Proof. exact lowpass_twice. Qed.
Print Assumptions C113_twice.
Theorem C113_linear : forall n limit c x y x' y', lowpass n limit x y -> lowpass n limit x' y' -> lowpass n limit (fun j => c * x j + x' j) (fun j => c * y j + y' j).
Proof. exact lowpass_linear. Qed.
Print Assumptions C113_linear.
Theorem C113_mean : forall n limit x y, (0 < n)%nat -> 0 <= limit -> lowpass n limit x y -> rsum n y = rsum n x.
Proof. exact lowpass_mean. Qed.
Print Assumptions C113_mean.
Theorem C113_norm : forall n limit x y, lowpass n limit x y ->
  rsum n (fun j => x j * x j) = rsum n (fun j => y j * y j) + rsum n (fun j => (x j - y j) * (x j - y j)).
Proof. exact lowpass_norm. Qed.
Print Assumptions C113_norm.
Theorem C113_all : forall n limit x y, (0 < n)%nat -> INR n <= 2 * limit -> lowpass n limit x y -> forall j, (j < n)%nat -> y j = x j.
Proof. exact lowpass_all. Qed.
Print Assumptions C113_all.
Theorem C113_constant : forall energies cutoff c, increasing energies -> (2 <= length energies)%nat -> 0 <= cutoff ->
  let a := nth 0 energies 0 in let b := nth (length energies - 1) energies 0 in 1 / 100 <= b - a ->
  exists f, smooth energies (repeat c (length energies)) cutoff = Ok f /\ forall x, a <= x <= b -> f x = c.
Proof. exact smooth_const. Qed.
Print Assumptions C113_constant.
(** A range below 0.01 has one grid point. *)
Theorem C113_short : forall energies sigma cutoff, increasing energies -> length energies = length sigma -> (2 <= length energies)%nat ->
  nth (length energies - 1) energies 0 - nth 0 energies 0 < 1 / 100 -> smooth energies sigma cutoff = Err IndexError.
Proof. exact smooth_short. Qed.
Print Assumptions C113_short.
(** Refuted: that a self-energy with no positive imaginary part stays so (with the
    default cutoff). *)
Theorem C113_causal_refuted : exists f, smooth fine spike 2 = Ok f /\ (forall s, In s spike -> im s <= 0) /\ 0 < im (f (1 / 4)).
Proof. exact overshoot. Qed.
Print Assumptions C113_causal_refuted.
Example C113_ex : exists f, smooth [0; 1; 3] [(2, -3); (2, -3); (2, -3)] 2 = Ok f /\ f (1 / 2) = (2, -3) /\ f 3 = (2, -3).
Proof.
  destruct (smooth_const [0; 1; 3] 2 (2, -3)) as (f & E & F).
  - intros [|[|[|i]]] [|[|[|j]]] H1 H2; cbn in *; lia || lra.
  - cbn; lia.
  - lra.
  - cbn; lra.
  - exists f. split; [exact E|]. split; apply F; cbn; lra.
Qed.
Example C113_ex_freq : fftfreq 5 1 = [0 / (INR 5 * 1); 1 / (INR 5 * 1); 2 / (INR 5 * 1); -2 / (INR 5 * 1); -1 / (INR 5 * 1)].
Proof. unfold fftfreq. cbn -[Rdiv]. repeat (f_equal; try ring). Qed.
