(** C02, C03, C04, C62 — zm_misc.c.
    Specifications: Coq's [pow], [fact], binomial coefficient
    [C n k = n! / (k! (n-k)!)] (Coq.Reals.Binomial), Coquelicot's [is_derive]
    and [continuous]. *)
From Coq Require Import Reals Lra ZArith Binomial PrimFloat.
From Coquelicot Require Import Coquelicot.
From Verif Require Import Prelude Scalar RealLib Misc_Model Misc_Proofs.
Local Open Scope R_scope.

(** C02: the loop computes the power, and needs at most 2*log2(n)+2 iterations
    (one multiplication each). *)
Theorem C02_zPowN : forall (x : R) (n : N), zPowN x n = Some (x ^ N.to_nat n).
Proof. exact zPowN_correct. Qed.
Print Assumptions C02_zPowN.

Theorem C02_zPowN_cost : forall (x : R) (n : N) (fuel : nat),
  (2 * N.to_nat (N.log2 n) + 2 <= fuel)%nat ->
  zPowN_loop fuel x n 1 = Some (x ^ N.to_nat n).
Proof. exact zPowN_bound. Qed.
Print Assumptions C02_zPowN_cost.

Example C02_example : zPowN (sofZ 3 : float) 13 = Some 1594323%float.
Proof. vm_compute. reflexivity. Qed.

(** C03 *)
Theorem C03_permutation : forall n i : nat, (i <= n)%nat ->
  zPermutation (Z.of_nat n) (Z.of_nat i) = INR (fact n) / INR (fact (n - i)).
Proof. exact zPermutation_in. Qed.
Print Assumptions C03_permutation.

Theorem C03_permutation_outside : forall n i : Z, (i < 0 \/ n < i)%Z -> zPermutation n i = 0.
Proof. exact zPermutation_out. Qed.
Print Assumptions C03_permutation_outside.

Theorem C03_factorial : forall n : nat, zFactorial (Z.of_nat n) = INR (fact n).
Proof. exact zFactorial_correct. Qed.
Print Assumptions C03_factorial.

Theorem C03_combination : forall n i : nat, (i <= n)%nat ->
  zCombination (Z.of_nat n) (Z.of_nat i) = C n i.
Proof. exact zCombination_correct. Qed.
Print Assumptions C03_combination.

Theorem C03_combination_recursive : forall n i : nat, (i <= n)%nat ->
  zCombinationRecursive (Z.of_nat n) (Z.of_nat i) = Some (C n i).
Proof. exact zCombinationRecursive_correct. Qed.
Print Assumptions C03_combination_recursive.

(** The in-place Pascal row: entries 0..n hold the binomial coefficients, the
    rest of the caller's array is untouched, nothing outside it is accessed. *)
Theorem C03_combination_series : forall (n size : nat) (c : list R),
  length c = size -> (n < size)%nat ->
  exists c', zCombinationSeries n size c = Ok (Some c') /\ length c' = size /\
    (forall k, (k <= n)%nat -> nth k c' 0 = C n k) /\
    (forall k, (n < k)%nat -> nth k c' 0 = nth k c 0).
Proof. exact zCombinationSeries_correct. Qed.
Print Assumptions C03_combination_series.

Theorem C03_combination_series_reject : forall (n size : nat) (c : list R),
  (size <= n)%nat -> zCombinationSeries n size c = Ok None.
Proof. exact (@zCombinationSeries_fail R RealS). Qed.
Print Assumptions C03_combination_series_reject.

Example C03_series_example :
  zCombinationSeries 4 6 [9; 9; 9; 9; 9; 9]%float = Ok (Some [1; 4; 6; 4; 1; 9]%float).
Proof. vm_compute. reflexivity. Qed.

(** Outside 0<=i<=n the claim "0 is returned" fails for zCombination: it answers 1. *)
Theorem C03_combination_outside_refuted : exists n i, (0 <= n < i)%Z /\ zCombination n i <> 0.
Proof. exact zCombination_out_wrong. Qed.
Print Assumptions C03_combination_outside_refuted.

Theorem C03_combination_outside_is_1 : forall n i : Z,
  (0 <= n)%Z -> (i < 0 \/ n < i)%Z -> zCombination n i = 1.
Proof. exact zCombination_out. Qed.
Print Assumptions C03_combination_outside_is_1.

(** C04: the claim fails already at the first given point ... *)
Theorem C04_zLine_refuted : exists x0 y0 x1 y1 : R, x0 <> x1 /\ zLine x0 x0 y0 x1 y1 <> y0.
Proof. exact zLine_wrong. Qed.
Print Assumptions C04_zLine_refuted.

(** ... and holds exactly when x1*y0 = 0 (the sign of one product is wrong). *)
Theorem C04_zLine_partial : forall x x0 y0 x1 y1 : R, x0 <> x1 ->
  (zLine x x0 y0 x1 y1 = y0 + (y1 - y0) / (x1 - x0) * (x - x0) <-> x1 * y0 = 0).
Proof. exact zLine_iff. Qed.
Print Assumptions C04_zLine_partial.

Example C04_float_witness : (zLine 1 1 1 2 2 = -3)%float.
Proof. vm_compute. reflexivity. Qed.

(** C62: smoothstep. *)
Theorem C62_continuous : forall (N : nat) (x : R), continuous (fun y => zSmoothStep y N) x.
Proof. exact smooth_step_continuous. Qed.
Print Assumptions C62_continuous.

Theorem C62_range : forall (N : nat) (x : R), 0 <= zSmoothStep x N <= 1.
Proof. exact smooth_step_range. Qed.
Print Assumptions C62_range.

Theorem C62_monotone : forall (N : nat) (x y : R), x <= y -> zSmoothStep x N <= zSmoothStep y N.
Proof. exact smooth_step_mono. Qed.
Print Assumptions C62_monotone.

Theorem C62_derivative : forall (N : nat) (x : R), 0 < x < 1 ->
  is_derive (fun y => zSmoothStep y N) x (zSmoothStepDif x N).
Proof. exact smooth_step_deriv. Qed.
Print Assumptions C62_derivative.

Theorem C62_derivative_closed_form : forall (N : nat) (x : R), 0 < x < 1 ->
  zSmoothStepDif x N =
  INR (fact (2 * N + 1)) / (INR (fact N) * INR (fact N)) * x ^ N * (1 - x) ^ N.
Proof. exact smooth_dif_closed. Qed.
Print Assumptions C62_derivative_closed_form.

Example C62_example : (zSmoothStep 0.5 2%nat = 0.5)%float /\ (zSmoothStep 2 2%nat = 1)%float.
Proof. vm_compute. split; reflexivity. Qed.
