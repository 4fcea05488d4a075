(** What C107 is about, over the reals: normal densities, mixtures of them and their likelihood. *)
From Coq Require Import Reals List.
From Verif Require Import RealLib LE_Spec Qp_Spec.
Local Open Scope R_scope.

(** the quadratic form of [A] is positive but at 0 *)
Definition pd (n : nat) (A : nat -> nat -> R) : Prop := forall x, (exists i, (i < n)%nat /\ x i <> 0) -> 0 < qf n A x.
(** [P] is the inverse of [C] *)
Definition inverse (n : nat) (C P : nat -> nat -> R) : Prop := forall r c, (r < n)%nat -> (c < n)%nat -> mm n C P r c = if (r =? c)%nat then 1 else 0.
(** the normal density of the mean [mu] and the covariance [C] with the inverse [P], at [x] *)
Definition normal (n : nat) (mu : nat -> R) (C P : nat -> nat -> R) (x : nat -> R) : R :=
  exp (- (1 / 2) * qf n P (fun a => x a - mu a)) / sqrt ((2 * PI) ^ n * det n C).
(** no hyperplane contains all of the N points *)
Definition spread (n N : nat) (x : nat -> nat -> R) : Prop :=
  forall v b, (forall i, (i < N)%nat -> rsum n (fun a => v a * x i a) = b) -> forall a, (a < n)%nat -> v a = 0.

(** a mixture of K normal densities: the weights, the means, the covariances and their inverses *)
Definition is_mixture (n K : nat) (w : nat -> R) (C P : nat -> nat -> nat -> R) : Prop :=
  (forall k, (k < K)%nat -> 0 < w k /\ symmetric n (C k) /\ pd n (C k) /\ inverse n (C k) (P k)) /\ rsum K w = 1.
(** the logarithm of the likelihood of the N points *)
Definition likelihood (n K N : nat) (x : nat -> nat -> R) (w : nat -> R) (mu : nat -> nat -> R) (C P : nat -> nat -> nat -> R) : R :=
  rsum N (fun i => ln (rsum K (fun k => w k * normal n (mu k) (C k) (P k) (x i)))).
(** the mean and the covariance of the sample *)
Definition smean (N : nat) (x : nat -> nat -> R) (a : nat) : R := rsum N (fun i => x i a) / INR N.
Definition scov (N : nat) (x : nat -> nat -> R) (a b : nat) : R := rsum N (fun i => (x i a - smean N x a) * (x i b - smean N x b)) / INR N.
(** the number of the parameters of a mixture: the weights but one, the means, and the covariances *)
Definition parameters (n K : nat) : R := INR K - 1 + INR K * INR n + INR K * (INR n * (INR n + 1) / 2).
