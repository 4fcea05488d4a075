(** Specification of C43 and C44, over the reals (with Qp_Spec). *)
From Coq Require Import Reals.
From Verif Require Import RealLib Qp_Spec.
Local Open Scope R_scope.

(** x minimises c x over the points A x = b, x >= 0 *)
Definition lp_optimal (m n : nat) (A : nat -> nat -> R) (b c x : nat -> R) : Prop :=
  std_feasible m n A b x /\ forall y, std_feasible m n A b y -> dot n c x <= dot n c y.
(** the combination of the rows with the weights l *)
Definition comb (m : nat) (A : nat -> nat -> R) (l : nat -> R) (j : nat) : R := rsum m (fun i => l i * A i j).
Definition independent (m n : nat) (A : nat -> nat -> R) : Prop :=
  forall l, (forall j, (j < n)%nat -> comb m A l j = 0) -> forall i, (i < m)%nat -> l i = 0.
(** no combination of the rows, one weight being 1 or -1, has components within tol only *)
Definition robust (tol : R) (m n : nat) (A : nat -> nat -> R) : Prop :=
  forall l, (exists i, (i < m)%nat /\ Rabs (l i) = 1) -> exists j, (j < n)%nat /\ tol < Rabs (comb m A l j).
