(** Specification of C103-C105, over the reals: objectives, gradients, and the quasi-Newton formulas. *)
From Coq Require Import Reals.
From Verif Require Import RealLib Fmat Qp_Spec.
Local Open Scope R_scope.

(** the objective depends only on the n components of its argument *)
Definition respects (n : nat) (f : fvec R -> R) : Prop :=
  forall x y, vlen x = n -> vlen y = n -> (forall i, (i < n)%nat -> vel x i = vel y i) -> f x = f y.
(** x with h added to its component i *)
Definition bumped (x : fvec R) (i : nat) (h : R) : fvec R := FV (vlen x) (fun j => if (j =? i)%nat then vel x j + h else vel x j).
(** the central difference quotient of f at x in the direction i *)
Definition central (f : fvec R -> R) (eps : R) (x : fvec R) (i : nat) : R := (f (bumped x i eps) - f (bumped x i (- eps))) / (2 * eps).
(** every component of v within tol *)
Definition within (n : nat) (tol : R) (v : nat -> R) : Prop := forall i, (i < n)%nat -> Rabs (v i) <= tol.
(** The inverse Hessian updates, for a step p, the change q of the gradient and the present estimate H:
    Davidon-Fletcher-Powell and Broyden-Fletcher-Goldfarb-Shanno. *)
Definition dfp (n : nat) (H : nat -> nat -> R) (p q : nat -> R) (i j : nat) : R :=
  H i j + p i * p j / dot n p q - mulv n H q i * mulv n H q j / dot n q (mulv n H q).
Definition bfgs (n : nat) (H : nat -> nat -> R) (p q : nat -> R) (i j : nat) : R :=
  H i j + (1 + dot n q (mulv n H q) / dot n p q) * (p i * p j / dot n p q) - (p i * mulv n H q j + mulv n H q i * p j) / dot n p q.
