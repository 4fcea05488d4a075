(** What C106 is about, over the reals: the linear program min c x subject to A x = b, x >= 0 with n equations in p
    unknowns. *)
From Coq Require Import Reals List.
From Verif Require Import RealLib Qp_Spec.
Local Open Scope R_scope.

Definition positive (p : nat) (x : nat -> R) : Prop := forall k, (k < p)%nat -> 0 < x k.
(** what is left of A x = b, and of A^T y + z = c *)
Definition primal (p : nat) (A : nat -> nat -> R) (b x : nat -> R) (i : nat) : R := mulv p A x i - b i.
Definition dual (n : nat) (A : nat -> nat -> R) (c y z : nat -> R) (k : nat) : R := rsum n (fun i => A i k * y i) + z k - c k.
(** Newton's equations at (x, y, z) for the errors v1, v2, v3 *)
Definition newton (n p : nat) (A : nat -> nat -> R) (x z v1 v2 v3 dx dy dz : nat -> R) : Prop :=
  (forall i, (i < n)%nat -> mulv p A dx i = - v1 i) /\
  (forall k, (k < p)%nat -> rsum n (fun i => A i k * dy i) + dz k = - v2 k) /\
  (forall k, (k < p)%nat -> z k * dx k + x k * dz k = - v3 k).
(** [m] is the longest step from [x] along [d] that keeps every component not negative *)
Definition longest (p : nat) (x d : nat -> R) (m : R) : Prop :=
  (forall k, (k < p)%nat -> 0 <= x k + m * d k) /\ forall m', m < m' -> exists k, (k < p)%nat /\ x k + m' * d k < 0.
(** what is left after steps of the lengths given *)
Fixpoint left_of (l : list R) : R := match l with nil => 1 | cons a l => (1 - a) * left_of l end.
