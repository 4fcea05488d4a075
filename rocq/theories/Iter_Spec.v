(** Specification of C113-C115, over the reals. *)
From Coq Require Import Reals Arith.
From Verif Require Import RealLib.
Local Open Scope R_scope.

(** in every column the other elements together are at most q times the diagonal one, which is not zero *)
Definition col_dominant (q : R) (n : nat) (A : nat -> nat -> R) : Prop :=
  forall k, (k < n)%nat -> A k k <> 0 /\ rsum n (fun j => if (j =? k)%nat then 0 else Rabs (A j k)) <= q * Rabs (A k k).
(** in every row the other elements together are less than the diagonal one *)
Definition row_dominant (n : nat) (A : nat -> nat -> R) : Prop :=
  forall k, (k < n)%nat -> rsum n (fun j => if (j =? k)%nat then 0 else Rabs (A k j)) < Rabs (A k k).
(** the distance of two vectors, weighted by the diagonal of A *)
Definition diag_dist (n : nat) (A : nat -> nat -> R) (x y : nat -> R) : R := rsum n (fun k => Rabs (A k k) * Rabs (x k - y k)).
(** p is a permutation of 0..n-1 *)
Definition bijection (n : nat) (p : nat -> nat) : Prop :=
  (forall j, (j < n)%nat -> (p j < n)%nat) /\ (forall r, (r < n)%nat -> exists j, (j < n)%nat /\ p j = r) /\
  (forall i j, (i < n)%nat -> (j < n)%nat -> p i = p j -> i = j).
(** I - A X *)
Definition residual (n : nat) (A X : nat -> nat -> R) (i j : nat) : R := (if (i =? j)%nat then 1 else 0) - rsum n (fun k => A i k * X k j).
