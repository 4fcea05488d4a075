(** What C58, C60 and C81 are about, over the reals: matrices are functions of the row and the column. *)
From Coq Require Import Reals.
From Verif Require Import RealLib.
Local Open Scope R_scope.

Definition delta (a b : nat) : R := if (a =? b)%nat then 1 else 0.
(** inner products of the columns a and b of a matrix of n rows, of the rows a and b of one of n columns *)
Definition cdot (n : nat) (V : nat -> nat -> R) (a b : nat) : R := rsum n (fun k => V k a * V k b).
Definition rdot (n : nat) (V : nat -> nat -> R) (a b : nat) : R := rsum n (fun k => V a k * V b k).
(** the first r columns of a matrix of n rows, the first r rows of a matrix of n columns are orthonormal *)
Definition orthonormal_cols (n r : nat) (V : nat -> nat -> R) : Prop :=
  forall a b, (a < r)%nat -> (b < r)%nat -> cdot n V a b = delta a b.
Definition orthonormal_rows (n r : nat) (V : nat -> nat -> R) : Prop :=
  forall a b, (a < r)%nat -> (b < r)%nat -> rdot n V a b = delta a b.
(** n x n and V^T V = V V^T = I *)
Definition orthogonal (n : nat) (V : nat -> nat -> R) : Prop := orthonormal_cols n n V /\ orthonormal_rows n n V.
(** the product of two matrices with k columns and k rows *)
Definition mmul (k : nat) (A B : nat -> nat -> R) (i j : nat) : R := rsum k (fun l => A i l * B l j).
Definition symm (n : nat) (A : nat -> nat -> R) : Prop := forall i j, (i < n)%nat -> (j < n)%nat -> A i j = A j i.
(** the sum of the squares of the elements off the diagonal *)
Definition off2 (n : nat) (A : nat -> nat -> R) : R := rsum n (fun i => rsum n (fun j => if (i =? j)%nat then 0 else A i j ^ 2)).
Definition trace (n : nat) (A : nat -> nat -> R) : R := rsum n (fun i => A i i).
