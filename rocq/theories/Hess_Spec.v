(** Specification of C110-C112, over the reals. *)
From Coq Require Import Reals Arith.
From Verif Require Import RealLib Qp_Spec Eig_Spec.
Local Open Scope R_scope.

(** upper Hessenberg: zero below the first subdiagonal *)
Definition upper_hessenberg (n : nat) (H : nat -> nat -> R) : Prop :=
  forall i j, (i < n)%nat -> (j < n)%nat -> (j + 1 < i)%nat -> H i j = 0.
Definition tridiagonal (n : nat) (H : nat -> nat -> R) : Prop :=
  forall i j, (i < n)%nat -> (j < n)%nat -> (j + 1 < i \/ i + 1 < j)%nat -> H i j = 0.
(** M = P H P^T *)
Definition similar_by (n : nat) (M P H : nat -> nat -> R) : Prop :=
  forall i j, (i < n)%nat -> (j < n)%nat -> M i j = rsum n (fun k => rsum n (fun l => P i k * H k l * P j l)).
Definition norm (n : nat) (v : nat -> R) : R := sqrt (dot n v v).
Definition unit_vec (n : nat) (v : nat -> R) : Prop := dot n v v = 1.
(** the columns of Q are an orthonormal basis of eigenvectors of M, lam the eigenvalues *)
Definition eigenbasis (n : nat) (M Q : nat -> nat -> R) (lam : nat -> R) : Prop :=
  orthogonal n Q /\ forall a i, (a < n)%nat -> (i < n)%nat -> mulv n M (fun k => Q k a) i = lam a * Q i a.
(** the component of v along the a-th basis vector *)
Definition coef (n : nat) (Q : nat -> nat -> R) (v : nat -> R) (a : nat) : R := dot n (fun k => Q k a) v.
(** the smaller of the sizes of a matrix *)
Definition smaller (r c : nat) : nat := if (c <? r)%nat then c else r.
(** the square of the length of A x for a matrix with more rows than columns, of A^T x otherwise.  The singular values of
    A are the square roots of the eigenvalues of this quadratic form. *)
Definition image2 (r c : nat) (A : nat -> nat -> R) (x : nat -> R) : R :=
  if (c <? r)%nat then rsum r (fun i => rsum c (fun j => A i j * x j) ^ 2) else rsum c (fun j => rsum r (fun i => A i j * x i) ^ 2).
