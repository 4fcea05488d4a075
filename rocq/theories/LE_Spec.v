(** What the linear-equation theorems are about: determinants and definite matrices. *)
From Verif Require Import Prelude RealLib.
Local Open Scope R_scope.

Definition sgn (k : nat) : R := if Nat.odd k then -1 else 1.
(** skip the number [i] *)
Definition skip (i k : nat) : nat := if (k <? i)%nat then k else S k.
(** the matrix without row [i] and column [j] *)
Definition minor (A : nat -> nat -> R) (i j : nat) : nat -> nat -> R := fun r c => A (skip i r) (skip j c).
(** determinant of the leading n x n block: expansion along the first row *)
Fixpoint det (n : nat) (A : nat -> nat -> R) : R :=
  match n with
  | O => 1
  | S k => rsum (S k) (fun j => sgn j * A 0%nat j * det k (minor A 0 j))
  end.

(** the product of the leading n columns of [A] with [x] *)
Definition mv (n : nat) (A : nat -> nat -> R) (x : nat -> R) (r : nat) : R := rsum n (fun c => A r c * x c).
(** [x] solves the k equations A x = y in n unknowns *)
Definition solves (k n : nat) (A : nat -> nat -> R) (x y : nat -> R) : Prop := forall r, (r < k)%nat -> mv n A x r = y r.
Definition nonsingular (n : nat) (A : nat -> nat -> R) : Prop :=
  forall x, solves n n A x (fun _ => 0) -> forall i, (i < n)%nat -> x i = 0.
Definition madd (A B : nat -> nat -> R) (r c : nat) : R := A r c + B r c.
(** the product of two matrices, n being the inner size *)
Definition mm (n : nat) (A B : nat -> nat -> R) (r c : nat) : R := rsum n (fun k => A r k * B k c).
(** the entries of [E] are negligible: at most tol times the largest entry of their column of [A] *)
Definition negligible (tol : R) n (A E : nat -> nat -> R) : Prop :=
  forall r c M, (r < n)%nat -> (c < n)%nat -> (forall r', (r' < n)%nat -> Rabs (A r' c) <= M) -> Rabs (E r c) <= tol * M.
(** quadratic form; positive semidefinite *)
Definition qf n (A : nat -> nat -> R) (x : nat -> R) : R := rsum n (fun r => rsum n (fun c => x r * A r c * x c)).
Definition psd n A : Prop := forall x, 0 <= qf n A x.
Definition symmetric n (A : nat -> nat -> R) : Prop := forall r c, (r < n)%nat -> (c < n)%nat -> A r c = A c r.
