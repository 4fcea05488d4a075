(** What the theorems about the generalized linear equation solvers are about: weighted sums of squares and their least
    values. *)
From Verif Require Import Prelude RealLib LE_Spec Eig_Spec.
Local Open Scope R_scope.

(** sum of the squares of x_0, ..., x_(n-1) with the weights w *)
Definition wsq (n : nat) (w x : nat -> R) : R := rsum n (fun i => w i * x i ^ 2).
(** the residual of the equations A x = b in p unknowns *)
Definition resid (p : nat) (A : nat -> nat -> R) (b x : nat -> R) (i : nat) : R := mv p A x i - b i.
(** [x] belongs to [S] and has the least value of [f] there; any other element of [S] with that value agrees with it on
    its p components *)
Definition least (p : nat) (S : (nat -> R) -> Prop) (f : (nat -> R) -> R) (x : nat -> R) : Prop :=
  S x /\ forall z, S z -> f x <= f z /\ (f z <= f x -> forall i, (i < p)%nat -> z i = x i).
(** the rows, or the columns, of an n x p matrix are linearly independent *)
Definition rows_indep (n p : nat) (A : nat -> nat -> R) : Prop :=
  forall y, (forall k, (k < p)%nat -> rsum n (fun i => y i * A i k) = 0) -> forall i, (i < n)%nat -> y i = 0.
Definition cols_indep (n p : nat) (A : nat -> nat -> R) : Prop :=
  forall x, solves n p A x (fun _ => 0) -> forall k, (k < p)%nat -> x k = 0.
(** [x] has the least weighted residual of all vectors *)
Definition least_error (n p : nat) (w : nat -> R) (A : nat -> nat -> R) (b x : nat -> R) : Prop :=
  forall z, wsq n w (resid p A b x) <= wsq n w (resid p A b z).
(** the conditions of Penrose, X being p x n *)
Definition mp_inverse (n p : nat) (M X : nat -> nat -> R) : Prop :=
  (forall i k, (i < n)%nat -> (k < p)%nat -> mmul n (mmul p M X) M i k = M i k) /\
  (forall k i, (k < p)%nat -> (i < n)%nat -> mmul p (mmul n X M) X k i = X k i) /\
  (forall i j, (i < n)%nat -> (j < n)%nat -> mmul p M X i j = mmul p M X j i) /\
  (forall k l, (k < p)%nat -> (l < p)%nat -> mmul n X M k l = mmul n X M l k).
