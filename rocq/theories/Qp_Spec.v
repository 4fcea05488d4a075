(** Specification of C45 and C46, over the reals.  Vectors are functions on 0..n-1. *)
From Coq Require Import Reals.
From Verif Require Import RealLib.
Local Open Scope R_scope.

Definition dot (n : nat) (u v : nat -> R) : R := rsum n (fun i => u i * v i).
(** the product of a matrix and a vector of n components *)
Definition mulv (n : nat) (M : nat -> nat -> R) (v : nat -> R) (i : nat) : R := rsum n (fun j => M i j * v j).
(** 1/2 x^T Q x + c^T x *)
Definition quad (n : nat) (Q : nat -> nat -> R) (c x : nat -> R) : R := dot n x (mulv n Q x) / 2 + dot n c x.
Definition symmetric (n : nat) (Q : nat -> nat -> R) : Prop := forall i j, (i < n)%nat -> (j < n)%nat -> Q i j = Q j i.
Definition psd (n : nat) (Q : nat -> nat -> R) : Prop := forall v, 0 <= dot n v (mulv n Q v).
Definition pos_def (n : nat) (Q : nat -> nat -> R) : Prop :=
  forall v, (exists i, (i < n)%nat /\ v i <> 0) -> 0 < dot n v (mulv n Q v).
Definition nonneg (n : nat) (v : nat -> R) : Prop := forall i, (i < n)%nat -> 0 <= v i.
(** A x >= b, x >= 0 for m constraints on n variables *)
Definition feasible (m n : nat) (A : nat -> nat -> R) (b x : nat -> R) : Prop :=
  nonneg n x /\ forall i, (i < m)%nat -> b i <= mulv n A x i.
(** z solves the linear complementarity problem of M and q: z >= 0, w = M z + q >= 0, z^T w = 0 *)
Definition solves_lcp (n : nat) (M : nat -> nat -> R) (q z : nat -> R) : Prop :=
  let w := fun i => mulv n M z i + q i in nonneg n z /\ nonneg n w /\ dot n z w = 0.
(** A x <= b *)
Definition below (m n : nat) (A : nat -> nat -> R) (b x : nat -> R) : Prop := forall i, (i < m)%nat -> mulv n A x i <= b i.
(** the standard form: A z = b, z >= 0 *)
Definition std_feasible (m n : nat) (A : nat -> nat -> R) (b z : nat -> R) : Prop :=
  nonneg n z /\ forall i, (i < m)%nat -> mulv n A z i = b i.
