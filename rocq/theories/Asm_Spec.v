(** Specification of C101, over the reals (with Qp_Spec): the problem to minimise x^T Q x / 2 + c^T x subject to
    A x >= b, the variables having no sign. *)
From Coq Require Import Reals.
From Verif Require Import RealLib Qp_Spec.
Local Open Scope R_scope.

Definition above (m n : nat) (A : nat -> nat -> R) (b x : nat -> R) : Prop := forall i, (i < m)%nat -> b i <= mulv n A x i.
Definition qp_optimal (m n : nat) (Q : nat -> nat -> R) (c : nat -> R) (A : nat -> nat -> R) (b x : nat -> R) : Prop :=
  above m n A b x /\ forall y, above m n A b y -> quad n Q c x <= quad n Q c y.
