(** Specification of C102, over the reals. *)
From Coq Require Import Reals List.
From Verif Require Import RealLib Qp_Spec.
Local Open Scope R_scope.

(** the residual M z + q - w of the equation of the linear complementarity problem *)
Definition residual (n : nat) (M : nat -> nat -> R) (q w z : nat -> R) (i : nat) : R := mulv n M z i + q i - w i.
(** the part of the initial residual that is left after steps of the given lengths *)
Fixpoint left_over (l : list R) : R := match l with nil => 1 | cons a l => (1 - a) * left_over l end.
(** all the products w_i z_i are positive and near t: the distance to the point (t, ..., t) is at most t/4 *)
Definition centred (n : nat) (w z : nat -> R) (t : R) : Prop :=
  0 < t /\ (forall i, (i < n)%nat -> 0 < w i /\ 0 < z i) /\ rsum n (fun i => (w i * z i - t) * (w i * z i - t)) <= (t / 4) * (t / 4).
