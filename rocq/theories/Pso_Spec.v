(** Specification for C85. *)
From Coq Require Import List Reals.
From Verif Require Import Prelude Scalar RealLib Pso_Model.
Import ListNotations.
Local Open Scope R_scope.

(** x is a point of the box between lo and hi *)
Definition in_box (lo hi x : list R) : Prop :=
  length x = length lo /\ forall j, (j < length lo)%nat -> nth j lo 0 <= nth j x 0 <= nth j hi 0.

(** the swarm after n rounds of zOptSolvePSO without the test of convergence *)
Fixpoint swarm_after f dim ri ru ztol mn mx vmn vmx num k1 k2 (n : nat) : res (@swarm R) :=
  match n with
  | O => _zOptPSOSwarmCreate f dim ri num mn mx vmn vmx k1 k2
  | S n => s <- swarm_after f dim ri ru ztol mn mx vmn vmx num k1 k2 n ;;
           '(s, _) <- _zOptPSOSwarmUpdate f dim ru ztol n s mn mx vmn vmx ;; Ok s
  end.
