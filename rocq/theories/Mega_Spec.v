(** Linear programming in two variables: what the answers of the solver mean. *)
From Coq Require Import Reals List.
Import ListNotations.
Local Open Scope R_scope.

(** (x1, x2) satisfies every constraint a1 x1 + a2 x2 <= b *)
Definition feasible2 (cs : list (R * R * R)) (x1 x2 : R) : Prop :=
  forall a1 a2 b, In (a1, a2, b) cs -> a1 * x1 + a2 * x2 <= b.

(** (x1, x2) minimizes k1 x1 + k2 x2 under the constraints *)
Definition optimal2 (k1 k2 : R) (cs : list (R * R * R)) (x1 x2 : R) : Prop :=
  feasible2 cs x1 x2 /\ forall z1 z2, feasible2 cs z1 z2 -> k1 * x1 + k2 * x2 <= k1 * z1 + k2 * z2.

(** From every feasible point one can go to infinity in the same direction, never leaving the feasible region and never
    increasing the cost *)
Definition endless2 (k1 k2 : R) (cs : list (R * R * R)) : Prop :=
  exists d1 d2, (d1 <> 0 \/ d2 <> 0) /\ k1 * d1 + k2 * d2 <= 0 /\
    forall x1 x2 t, feasible2 cs x1 x2 -> 0 <= t -> feasible2 cs (x1 + t * d1) (x2 + t * d2).
