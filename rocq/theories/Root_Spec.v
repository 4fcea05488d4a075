(** What C47 and C48 speak about, independent of the model. *)
From Coq Require Import Reals.
Local Open Scope R_scope.

(** x lies between a and b, in whatever order these are *)
Definition between (a b x : R) : Prop := a <= x <= b \/ b <= x <= a.
(** f has values of opposite signs at a and b *)
Definition sign_change (f : R -> R) (a b : R) : Prop := f a * f b < 0.
(** f falls strictly on [a,m] and rises strictly on [m,b] *)
Definition unimodal (f : R -> R) (a b m : R) : Prop :=
  a <= m <= b /\ (forall x y, a <= x -> x < y -> y <= m -> f y < f x) /\
  (forall x y, m <= x -> x < y -> y <= b -> f x < f y).
