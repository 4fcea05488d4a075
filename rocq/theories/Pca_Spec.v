(** What C116 and C117 are about. *)
From Coq Require Import Reals List.
From Verif Require Import RealLib Fmat.
Local Open Scope R_scope.

(** the sum over a list of points *)
Definition over {A} (l : list A) (f : A -> R) : R := fold_right (fun a s => f a + s) 0 l.
Definition average {A} (l : list A) (f : A -> R) : R := over l f / INR (length l).
(** the coordinate of the point p along column j of V, from the origin mu *)
Definition proj (m : nat) (V : nat -> nat -> R) (mu : nat -> R) (p : fvec R) (j : nat) : R :=
  rsum m (fun r => V r j * (vel p r - mu r)).
(** An expectation: a linear functional of random variables over any sample space W (for a probability measure, extended
    to the functions which are not integrable).  A weighted average over finitely many cases is one. *)
Record expectation {W : Type} (E : (W -> R) -> R) : Prop := {
  E_ext : forall f g, (forall w, f w = g w) -> E f = E g;
  E_add : forall f g, E (fun w => f w + g w) = E f + E g;
  E_scal : forall c f, E (fun w => c * f w) = c * E f;
  E_one : E (fun _ => 1) = 1 }.
