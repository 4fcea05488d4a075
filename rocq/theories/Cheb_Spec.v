(** The Chebyshev polynomials of the first kind, for C97. *)
From Coq Require Import Reals.
Local Open Scope R_scope.
(** (T_n(x), T_{n+1}(x)) *)
Fixpoint chebs (n : nat) (x : R) : R * R :=
  match n with O => (1, x) | S n => let '(a, b) := chebs n x in (b, 2 * x * b - a) end.
Definition cheb (n : nat) (x : R) : R := fst (chebs n x).
