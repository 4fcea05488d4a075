(** Vocabulary: Coquelicot's field of complex numbers [C] (pairs of reals). *)
From Coq Require Import Reals.
From Verif Require Import Prelude RealLib Scalar Complex_Model Pex_Spec.
From Coquelicot Require Import Coquelicot.
Local Open Scope R_scope.

(** the memory after storing z at c: nothing else changes *)
Definition stored (m : cmem R) (c : nat) (z : C) (m' : cmem R) : Prop := forall k, m' k = if (k =? c)%nat then z else m k.
(** the vector of n numbers at v now holds the values f 0 .. f (n-1), nothing else changed *)
Definition vstored (m : cmem R) (v n : nat) (f : nat -> C) (m' : cmem R) : Prop :=
  forall k, m' k = if ((v <=? k) && (k <? v + n))%nat then f (k - v)%nat else m k.
(** address ranges without a common cell *)
Definition disjoint (a na b nb : nat) : Prop := (a + na <= b \/ b + nb <= a)%nat.
Fixpoint Cpown (z : C) (n : nat) : C := match n with O => RtoC 1 | S n => Cmult z (Cpown z n) end.
Fixpoint csum (n : nat) (f : nat -> C) : C := match n with O => RtoC 0 | S n => Cplus (csum n f) (f n) end.
(** value of a real polynomial at a complex point *)
Definition Cpeval (p : list R) (z : C) : C := csum (length p) (fun i => Cmult (RtoC (coef p i)) (Cpown z i)).
(** (x - z_1) ... (x - z_n) *)
Definition Croots (zs : list C) (x : C) : C := fold_right (fun z acc => Cmult (Cminus x z) acc) (RtoC 1) zs.
(** e^z *)
Definition Cexp (z : C) : C := (exp (fst z) * cos (snd z), exp (fst z) * sin (snd z)).

(** [x] and [y] agree within [tol], relative to the larger of 1, |x| and |y| *)
Definition near (tol x y : R) : Prop := Rabs (x - y) <= tol * Rmax 1 (Rmax (Rabs x) (Rabs y)).
(** [y] is the conjugate of [x] within [tol] *)
Definition near_conj (tol : R) (x y : C) : Prop := near tol (fst x) (fst y) /\ near tol (snd x) (- snd y).
