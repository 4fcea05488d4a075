(** What a coefficient array means. *)
From Coq Require Import Reals.
From Verif Require Import Prelude RealLib.
Local Open Scope R_scope.

(** i-th coefficient; zero beyond the array *)
Definition coef (p : list R) (i : nat) : R := nth i p 0.
(** p_0 + p_1 x + ... + p_n x^n *)
Definition peval (p : list R) (x : R) : R := rsum (length p) (fun i => coef p i * x ^ i).
(** The leading coefficient of the array is not zero. *)
Definition regular (p : list R) : Prop := p <> [] /\ coef p (length p - 1) <> 0.
Definition zero_poly (p : list R) : Prop := forall i, coef p i = 0.
(** (x - r_1) ... (x - r_n) *)
Definition roots_prod (rs : list R) (x : R) : R := fold_right (fun r acc => (x - r) * acc) 1 rs.
