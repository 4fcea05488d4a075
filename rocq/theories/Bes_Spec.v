(** The Bessel functions of the first kind and integer order n by their power series
      sum_k s^k / (k! (k+n)!) (x/2)^(2k+n),   s = -1 for J_n, s = 1 for the modified function I_n. *)
From Coq Require Import Reals.
From Verif Require Import Prelude.
Open Scope R_scope.

Definition bterm (s : R) (n : nat) (x : R) (k : nat) : R :=
  s ^ k / (INR (fact k) * INR (fact (k + n))) * (x / 2) ^ (2 * k + n).
Definition is_J (n : nat) (x l : R) : Prop := infinite_sum (bterm (-1) n x) l.
Definition is_I (n : nat) (x l : R) : Prop := infinite_sum (bterm 1 n x) l.
