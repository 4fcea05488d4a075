(** Vocabulary for the polynomial equation solvers. *)
From Coq Require Import Reals.
From Verif Require Import Prelude RealLib Pex_Spec Complex_Spec.
From Coquelicot Require Import Coquelicot.
Local Open Scope R_scope.

(** Synthetic division of a_0 + a_1 x + ... + a_n x^n by x^2 + p x + q:
    [division p q a n m] is the pair (b_{n-m}, b_{n-m+1}) of the numbers with
    b_k = a_k - p b_{k+1} - q b_{k+2}, which vanish beyond n. *)
Fixpoint division (p q : R) (a : nat -> R) (n m : nat) : R * R :=
  match m with
  | O => (a n, 0)
  | S m => let '(u, v) := division p q a n m in (a (n - S m)%nat - p * u - q * v, u)
  end.
Definition divided (p q : R) (a : nat -> R) (n k : nat) : R := fst (division p q a n (n - k)).

(** a factor x^2 + p x + q and the remainder u (x + p) + v left by the division *)
Record factor := Factor { fp : R; fq : R; fu : R; fv : R }.
(** (x^2 + p x + q) * (...) + u (x + p) + v, from the first factor on; [rest] at the end *)
Fixpoint nested (fs : list factor) (rest : C -> C) (x : C) : C :=
  match fs with
  | nil => rest x
  | f :: fs =>
      Cplus (Cmult (Cplus (Cplus (Cmult x x) (Cmult (RtoC (fp f)) x)) (RtoC (fq f))) (nested fs rest x))
            (Cplus (Cmult (RtoC (fu f)) (Cplus x (RtoC (fp f)))) (RtoC (fv f)))
  end.
Definition no_remainder (f : factor) : factor := Factor (fp f) (fq f) 0 0.

(** The factors [fs] divide a_0 + ... + a_n x^n one after the other, each leaving a
    remainder that is small in terms of [tol] and of the entries of the second division
    (the partial derivatives of the remainder by p and q). *)
Inductive small_remainders (tol : R) : nat -> (nat -> R) -> list factor -> Prop :=
| sr_done n a : (n <= 1)%nat -> small_remainders tol n a nil
| sr_quadratic a f : fp f = a 1%nat / a 2%nat -> fq f = a 0%nat / a 2%nat -> fu f = 0 -> fv f = 0 ->
    small_remainders tol 2 a (f :: nil)
| sr_factor n a f fs b c : (3 <= n)%nat ->
    (forall k, (k <= n)%nat -> b k = divided (fp f) (fq f) a n k) ->
    (forall k, (k < n)%nat -> c k = divided (fp f) (fq f) (fun j => b (S j)) (n - 1) k) ->
    fu f = b 1%nat -> fv f = b 0%nat ->
    Rabs (fu f) <= tol * (Rabs (c 1%nat) + Rabs (c 2%nat)) ->
    Rabs (fv f) <= tol * (Rabs (c 1%nat) + Rabs (b 1%nat - c 0%nat)) ->
    small_remainders tol (n - 2) (fun k => b (k + 2)%nat) fs ->
    small_remainders tol n a (f :: fs).

(** z' is z after the removal of a real or imaginary part that is negligible *)
Definition touched (tol : R) (z z' : C) : Prop :=
  (fst z' = fst z \/ (fst z' = 0 /\ Rabs (fst z) <= tol * Rmax 1 (Rabs (snd z)))) /\
  (snd z' = snd z \/ (snd z' = 0 /\ Rabs (snd z) <= tol * Rmax 1 (Rabs (fst z)))).

(** the product of the differences z - z_j over all j < n other than i *)
Fixpoint differences (z : C) (zs : list C) (i n : nat) : C :=
  match n with
  | O => RtoC 1
  | S j => if (j =? i)%nat then differences z zs i j else Cmult (differences z zs i j) (Cminus z (nth j zs (RtoC 0)))
  end.

(** k simultaneous steps z_i - a(z_i) / (a_n prod_{j<>i} (z_i - z_j)) of the first n numbers *)
Inductive weierstrass (a : list R) (n : nat) : nat -> list C -> list C -> Prop :=
| ws_none zs : weierstrass a n 0 zs zs
| ws_step k zs zs1 zs2 : length zs1 = length zs ->
    (forall i, (n <= i)%nat -> nth i zs1 (RtoC 0) = nth i zs (RtoC 0)) ->
    (forall i, (i < n)%nat -> let z := nth i zs (RtoC 0) in differences z zs i n <> RtoC 0 /\
      nth i zs1 (RtoC 0) = Cminus z (Cdiv (Cpeval a z) (Cmult (RtoC (coef a n)) (differences z zs i n)))) ->
    weierstrass a n k zs1 zs2 -> weierstrass a n (S k) zs zs2.
