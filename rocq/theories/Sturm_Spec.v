(** Vocabulary: eigenvalues of a real symmetric matrix, and how many of them exceed a number. *)
From Coq Require Import Reals List.
From Verif Require Import Prelude RealLib Scalar.
Import ListNotations.
Local Open Scope R_scope.

(** A x, |x|^2 and x' A x *)
Definition mulv (n : nat) (A : nat -> nat -> R) (x : nat -> R) (i : nat) : R := rsum n (fun j => A i j * x j).
Definition sqn (n : nat) (x : nat -> R) : R := rsum n (fun i => x i * x i).
Definition quad (n : nat) (A : nat -> nat -> R) (x : nat -> R) : R := rsum n (fun i => x i * mulv n A x i).
Definition nonzero (n : nat) (x : nat -> R) : Prop := exists j, (j < n)%nat /\ x j <> 0.
Definition eigenvalue (n : nat) (A : nat -> nat -> R) (l : R) : Prop :=
  exists v, nonzero n v /\ forall i, (i < n)%nat -> mulv n A v i = l * v i.
Definition tridiagonal (n : nat) (A : nat -> nat -> R) : Prop :=
  (forall i j, (i < n)%nat -> (j < n)%nat -> A i j = A j i) /\
  (forall i j, (i < n)%nat -> (j < n)%nat -> (S i < j)%nat -> A i j = 0).
(** x is a zero of all the linear functionals in L *)
Definition killed (n : nat) (L : list (nat -> R)) (x : nat -> R) : Prop := forall l, In l L -> rsum n (fun j => l j * x j) = 0.
(** exactly [c] eigenvalues (with multiplicities) of A exceed e, by the theorem of Courant and Fischer: on a subspace of
    codimension c the form is at most e, on one of dimension c it is larger than e *)
Definition exceed (n : nat) (A : nat -> nat -> R) (e : R) (c : nat) : Prop :=
  (exists L, length L = c /\ forall x, killed n L x -> quad n A x <= e * sqn n x) /\
  (exists L, (length L + c = n)%nat /\ forall x, killed n L x -> nonzero n x -> e * sqn n x < quad n A x).
(** the leading principal minors of e I - A for a tridiagonal A *)
Fixpoint minor (A : nat -> nat -> R) (e : R) (k : nat) : R :=
  match k with
  | O => 1
  | S i => (e - A i i) * minor A e i - match i with O => 0 | S i' => A i i' * A i i' * minor A e i' end
  end.
(** none of them vanishes *)
Definition regular (n : nat) (A : nat -> nat -> R) (e : R) : Prop := forall k, (k <= n)%nat -> minor A e k <> 0.
(** the points reached from lo and hi by halving *)
Inductive dyadic (lo hi : R) : R -> Prop :=
| dy_lo : dyadic lo hi lo
| dy_hi : dyadic lo hi hi
| dy_mid x y : dyadic lo hi x -> dyadic lo hi y -> dyadic lo hi ((x + y) / 2).
(** [e] is the eigenvalue number k (the largest is number 0) up to [w]: at least k+1 eigenvalues exceed a number lo and
    only k a number hi, e and an eigenvalue lie between them, and they are not further apart than w *)
Definition approximates (n : nat) (A : nat -> nat -> R) (w : R) (k : nat) (e : R) : Prop :=
  exists lo hi l, lo <= e <= hi /\ hi - lo <= w /\ exceed n A lo (S k) /\ exceed n A hi k /\ lo <= l <= hi /\ eigenvalue n A l.
