(** Specification for C86: the moves of a simplex, in terms of its vertices only. *)
From Coq Require Import List Permutation Reals.
From Verif Require Import Prelude Scalar RealLib Nm_Model.
Import ListNotations.
Local Open Scope R_scope.

Definition point := list R.
(** a + t d *)
Definition along (dim : nat) (a : point) (t : R) (d : point) : point := map (fun k => nth k a 0 + t * nth k d 0) (List.seq 0 dim).
Definition minus (dim : nat) (a b : point) : point := map (fun k => nth k a 0 - nth k b 0) (List.seq 0 dim).
Definition midpoint (dim : nat) (a b : point) : point := map (fun k => (nth k a 0 + nth k b 0) / 2) (List.seq 0 dim).
Definition centroid (dim : nat) (l : list point) : point :=
  map (fun k => fold_right (fun v a => nth k v 0 + a) 0 l / INR (length l)) (List.seq 0 dim).

(** One move.  [w] is the worst vertex, at the place h, [b] the best, [z] the second worst, [c] the centroid of all but the
    worst and d = c - w. *)
Definition moved (f : point -> R) (dim : nat) (vs vs' : list point) : Prop :=
  exists h w others b z, nth_error vs h = Some w /\ Permutation (w :: others) vs /\
    (forall v, In v vs -> f b <= f v <= f w) /\ In b others /\ In z others /\ (forall v, In v others -> f v <= f z) /\
    let c := centroid dim others in let d := minus dim c w in
    (* the reflection improves the best: it is doubled as long as that improves *)
    (exists k, (forall i, (i < k)%nat -> f (along dim c (2 ^ S i) d) < f (along dim c (2 ^ i) d)) /\
        f (along dim c 1 d) < f b /\ f (along dim c (2 ^ k) d) <= f (along dim c (2 ^ S k) d) /\ vs' = upd vs h (along dim c (2 ^ k) d)) \/
    (* the reflection is not worse than the second worst *)
    (f b <= f (along dim c 1 d) <= f z /\ vs' = upd vs h (along dim c 1 d)) \/
    (* half-way to the centroid *)
    (f z < f (along dim c 1 d) /\ f (midpoint dim w c) <= f z /\ vs' = upd vs h (midpoint dim w c)) \/
    (* all the vertices go half-way to the best *)
    (f z < f (along dim c 1 d) /\ f z < f (midpoint dim w c) /\ vs' = map (fun v => midpoint dim v b) vs).

(** the vertices at the start: the centre of the box and one step of length 1 along each axis *)
Definition start (dim : nat) (mn mx : point) : list point :=
  let e0 := midpoint dim mn mx in
  e0 :: map (fun i => map (fun j => if Nat.eqb j i then nth j e0 0 + 1 else nth j e0 0) (List.seq 0 dim)) (List.seq 0 dim).

(** a run of moves *)
Inductive run f dim : list point -> nat -> list point -> Prop :=
| run_none vs : run f dim vs 0 vs
| run_more vs n vs1 vs2 : run f dim vs n vs1 -> moved f dim vs1 vs2 -> run f dim vs (S n) vs2.

(** all vertices are within tol of the first *)
Definition distance (dim : nat) (v w : point) : R := R_sqrt.sqrt (fold_right (fun k a => (nth k v 0 - nth k w 0) ^ 2 + a) 0 (List.seq 0 dim)).
Definition small (dim : nat) (tol : R) (vs : list point) : Prop :=
  exists v0 l, vs = v0 :: l /\ forall v, In v l -> distance dim v0 v <= tol.
