(** What a clustering should be (C57). *)
From Coq Require Import Reals List Permutation.
From Verif Require Import Fmat RealLib Cluster_Model.
Import ListNotations.
Local Open Scope R_scope.

(** the points of the i-th cluster, its core *)
Definition members (cs : list (@cluster R)) (i : nat) (p : nat) : Prop := exists c, nth_error cs i = Some c /\ In p (sam c).
Definition has_core (cs : list (@cluster R)) (i : nat) (x : fvec R) : Prop := exists c, nth_error cs i = Some c /\ core c = x.
(** every point is in exactly one of the clusters, as often as it is given *)
Definition partition_of (points : list nat) (cs : list (@cluster R)) : Prop := Permutation (concat (map sam cs)) points.
(** [d p x] is the distance of the point p to the core x *)
Definition nearest_all (d : nat -> fvec R -> R) (cs : list (@cluster R)) : Prop :=
  forall i j p x y, members cs i p -> has_core cs i x -> has_core cs j y -> d p x <= d p y.
(** the sum of the distances to the cores *)
Definition cost (d : nat -> fvec R -> R) (cs : list (@cluster R)) : R :=
  fold_right (fun c s => fold_right (fun p s => d p (core c) + s) 0 (sam c) + s) 0 cs.
(** the square of the Euclidean distance in m dimensions *)
Definition sqd (m : nat) (x y : fvec R) : R := rsum m (fun i => (vel x i - vel y i) ^ 2).
(** the core is the mean of the points of its cluster; it is a medoid: a point of the cluster of least sum of distances *)
Definition is_mean (m : nat) (pt : nat -> fvec R) (c : @cluster R) : Prop := sam c <> [] -> forall i, (i < m)%nat ->
  vel (core c) i = fold_right (fun p s => vel (pt p) i + s) 0 (sam c) / INR (length (sam c)).
Definition is_medoid (m : nat) (pt : nat -> fvec R) (c : @cluster R) : Prop := exists p, In p (sam c) /\ (forall i, (i < m)%nat -> vel (core c) i = vel (pt p) i) /\
  forall q, In q (sam c) -> fold_right (fun x s => sqrt (sqd m (pt x) (pt p)) + s) 0 (sam c) <= fold_right (fun x s => sqrt (sqd m (pt x) (pt q)) + s) 0 (sam c).
(** the points are of m dimensions, no two of them are equal *)
Definition distinct_points (m : nat) (pt : nat -> fvec R) (points : list nat) : Prop := NoDup points /\ (forall p, In p points -> vlen (pt p) = m) /\
  forall p q, In p points -> In q points -> p <> q -> 0 < sqd m (pt p) (pt q).
