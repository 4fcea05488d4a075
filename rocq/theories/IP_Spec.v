(** Vocabulary for the statements about interpolation (C33-C37).  A sequence of points is
    the list of (time since the previous point, vector). *)
From Coq Require Import Reals.
From Verif Require Import Prelude RealLib Fmat.
Local Open Scope R_scope.

Local Notation points := (list (R * fvec R)).
(** time from point i-1 to point i *)
Definition gap (s : points) (i : nat) : R := fst (nth i s (0, FV 0 (fun _ => 0))).
(** the j-th component of point i *)
Definition pt (s : points) (i j : nat) : R := vel (snd (nth i s (0, FV 0 (fun _ => 0)))) j.
(** the time of point i *)
Definition knot (s : points) (i : nat) : R := rsum (S i) (gap s).
(** every point has m components *)
Definition dim (s : points) (m : nat) : Prop := forall c, In c s -> vlen (snd c) = m.
(** consecutive points are more than [e] apart in time *)
Definition apart (e : R) (s : points) : Prop := forall i, (1 <= i < length s)%nat -> e < gap s i.
(** the slope of the segment from point i to point i+1 *)
Definition slope (s : points) (i j : nat) : R := (pt s (S i) j - pt s i j) / (knot s (S i) - knot s i).
(** the j-th component of an answer *)
Definition comp (o : res (fvec R)) (j : nat) : R := match o with Ok v => vel v j | UB => 0 end.
(** an answer exists and has m components *)
Definition answers (o : res (fvec R)) (m : nat) : Prop := exists v, o = Ok v /\ vlen v = m.
(** t belongs to segment i; the first and the last segment extend to infinity *)
Definition in_seg (s : points) (t : R) (i : nat) : Prop :=
  (S i < length s)%nat /\ (i = 0%nat \/ knot s i <= t) /\ (S (S i) = length s \/ t < knot s (S i)).
