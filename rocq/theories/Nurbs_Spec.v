(** Textbook B-splines over a sequence of knots [U]; well-formed curves. *)
From Coq Require Import Reals.
From Verif Require Import RealLib Fmat Nurbs_Model.
Local Open Scope R_scope.

(** a quotient that is 0 when the denominator is *)
Definition quot (a b : R) : R := if Req_EM_T b 0 then 0 else a / b.
(** the Cox-de Boor recursion *)
Fixpoint bspline (U : nat -> R) (r i : nat) (t : R) : R :=
  match r with
  | O => if Rle_dec (U i) t then if Rlt_dec t (U (S i)) then 1 else 0 else 0
  | S r' =>
      quot (t - U i) (U (i + r)%nat - U i) * bspline U r' i t
      + quot (U (i + r + 1)%nat - t) (U (i + r + 1)%nat - U (i + 1)%nat) * bspline U r' (i + 1) t
  end.
(** knots of a curve of order [p] with [nc] control points *)
Definition nondecreasing (U : nat -> R) (len : nat) : Prop :=
  forall i, (S i < len)%nat -> U i <= U (S i).
(** one coordinate of the curve with control values [c] *)
Definition bcurve (U : nat -> R) (p nc : nat) (c : nat -> R) (t : R) : R :=
  rsum nc (fun i => bspline U p i t * c i).
(** and of the rational curve with weights [w] *)
Definition rcurve (U : nat -> R) (p nc : nat) (w c : nat -> R) (t : R) : R :=
  rsum nc (fun i => w i * bspline U p i t * c i) / rsum nc (fun i => w i * bspline U p i t).

(** parameters with knots for [nc] control points, in order and not all equal *)
Definition good (p : @bparam R) (nc : nat) : Prop :=
  let U := vel (bp_knot p) in
  vlen (bp_knot p) = (nc + bp_order p + 1)%nat /\ nondecreasing U (vlen (bp_knot p)) /\ U (bp_order p) < U nc.
(** the weight of a control point and the component [c] of it *)
Definition wt (n : @nurbs R) (i : nat) : R := fst (vel (nb_cp n) i).
Definition cp (n : @nurbs R) (c i : nat) : R := vel (snd (vel (nb_cp n) i)) c.
(** a curve of [nc] control points of [m] components *)
Definition cgood (n : @nurbs R) (nc m : nat) : Prop :=
  good (nb_param n) nc /\ vlen (nb_cp n) = nc /\ forall i, (i < nc)%nat -> vlen (snd (vel (nb_cp n) i)) = m.
(** coefficients of a convex combination *)
Definition weights (nc : nat) (l : nat -> R) : Prop := (forall i, (i < nc)%nat -> 0 <= l i) /\ rsum nc l = 1.
