(** Specification for C87. *)
From Coq Require Import List Reals ZArith Permutation.
From Verif Require Import Prelude Scalar RealLib Ga_Model.
Import ListNotations.
Local Open Scope R_scope.

(** x is a point of the box between lo and hi *)
Definition in_box (lo hi x : list R) : Prop :=
  length x = length lo /\ forall j, (j < length lo)%nat -> nth j lo 0 <= nth j x 0 <= nth j hi 0.

(** the values of f do not decrease along the population *)
Definition ranked (f : list R -> R) (l : list (@chrom R)) : Prop :=
  forall i j a b, (i <= j)%nat -> nth_error l i = Some a -> nth_error l j = Some b -> f (gene a) <= f (gene b).
Definition total (l : list (@chrom R)) : R := fold_right (fun c s => fitness c + s) 0 l.
Definition lack (f : list R -> R) (m : R) (l : list (@chrom R)) : R := fold_right (fun c s => (m - f (gene c)) + s) 0 l.
(** the fitness is the distance from the worst value, as a part of the sum of these distances; 1 for all if the sum is tiny *)
Definition scored (f : list R -> R) (ztol : R) (l : list (@chrom R)) : Prop :=
  exists m, (forall c, In c l -> f (gene c) <= m) /\ (exists c, In c l /\ f (gene c) = m) /\
    ((lack f m l <= ztol /\ forall c, In c l -> fitness c = 1) \/
     (ztol < lack f m l /\ total l = 1 /\ forall c, In c l -> fitness c = (m - f (gene c)) / lack f m l)).
