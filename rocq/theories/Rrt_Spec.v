(** What is said of the trees and paths of zm_rrt.c. *)
From Coq Require Import Reals List.
From Verif Require Import Prelude Scalar RealLib Rrt_Model.
Import ListNotations.
Local Open Scope R_scope.

Section Spec.
  Context {V : Type} (eps : R) (dist : V -> V -> R) (ext : V -> V -> R -> V) (coll : V -> bool).
  (** a (pseudo-)metric, and an extension that goes towards the target: the step of the length eps *)
  Definition metric : Prop := (forall u v, 0 <= dist u v) /\ (forall u v, dist u v = dist v u) /\ (forall u, dist u u = 0) /\
    (forall u v w, dist u w <= dist u v + dist v w).
  Definition towards : Prop := forall u w, eps <= dist u w -> dist u (ext u w (eps / dist u w)) = eps /\ dist (ext u w (eps / dist u w)) w = dist u w - eps.

  (** ** paths *)
  Fixpoint path_length (p : list V) : R := match p with a :: (b :: _) as q => dist a b + path_length q | _ => 0 end.
  (** consecutive points satisfy [L] *)
  Fixpoint linked (L : V -> V -> Prop) (p : list V) : Prop := match p with a :: (b :: _) as q => L a b /\ linked L q | _ => True end.
  Definition short (a b : V) : Prop := dist a b <= eps.
  Definition free (v : V) : Prop := coll v = false.
  (** the points that divide the segment into [n] parts, each shorter than eps, are free *)
  Definition divided (a b : V) : Prop := exists n, (0 < n)%nat /\ dist a b < INR n * eps /\ forall i, (0 < i < n)%nat -> free (ext a b (INR i / INR n)).

  (** ** trees *)
  (** the points from the root to the node [i], and the sum of the costs of their edges *)
  Inductive chain (t : tree R V) : nat -> list V -> R -> Prop :=
  | chain_root i n : nth_error t i = Some n -> par n = None -> chain t i [nv n] (cedge n)
  | chain_step i n p l c : nth_error t i = Some n -> par n = Some p -> chain t p l c -> chain t i (l ++ [nv n]) (c + cedge n).
  (** a tree of RRT: nodes are added to earlier nodes at the distance of at most eps, at free points *)
  Definition rrt_tree (start : V) (t : tree R V) : Prop :=
    nth_error t 0 = Some (Nd start 0 0 None) /\
    forall i n, nth_error t i = Some n -> (0 < i)%nat ->
      exists p np, par n = Some p /\ (p < i)%nat /\ nth_error t p = Some np /\ cedge n = dist (nv np) (nv n) /\ cedge n <= eps /\ free (nv n) /\
        ctotal n = ctotal np + cedge n.
  (** a tree of RRT*: edges may be longer, divided by free points; the total cost is an upper bound *)
  Definition star_link (a b : V) : Prop := short a b \/ divided a b \/ divided b a.
  Definition star_tree (start : V) (t : tree R V) : Prop :=
    nth_error t 0 = Some (Nd start 0 0 None) /\
    (forall i n, nth_error t i = Some n -> (0 < i)%nat ->
      exists p np, par n = Some p /\ nth_error t p = Some np /\ cedge n = dist (nv np) (nv n) /\ star_link (nv np) (nv n) /\ free (nv n) /\
        ctotal np + cedge n <= ctotal n) /\
    (forall i, (i < length t)%nat -> exists l c, chain t i l c).
End Spec.

(** [a] and [b] are next to each other in [l]; [p] is [l] without some of its points *)
Definition adjacent {V} (l : list V) (a b : V) : Prop := exists x y, l = x ++ a :: b :: y.
Inductive sublist {V} : list V -> list V -> Prop :=
| sub_nil : sublist [] []
| sub_keep a p l : sublist p l -> sublist (a :: p) (a :: l)
| sub_skip a p l : sublist p l -> sublist p (a :: l).
