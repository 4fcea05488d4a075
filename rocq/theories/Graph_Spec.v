(** What the graph properties talk about: arcs, walks and their costs. *)
From Coq Require Import Reals List.
Import ListNotations.
Open Scope R_scope.
Notation rgraph := (list (nat * list (nat * R))).
(** the graph has an arc from x to y of cost c *)
Definition arc (G : rgraph) (x y : nat) (c : R) : Prop := exists l, In (x, l) G /\ In (y, c) l.
(** [walk G l c]: the nodes of [l], in this order, are joined by arcs of total cost [c] *)
Inductive walk (G : rgraph) : list nat -> R -> Prop :=
| walk_one x : walk G [x] 0
| walk_cons x y l c d : arc G x y c -> walk G (y :: l) d -> walk G (x :: y :: l) (c + d).
(** a walk from a to b *)
Definition walk_from (G : rgraph) (a b : nat) (c : R) : Prop :=
  exists l, walk G l c /\ hd_error l = Some a /\ hd_error (rev l) = Some b.
Definition node (G : rgraph) (x : nat) : Prop := In x (map fst G).
(** the graphs the functions of the library maintain *)
Definition graph_ok (G : rgraph) : Prop :=
  NoDup (map fst G) /\ (forall x l, In (x, l) G -> NoDup (map fst l)) /\ forall x y c, arc G x y c -> node G y.
Definition costs_ok (G : rgraph) : Prop := forall x y c, arc G x y c -> 0 <= c.
(** every arc has its opposite, of the same cost *)
Definition two_way (G : rgraph) : Prop := forall x y c, arc G x y c -> arc G y x c.
(** the estimate never exceeds the cost of an arc plus the estimate at its end *)
Definition consistent (G : rgraph) (h : nat -> R) : Prop := forall x y c, arc G x y c -> h x <= c + h y.
