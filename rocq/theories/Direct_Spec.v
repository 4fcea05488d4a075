(** What a partition of a box into smaller boxes is (for C94, C95). *)
From Coq Require Import List Reals.
Import ListNotations.
Local Open Scope R_scope.

(** A cell of the unit cube: its centre, and for each direction how many times its edge was cut to a third. *)
Definition cell := (list R * list nat)%type.
Definition half_edge (c : cell) (i : nat) : R := / 3 ^ nth i (snd c) O / 2.
Definition closed_cell (dim : nat) (c : cell) (p : nat -> R) : Prop :=
  forall i, (i < dim)%nat -> Rabs (p i - nth i (fst c) 0) <= half_edge c i.
Definition open_cell (dim : nat) (c : cell) (p : nat -> R) : Prop :=
  forall i, (i < dim)%nat -> Rabs (p i - nth i (fst c) 0) < half_edge c i.
Definition in_cube (dim : nat) (p : nat -> R) : Prop := forall i, (i < dim)%nat -> 0 <= p i <= 1.

(** The cells lie in the cube, cover it, and no two of them overlap. *)
Definition partition (dim : nat) (cells : list cell) : Prop :=
  (forall c, In c cells -> forall p, closed_cell dim c p -> in_cube dim p) /\
  (forall p, in_cube dim p -> exists c, In c cells /\ closed_cell dim c p) /\
  ForallOrdPairs (fun c d => ~ exists p, open_cell dim c p /\ open_cell dim d p) cells.

(** The point of the search domain which corresponds to a point of the cube. *)
Definition to_domain (dim : nat) (mn mx x : list R) : list R :=
  map (fun i => nth i mn 0 + nth i x 0 * (nth i mx 0 - nth i mn 0)) (seq 0 dim).
