(** What is said of the networks of zm_gng.c. *)
From Coq Require Import Reals ZArith List.
From Verif Require Import Prelude Scalar Gng_Model.
Import ListNotations.

Section Spec.
  Context {T : Type}.
  (** the edge [e] connects the units [a] and [b] *)
  Definition joins (e : edge) (a b : nat) : Prop := (eu1 e = a /\ eu2 e = b) \/ (eu1 e = b /\ eu2 e = a).
  Definition touches (e : edge) (a : nat) : Prop := eu1 e = a \/ eu2 e = a.
  Definition live (g : gng T) (a : nat) : Prop := exists u, In u (units g) /\ uid u = a.
  (** cells are distinct; edges connect two distinct live units, at most one edge a pair; the list of a unit holds exactly
      the edges that touch it, once *)
  Record wired (g : gng T) : Prop := {
    w_units : NoDup (map uid (units g));
    w_edges : NoDup (map eid (edges g));
    w_fresh_u : forall u, In u (units g) -> (uid u < next g)%nat;
    w_fresh_e : forall e, In e (edges g) -> (eid e < next g)%nat;
    w_ends : forall e, In e (edges g) -> eu1 e <> eu2 e /\ live g (eu1 e) /\ live g (eu2 e);
    w_simple : forall e e', In e (edges g) -> In e' (edges g) -> joins e (eu1 e') (eu2 e') -> eid e = eid e';
    w_once : forall u, In u (units g) -> NoDup (eps u);
    w_inc : forall u x, In u (units g) -> In x (eps u) <-> exists e, In e (edges g) /\ eid e = x /\ touches e (uid u) }.
  (** every unit has an edge *)
  Definition connected (g : gng T) : Prop := forall u, In u (units g) -> eps u <> [].
  Definition network (g : gng T) : Prop := wired g /\ connected g /\ (2 <= length (units g))%nat /\ edges g <> [].
  Definition young (lt : Z) (g : gng T) : Prop := forall e, In e (edges g) -> (age e <= lt)%Z.
End Spec.
