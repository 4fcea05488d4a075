(** Vocabulary for the statements about zVec and zMat objects. *)
From Verif Require Import Prelude Scalar Raw_Model Raw_Spec VecMat_Model.

Section Spec.
  Context {T : Type}.
  Implicit Types (m : mem T) (v : zVec) (A : zMat).

  Definition vlen v : nat := Z.to_nat (vsize v).
  Definition mrows A : nat := Z.to_nat (mrow A).
  Definition mcols A : nat := Z.to_nat (mcol A).
  (** The vector is properly allocated and holds x(0), ..., x(size-1). *)
  Definition vholds m v (x : nat -> T) : Prop := (0 <= vsize v)%Z /\ vecat m (vbuf v) (vlen v) x.
  Definition valloc m v : Prop := (0 <= vsize v)%Z /\ allocated m (vbuf v) (vlen v).
  (** The matrix is properly allocated and its logical elements are x(i,j).  Its
      column capacity may be larger than its column size; nothing is said about
      the cells in between. *)
  Definition mholds m A (x : nat -> nat -> T) : Prop :=
    (0 <= mrow A)%Z /\ (0 <= mcol A <= mccap A)%Z /\ matat m (mbuf A) (mccap A) (mrows A) (mcols A) x.
  Definition malloc m A : Prop :=
    (0 <= mrow A)%Z /\ (0 <= mcol A <= mccap A)%Z /\ mallocated m (mbuf A) (mccap A) (mrows A) (mcols A).
  (** Everything outside the object is unchanged. *)
  Definition vframe m m' v : Prop := frame m m' (vbuf v) (vlen v).
  Definition Mframe m m' A : Prop := mframe m m' (mbuf A) (mccap A) (mrows A) (mcols A).
  (** Disjointness. *)
  Definition vcells v : ptr -> Prop := inrange (vbuf v) (vlen v).
  Definition mcells A : ptr -> Prop := inmat (mbuf A) (mccap A) (mrows A) (mcols A).
  Definition disj (P Q : ptr -> Prop) : Prop := forall q, P q -> Q q -> False.
  Definition same_or_disj A B : Prop :=
    (mbuf A = mbuf B /\ mccap A = mccap B) \/ disj (mcells A) (mcells B).
End Spec.
