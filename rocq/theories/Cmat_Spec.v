(** Vocabulary for complex matrices: Coquelicot's field [C], [disjoint] and [csum] of Complex_Spec, matrices and vectors
    as in Cmat_Model (an address and sizes). *)
From Coq Require Import Reals.
From Verif Require Import Prelude RealLib Scalar Complex_Model Complex_Spec Cmat_Model.
From Coquelicot Require Import Coquelicot.
Local Open Scope R_scope.

(** element (i,j) of A in memory m; element i of v *)
Definition mel (m : cmem R) (A : cmat) (i j : nat) : C := m (mb A + i * mc A + j)%nat.
Definition vel (m : cmem R) (v : cvec) (i : nat) : C := m (vb v + i)%nat.
(** the matrix A now holds F, the vector v now holds f; nothing else has changed *)
Definition mholds (m : cmem R) (A : cmat) (F : nat -> nat -> C) (m' : cmem R) : Prop :=
  (forall i j, (i < mr A)%nat -> (j < mc A)%nat -> mel m' A i j = F i j) /\
  (forall k, ~ (mb A <= k < mb A + mr A * mc A)%nat -> m' k = m k).
Definition vholds (m : cmem R) (v : cvec) (f : nat -> C) (m' : cmem R) : Prop :=
  (forall i, (i < vn v)%nat -> vel m' v i = f i) /\ (forall k, ~ (vb v <= k < vb v + vn v)%nat -> m' k = m k).
(** two arrays are the same one or have no cell in common *)
Definition apart (A D : cmat) : Prop := disjoint (mb A) (mr A * mc A) (mb D) (mr D * mc D).
Definition one_or_apart (A D : cmat) : Prop := A = D \/ apart A D.
Definition mv_apart (A : cmat) (v : cvec) : Prop := disjoint (mb A) (mr A * mc A) (vb v) (vn v).
Definition vv_apart (v w : cvec) : Prop := disjoint (vb v) (vn v) (vb w) (vn w).
