(** Vectors and matrices at the value level, used by the models of the algorithms
    that work through zVecElemNC / zMatElemNC.  Nothing here models a particular file.

    The macros zVecElemNC, zVecSetElemNC, zMatElemNC, zMatSetElemNC (zm_vec.h, zm_mat.h)
    become accesses that are checked against the logical size of the object: an access
    outside is [UB], as reading such an element is meaningless even where it stays
    inside the buffer.  Storage layout and aliasing of buffers are covered by the raw
    memory model (Raw_Model, VecMat_Model). *)
From Verif Require Import Prelude.

Record fvec (T : Type) := FV { vlen : nat; vel : nat -> T }.
Record fmat (T : Type) := FM { nr : nat; nc : nat; el : nat -> nat -> T }.
Arguments FV {T} vlen vel. Arguments vlen {T}. Arguments vel {T}.
Arguments FM {T} nr nc el. Arguments nr {T}. Arguments nc {T}. Arguments el {T}.

Section Access.
  Context {T : Type}.
  Definition vget (v : fvec T) (i : nat) : res T := if i <? vlen v then Ok (vel v i) else UB.
  Definition vset (v : fvec T) (i : nat) (x : T) : res (fvec T) :=
    if i <? vlen v then Ok (FV (vlen v) (fun k => if k =? i then x else vel v k)) else UB.
  Definition mget (m : fmat T) (i j : nat) : res T :=
    if (i <? nr m) && (j <? nc m) then Ok (el m i j) else UB.
  Definition mset (m : fmat T) (i j : nat) (x : T) : res (fmat T) :=
    if (i <? nr m) && (j <? nc m)
    then Ok (FM (nr m) (nc m) (fun r c => if (r =? i) && (c =? j) then x else el m r c)) else UB.
  (** [x = f(x)] on an element *)
  Definition vmod (v : fvec T) (i : nat) (f : T -> T) : res (fvec T) := x <- vget v i ;; vset v i (f x).
  Definition mmod (m : fmat T) (i j : nat) (f : T -> T) : res (fmat T) := x <- mget m i j ;; mset m i j (f x).
End Access.

(** [for( k=hi-1; k>=lo; k-- )] *)
Definition for_downto {St} (lo hi : nat) (f : nat -> St -> res St) (s : St) : res St :=
  for_down (hi - lo) (fun t => f (lo + t)%nat) s.

(** literals for examples *)
Definition mat_of {T} (d : T) (l : list (list T)) : fmat T :=
  FM (length l) (length (hd [] l)) (fun i j => nth j (nth i l []) d).
Definition vec_of {T} (d : T) (l : list T) : fvec T := FV (length l) (fun i => nth i l d).
Definition to_lists {T} (m : fmat T) : list (list T) :=
  map (fun i => map (el m i) (List.seq 0 (nc m))) (List.seq 0 (nr m)).
Definition to_list {T} (v : fvec T) : list T := map (vel v) (List.seq 0 (vlen v)).
(** a vector as a matrix of one column and back *)
Definition col_of {T} (v : fvec T) : fmat T := FM (vlen v) 1 (fun i _ => vel v i).
Definition of_col {T} (m : fmat T) : fvec T := FV (nr m) (fun i => el m i 0%nat).
