(** Vocabulary for sequences, vector lists and the kd-tree. *)
From Coq Require Import Reals.
From Verif Require Import Prelude RealLib Collect_Model.
Local Open Scope R_scope.

(** operations on a queue and the answers they give *)
Inductive qop (A : Type) : Type := Enq (v : option A) | Deq.
Arguments Enq {A} v. Arguments Deq {A}.
(** running a history on the model; collects the answers of the dequeues *)
Fixpoint run_seq {A} (s : list A) (h : list (qop A)) : list (option A) * list A :=
  match h with
  | [] => ([], s)
  | Enq v :: h => run_seq (snd (zSeqEnqueue s v)) h
  | Deq :: h => let (o, s') := zSeqDequeue s in let (os, s'') := run_seq s' h in (o :: os, s'')
  end.
(** the vectors offered by a history that are not NULL, in order *)
Fixpoint enqueued {A} (h : list (qop A)) : list A :=
  match h with [] => [] | Enq (Some v) :: h => v :: enqueued h | _ :: h => enqueued h end.
(** what came out *)
Fixpoint somes {A} (l : list (option A)) : list A :=
  match l with [] => [] | Some x :: l => x :: somes l | None :: l => somes l end.
(** Euclidean distance *)
Definition sqd (u v : list R) : R := rsum (length u) (fun i => (nth i u 0 - nth i v 0) * (nth i u 0 - nth i v 0)).
Definition dist (u v : list R) : R := sqrt (sqd u v).
