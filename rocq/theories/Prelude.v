(** Common vocabulary of the whole model: outcomes, checked array access,
    C-style loops.  Nothing here models a particular file of /repo; these are the
    conventions every model file uses.

    - [res A]: outcome of running C code.  [Ok a] = ran to completion with value
      [a]; [UB] = undefined behaviour (access outside an array, NULL dereference).
      API-level failures (NULL / false returned) are ordinary values.
    - [get]/[set]: access to a C array modelled by a list, checked.
    - [for_ lo hi f s]: [for( i=lo; i<hi; i++ ) s = f(i,s)];
      [for_down n f s]: [for( i=n-1; i>=0; i-- ) s = f(i,s)]. *)
From Coq Require Export List Arith ZArith Lia Bool ZifyBool ZifyNat.
Export ListNotations.

Inductive res (A : Type) : Type := Ok (a : A) | UB.
Arguments Ok {A} a.
Arguments UB {A}.

Definition bind {A B} (m : res A) (k : A -> res B) : res B :=
  match m with Ok a => k a | UB => UB end.

Notation "x <- e ;; k" := (bind e (fun x => k))
  (at level 61, e at next level, right associativity).
Notation "' p <- e ;; k" := (bind e (fun p => k))
  (at level 61, p pattern, e at next level, right associativity).

Definition rmap {A B} (f : A -> B) (m : res A) : res B :=
  match m with Ok a => Ok (f a) | UB => UB end.

(** Checked array read: [a[i]]. *)
Definition get {A} (l : list A) (i : nat) : res A :=
  match nth_error l i with Some x => Ok x | None => UB end.

(** List update; out of range it changes nothing (only used behind [set]). *)
Fixpoint upd {A} (l : list A) (i : nat) (x : A) : list A :=
  match l, i with
  | [], _ => []
  | _ :: r, O => x :: r
  | y :: r, S j => y :: upd r j x
  end.

(** Checked array write: [a[i] = x]. *)
Definition set {A} (l : list A) (i : nat) (x : A) : res (list A) :=
  if i <? length l then Ok (upd l i x) else UB.

(** Checked access with a C [int] index, which may be negative. *)
Definition getZ {A} (l : list A) (i : Z) : res A :=
  if (i <? 0)%Z then UB else get l (Z.to_nat i).
Definition setZ {A} (l : list A) (i : Z) (x : A) : res (list A) :=
  if (i <? 0)%Z then UB else set l (Z.to_nat i) x.

Fixpoint loop {St} (n i : nat) (f : nat -> St -> res St) (s : St) : res St :=
  match n with
  | O => Ok s
  | S m => s' <- f i s ;; loop m (S i) f s'
  end.

Definition for_ {St} (lo hi : nat) (f : nat -> St -> res St) (s : St) : res St :=
  loop (hi - lo) lo f s.

Fixpoint for_down {St} (n : nat) (f : nat -> St -> res St) (s : St) : res St :=
  match n with
  | O => Ok s
  | S m => s' <- f m s ;; for_down m f s'
  end.

(** Loop with [break]/[return]: the body answers [inl s] to continue and
    [inr r] to leave the loop with [r]. *)
Fixpoint loopb {St R} (n i : nat) (f : nat -> St -> res (St + R)) (s : St) : res (St + R) :=
  match n with
  | O => Ok (inl s)
  | S m => x <- f i s ;;
           match x with
           | inl s' => loopb m (S i) f s'
           | inr r => Ok (inr r)
           end
  end.
Definition forb {St R} (lo hi : nat) (f : nat -> St -> res (St + R)) (s : St) : res (St + R) :=
  loopb (hi - lo) lo f s.
