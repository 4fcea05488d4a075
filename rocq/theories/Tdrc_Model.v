(** Model of the in-place transpose, src/zm_raw_mat.c:331-358. *)
From Verif Require Import Prelude.

(** zm_raw_mat.c:332-335, C integer division of non-negative operands *)
Definition tdrc_prev (index rowcap colcap : nat) : nat :=
  (index mod rowcap) * colcap + index / rowcap.

Section Tdrc.
  Context {T : Type}.

  (** zm_raw_mat.c:347-348, [while( prev_index > i ) prev_index = ...].  The fuel
      makes it total; running out of it is reported as [UB] and is shown not to
      happen. *)
  Fixpoint tdrc_walk (fuel i prev r c : nat) : res nat :=
    match fuel with
    | O => UB
    | S f => if i <? prev then tdrc_walk f i (tdrc_prev prev r c) r c else Ok prev
    end.

  (** zm_raw_mat.c:352-355: rotation along the cycle of [i] *)
  Fixpoint tdrc_rotate (fuel i index prev r c : nat) (mat : list T) : res (nat * list T) :=
    match fuel with
    | O => UB
    | S f => if prev =? i then Ok (index, mat)
             else x <- get mat prev ;;
                  mat' <- set mat index x ;;
                  tdrc_rotate f i prev (tdrc_prev prev r c) r c mat'
    end.

  (** zm_raw_mat.c:346-356: one iteration of the outer loop *)
  Definition tdrc_step (size r c i : nat) (mat : list T) : res (list T) :=
    p <- tdrc_walk (S size) i (tdrc_prev i r c) r c ;;
    if negb (p =? i) then Ok mat
    else tmp <- get mat i ;;
         '(index, mat') <- tdrc_rotate (S size) i i (tdrc_prev i r c) r c mat ;;
         set mat' index tmp.

  (** zm_raw_mat.c:338-358; the array is the list [mat], all accesses checked *)
  Definition zRawMatTDRC (mat : list T) (r c : nat) : res (list T) :=
    let size := r * c in
    if size <=? 1 then Ok mat
    else for_ 0 size (tdrc_step size r c) mat.
End Tdrc.
