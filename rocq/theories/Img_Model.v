(** Model of the search for extreme elements of a matrix, src/zm_mat.c:399-417 with
    include/zm/zm_misc.h:43-57, and of the picture of a matrix, src/zm_mat.c:1070-1092. *)
From Coq Require Import List Ascii.
From Verif Require Import Prelude Scalar Fmat Stat_Model.

Section Img.
  Context {T : Type} {ST : Scalar T}.
  Local Open Scope S_scope.
  Local Notation mat := (fmat T).

  (** zIsNan *)
  Definition nan_ (x : T) : bool := negb (seq x x).
  (** row i as zData...() sees it: zMatRowBufNC(m,i), zMatColSizeNC(m) *)
  Definition rowlist (m : mat) (i : nat) : list T := map (el m i) (List.seq 0 (nc m)).
  (** zm_mat.c:399-412: value, row and column; [None] is the NAN retval begins with.  [isb] is the test
      of zm_misc.h:43-47 on numbers. *)
  Definition mat_search (data : list T -> nat -> res (T * nat)) (isb : T -> T -> bool) (m : mat) : res (option (T * nat * nat)) :=
    for_ 0 (nr m) (fun i r =>
      '(rowval, ic) <- data (rowlist m i) (nc m) ;;
      Ok (if nan_ rowval then r else
          match r with
          | None => Some (rowval, i, ic)
          | Some (retval, _, _) => if isb rowval retval then Some (rowval, i, ic) else r
          end)) None.
  (** zm_mat.c:414-417 *)
  Definition zMatElemMax := mat_search zDataMax (fun t b => slt b t).
  Definition zMatElemMin := mat_search zDataMin (fun t b => slt t b).
  Definition zMatElemAbsMax := mat_search zDataAbsMax (fun t b => slt (sabs b) (sabs t)).
  Definition zMatElemAbsMin := mat_search zDataAbsMin (fun t b => slt (sabs t) (sabs b)).

  Variable toint : T -> option Z.   (** the conversion (int) of a double, undefined if it does not fit *)
  Variable tol : T.          (** zTOL *)
  (** zRound of zm_misc.h:108, taken as an int *)
  Definition zRound (x : T) : res Z :=
    match (if sle 0 x then toint (x + 1 / sofZ 2%Z) else toint (x - 1 / sofZ 2%Z)) with Some z => Ok z | None => UB end.
  (** 1074, 1075; a string literal ends with a NUL, which may be read too *)
  Definition pat_pos : list ascii := [","; "x"; "*"; "M"; "000"]%char.
  Definition pat_neg : list ascii := ["."; "o"; "O"; "@"; "000"]%char.
  (** 1082-1088: the character of an element *)
  Definition img_char (d x : T) : res ascii :=
    if is_tol tol x then Ok " "%char else
    c <- zRound (x / d) ;;
    let c := if (c <? -3)%Z then (-3)%Z else if (3 <? c)%Z then 3%Z else c in
    if (c <? 0)%Z then get pat_neg (Z.to_nat (- c)) else get pat_pos (Z.to_nat c).
  (** 1070-1092: the rows of characters; a matrix without rows has a NAN for d and no character *)
  Definition zMatImg (m : mat) : res (list (list ascii)) :=
    r <- zMatElemAbsMax m ;;
    match r with
    | None => Ok []
    | Some (mx, _, _) =>
      let d := sofZ 1%Z / sofZ 4%Z * mx in
      for_ 0 (nr m) (fun i img =>
        l <- for_ 0 (nc m) (fun j l => ch <- img_char d (el m i j) ;; Ok (l ++ [ch])) [] ;;
        Ok (img ++ [l])) []
    end.
End Img.
