(** Model of zPexSExpr, src/zm_pex.c:370-411.

    The string is the list of the pieces appended to it.  Simplifications: the buffer is
    large enough for every piece (the macro __strcat_dec drops a piece that does not fit);
    "%.10g" prints its argument exactly.  The local variable [coeff] is uninitialised
    ([None]) at the start. *)
From Verif Require Import Prelude Scalar Complex_Model.

Section PexStr.
  Context {T : Type} {ST : Scalar T}.
  Local Open Scope S_scope.
  Inductive piece := PZero              (** "0" *)
    | PPlus | PMinus                    (** " + ", " - " *)
    | PNum (x : T)                      (** "%.10g " *)
    | PVar                              (** "%c" *)
    | PPow (i : nat).                   (** "^%d" *)
  (** zm_pex.c:389-407, one term.  State: string, coeff *)
  Definition term (tol : T) (p : list T) (dim i : nat) (s : list piece * option T) : res (list piece * option T) :=
    c <- get p i ;;
    let str := fst s in
    let str := if (i <? dim)%nat && slt 0 c then str ++ [PPlus] else if slt c 0 then str ++ [PMinus] else str in
    if seq c 0 then Ok (str, snd s) else
    (** i == 0 || !zEqual( ( coeff = fabs(c) ), 1, zTOL ) *)
    '(str, coeff) <- (if (i =? 0)%nat
       then match snd s with None => UB | Some k => Ok (str ++ [PNum k], snd s) end
       else let k := sabs c in Ok (if zEqual k 1 tol then str else str ++ [PNum k], Some k)) ;;
    let str := if (0 <? i)%nat then str ++ [PVar] else str in
    let str := if (1 <? i)%nat then str ++ [PPow i] else str in
    Ok (str, coeff).
  (** zm_pex.c:379-411; the polynomial is the list of its coefficients c_0 .. c_dim *)
  Definition zPexSExpr (tol : T) (p : list T) : res (list piece) :=
    match length p with
    | O => Ok [PZero]
    | S dim => rmap fst (for_down (S dim) (term tol p dim) ([], None))
    end.
End PexStr.
Arguments piece : clear implicits.
