(** Model of printing a complex number and of reading it from a string: src/zm_complex.c:42-62, 70-94.

    Parameters: [fmt] is printf's "%.10g" for a number, [atof] is that of libc, [numtok] is zSNumToken of
    ZEDA, which is not part of the repository: it gives the numeral at the head of the buffer and the rest
    of the buffer.  [bufsiz] is BUFSIZ. *)
From Coq Require Import Ascii String.
From Verif Require Import Prelude Scalar.

Section CStr.
  Context {T : Type} {ST : Scalar T}.
  Local Open Scope S_scope. Local Open Scope string_scope.
  Variable fmt : T -> string.
  Variable atof : string -> T.
  Variable numtok : string -> string * string.
  Variable bufsiz : nat.
  Definition chr (b : string) (n : nat) : ascii := match String.get n b with Some a => a | None => Ascii.zero end.
  Local Notation "a ~ b" := (Ascii.eqb a b%char) (at level 70).

  (** zm_complex.c:71-79 *)
  Definition zComplexImPrint (im : T) (ps : ascii) : string :=
    String (if slt s0 im then ps else "-"%char) ((if seq (sabs im) s1 then "" else fmt (sabs im)) ++ "i").
  (** zm_complex.c:82-94: the characters written to the file; '\0' is written as a character *)
  Definition zComplexPrint (re im : T) : string :=
    if seq re s0 then (if seq im s0 then "0" else zComplexImPrint im Ascii.zero)
    else fmt re ++ (if seq im s0 then "" else zComplexImPrint im "+").

  (** a string in C ends at the first null character *)
  Fixpoint cstr (s : string) : string :=
    match s with
    | EmptyString => EmptyString
    | String a r => if a ~ Ascii.zero then EmptyString else String a (cstr r)
    end.
  (** zm_complex.c:43-62; strcpy into an array of BUFSIZ characters *)
  Definition zComplexFromStr (str : string) : res (T * T) :=
    let buf := cstr str in
    if (bufsiz <=? String.length buf)%nat then UB
    else if chr buf 0 ~ "i" then Ok (s0, s1)
    else if (chr buf 0 ~ "+") && (chr buf 1 ~ "i") then Ok (s0, s1)
    else if (chr buf 0 ~ "-") && (chr buf 1 ~ "i") then Ok (s0, sopp s1)
    else
      let '(tkn, buf) := numtok buf in
      let re := atof tkn in
      if chr buf 0 ~ "i" then Ok (s0, re)
      else if chr buf 0 ~ "i" then Ok (re, s1)
      else if (chr buf 0 ~ "+") && (chr buf 1 ~ "i") then Ok (re, s1)
      else if (chr buf 0 ~ "-") && (chr buf 1 ~ "i") then Ok (re, sopp s1)
      else
        let '(tkn, buf) := numtok buf in
        Ok (re, if chr buf 0 ~ "i" then atof tkn else s0).
End CStr.
