(** Model of the remaining scalar functions: src/zm_misc.c and include/zm/zm_misc.h.  Functions of libm are arguments. *)
From Verif Require Import Prelude Scalar.

Section Func.
  Context {T : Type} {ST : Scalar T}.
  Local Open Scope S_scope.

  (** zm_misc.c:35-41 *)
  Definition zPhaseNormalize (fsin fcos : T -> T) (fatan2 : T -> T -> T) (angle : T) : T :=
    let s := fsin angle in
    let c := fcos angle in
    fatan2 s c.

  (** zm_misc.c:73-82; [pix2] is zPIx2 and [half] is 0.5 *)
  Definition zCycloidX (fsin : T -> T) (pix2 phase : T) : T := phase - fsin (pix2 * phase) / pix2.
  Definition zCycloidY (fcos : T -> T) (pix2 half phase : T) : T := half * (1 - fcos (pix2 * phase)).

  (** zm_misc.c:85-88 *)
  Definition zSigmoid (fexp : T -> T) (x : T) : T := 1 / (1 + fexp (- x)).

  (** zm_misc.c:91-98; [third] is pow( ., 1.0/3.0 ).  Complex_Model.zCbrt is this function with the exact power *)
  Definition zCbrtBy (third : T -> T) (half x : T) : T :=
    if seq x 0 then 0
    else
      let w := if slt 0 x then third x else - third (- x) in
      half * (w + sofZ 3%Z * x / (sofZ 2%Z * w * w + x / w)).

  (** zm_misc.h:102: zSgn, an integer *)
  Definition zSgn (x : T) : Z := if sle 0 x then 1%Z else (-1)%Z.
  (** zm_misc.h:105: zCeil; ceil and floor of libm *)
  Definition zCeil (fceil ffloor : T -> T) (x : T) : T := if sle 0 x then fceil x else ffloor x.
  (** zm_misc.h:108: zRound; the cast of a value that does not fit in int is undefined, [trunc] is the integer part *)
  Definition to_int (trunc : T -> Z) (x : T) : res Z :=
    if ((-2147483648 <=? trunc x) && (trunc x <=? 2147483647))%Z then Ok (trunc x) else UB.
  Definition zRound (trunc : T -> Z) (half x : T) : res T :=
    z <- (if sle 0 x then to_int trunc (x + half) else to_int trunc (x - half)) ;;
    Ok (sofZ z).
  (** zm_misc.h:111: zFruct *)
  Definition zFruct (ffloor : T -> T) (x y : T) : T := x - ffloor (x / y) * y.
End Func.
