(** Rounded arithmetic: the scalars of the model when every operation is the exact one followed by
    a rounding [rnd], whatever it is (IEEE 754 without exceptional values is one of them).  Nothing of
    /repo is modelled here: it is the arithmetic the functions of src/zm_stat.c and src/zm_raw_vec.c
    are run in. *)
From Coq Require Import Reals.
From Verif Require Import Prelude Scalar.
Local Open Scope R_scope.

Definition RndS (rnd : R -> R) : Scalar R := {|
  s0 := 0; s1 := 1;
  sadd a b := rnd (a + b); ssub a b := rnd (a - b); smul a b := rnd (a * b); sdiv a b := rnd (a / b);
  sopp := Ropp; sabs := Rabs; ssqrt a := rnd (R_sqrt.sqrt a);
  slt := Rltb; sle := Rleb; seq := Reqb; sofZ z := rnd (IZR z) |}.
