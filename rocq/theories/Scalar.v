(** Number systems.  Numerical code of /repo is written in the model once, over
    this record of operations; C's [double] corresponds to the instance [FloatS]
    (IEEE-754 binary64, round to nearest), theorems about exact arithmetic use
    [RealS], exact executable examples use [RatS]. *)
From Coq Require Import Reals QArith Qabs Qreduction PrimFloat Uint63.
From Verif Require Import Prelude.

Class Scalar (T : Type) : Type := {
  s0 : T; s1 : T;
  sadd : T -> T -> T; ssub : T -> T -> T; smul : T -> T -> T; sdiv : T -> T -> T;
  sopp : T -> T; sabs : T -> T; ssqrt : T -> T;
  slt : T -> T -> bool;   (** [x < y] *)
  sle : T -> T -> bool;   (** [x <= y] *)
  seq : T -> T -> bool;   (** [x == y] *)
  sofZ : Z -> T           (** conversion of a C integer *)
}.

Declare Scope S_scope.
Delimit Scope S_scope with S.
Infix "+" := sadd : S_scope.
Infix "-" := ssub : S_scope.
Infix "*" := smul : S_scope.
Infix "/" := sdiv : S_scope.
Notation "- x" := (sopp x) : S_scope.
Notation "0" := s0 : S_scope.
Notation "1" := s1 : S_scope.

(** [zIsTol(x,tol)] = [ fabs(x) <= tol ], include/zm/zm_misc.h:
    [zIsTiny(x)] is [zIsTol(x,zTOL)]. *)
Definition is_tol {T} `{Scalar T} (tol x : T) : bool := sle (sabs x) tol.

(** The real numbers (exact arithmetic). *)
Definition Rltb (x y : R) : bool := if Rlt_dec x y then true else false.
Definition Rleb (x y : R) : bool := if Rle_dec x y then true else false.
Definition Reqb (x y : R) : bool := if Req_EM_T x y then true else false.

Global Instance RealS : Scalar R := {|
  s0 := 0%R; s1 := 1%R;
  sadd := Rplus; ssub := Rminus; smul := Rmult; sdiv := Rdiv;
  sopp := Ropp; sabs := Rabs; ssqrt := R_sqrt.sqrt;
  slt := Rltb; sle := Rleb; seq := Reqb; sofZ := IZR |}.

(** The rational numbers, kept reduced: exact and executable (square roots are
    exact only on squares of rationals; no theorem relies on others). *)
Global Instance RatS : Scalar Q | 20 := {|
  s0 := 0%Q; s1 := 1%Q;
  sadd x y := Qred (x + y)%Q; ssub x y := Qred (x - y)%Q;
  smul x y := Qred (x * y)%Q; sdiv x y := Qred (x / y)%Q;
  sopp x := Qred (- x)%Q; sabs x := Qred (Qabs x);
  ssqrt x := Qred (Qmake (Z.sqrt (Qnum (Qred x))) (Pos.sqrt (Qden (Qred x))));
  slt x y := negb (Qle_bool y x); sle x y := Qle_bool x y; seq x y := Qeq_bool x y;
  sofZ z := inject_Z z |}.

(** IEEE-754 binary64. *)
Definition float_of_Z (z : Z) : float :=
  match z with
  | Z0 => PrimFloat.zero
  | Zpos _ => PrimFloat.of_uint63 (Uint63.of_Z z)
  | Zneg p => PrimFloat.opp (PrimFloat.of_uint63 (Uint63.of_Z (Zpos p)))
  end.
Global Instance FloatS : Scalar float | 30 := {|
  s0 := PrimFloat.zero; s1 := PrimFloat.one;
  sadd := PrimFloat.add; ssub := PrimFloat.sub; smul := PrimFloat.mul; sdiv := PrimFloat.div;
  sopp := PrimFloat.opp; sabs := PrimFloat.abs; ssqrt := PrimFloat.sqrt;
  slt := PrimFloat.ltb; sle := PrimFloat.leb; seq := PrimFloat.eqb; sofZ := float_of_Z |}.
