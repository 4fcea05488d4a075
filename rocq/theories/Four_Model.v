(** Model of src/zm_fourier.c and include/zm/zm_fourier.h: finite Fourier series.  sin and cos of libm are parameters; int is 32-bit:
    an overflow of i*i (zm_fourier.c:63) is [UB].  Not modelled: printing, failing allocation. *)
From Coq Require Import ZArith.
From Verif Require Import Prelude Scalar Fmat.

Section Fourier.
  Context {T : Type} {ST : Scalar T}.
  Local Open Scope S_scope.
  Variables (sin cos : T -> T).
  (** zm_fourier.h:18-22: the sizes of both arrays are the number of terms *)
  Record fourier := Fourier { f_n : nat; f_sc : fvec T; f_cc : fvec T }.
  (** zm_fourier.c:10-20; zAlloc clears *)
  Definition zFourierAlloc (n : nat) : fourier := Fourier n (FV n (fun _ => 0)) (FV n (fun _ => 0)).
  (** zm_fourier.h:25-27, 30 *)
  Definition zFourierSetSinCoeff (f : fourier) (i : Z) (c : T) : res fourier :=
    if ((0 <=? i) && (i <? Z.of_nat (f_n f)))%Z%bool
    then v <- vset (f_sc f) (Z.to_nat i) (if (i =? 0)%Z then 0 else c) ;; Ok (Fourier (f_n f) v (f_cc f)) else Ok f.
  (** zm_fourier.h:32 *)
  Definition zFourierSetCosCoeff (f : fourier) (i : Z) (c : T) : res fourier :=
    if ((0 <=? i) && (i <? Z.of_nat (f_n f)))%Z%bool
    then v <- vset (f_cc f) (Z.to_nat i) c ;; Ok (Fourier (f_n f) (f_sc f) v) else Ok f.
  Definition ofi (i : nat) : T := sofZ (Z.of_nat i).
  (** 31-41 *)
  Definition zFourierVal (f : fourier) (t : T) : res T :=
    for_ 0 (f_n f) (fun i val =>
      let s := sin (ofi i * t) in let c := cos (ofi i * t) in
      a <- vget (f_sc f) i ;; b <- vget (f_cc f) i ;; Ok (val + (a * s + b * c))) 0.
  (** 44-54 *)
  Definition zFourierVel (f : fourier) (t : T) : res T :=
    for_ 0 (f_n f) (fun i val =>
      let s := sin (ofi i * t) in let c := cos (ofi i * t) in
      a <- vget (f_sc f) i ;; b <- vget (f_cc f) i ;; Ok (val + ofi i * (a * c - b * s))) 0.
  (** 57-67 *)
  Definition zFourierAcc (f : fourier) (t : T) : res T :=
    for_ 0 (f_n f) (fun i val =>
      let s := sin (ofi i * t) in let c := cos (ofi i * t) in
      a <- vget (f_sc f) i ;; b <- vget (f_cc f) i ;;
      if (2147483647 <? Z.of_nat i * Z.of_nat i)%Z then UB
      else Ok (val - sofZ (Z.of_nat i * Z.of_nat i) * (a * s + b * c))) 0.
End Fourier.
Arguments Fourier {T}. Arguments f_n {T}. Arguments f_sc {T}. Arguments f_cc {T}.
