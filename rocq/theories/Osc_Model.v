(** Model of src/zm_oscil_kura.c and src/zm_oscil_vdp.c: nonlinear oscillators.  zOscInit, zOscUpdate, zOscOutput
    (include/zm/zm_oscil.h) call the functions of the oscillator through its table; allocation succeeds.
    [sin] of libm, zPIx2 and zTOL are parameters. *)
From Coq Require Import List ZArith.
From Verif Require Import Prelude Scalar.
Import ListNotations.

Section Osc.
  Context {T : Type} {ST : Scalar T}.
  Local Open Scope S_scope.
  Variables (sin : T -> T) (pix2 ztol : T).

  (** zm_oscil_kura.c:9-15 *)
  Record kura := Kura { k_wn : T; k_ke : T; k_po : T; k_p : T; k_w : T }.
  (** 47-61; zAlloc clears the memory *)
  Definition zOscCreateKura (wn ke po : T) : kura := Kura wn ke po 0 0.
  (** 18-22 *)
  Definition _zOscInitKura (o : kura) (p0 w0 : T) : kura := Kura (k_wn o) (k_ke o) (k_po o) p0 w0.
  (** 25-32 *)
  Definition _zOscUpdateKura (o : kura) (u dt : T) : kura :=
    let w := k_wn o + k_ke o * sin (u - k_p o - k_po o) in
    Kura (k_wn o) (k_ke o) (k_po o) (k_p o + w * dt) w.
  (** 35-38 *)
  Definition _zOscOutputKura (o : kura) : T := k_p o.

  (** zm_oscil_vdp.c:9-14 *)
  Record vdp := Vdp { v_omega : T; v_eps : T; v_amp : T; v_x : T; v_v : T }.
  (** 52-70; None is NULL *)
  Definition zOscCreateVDP (t damp amp : T) : option vdp :=
    if is_tol ztol t then None else Some (Vdp (pix2 / t) damp (amp * (1 / sofZ 2)) 0 0).
  (** 17-21 *)
  Definition _zOscInitVDP (o : vdp) (x0 v0 : T) : vdp := Vdp (v_omega o) (v_eps o) (v_amp o) (x0 / v_amp o) (v0 / v_amp o).
  (** 24-27 *)
  Definition _zOscOutputVDP (o : vdp) : T := v_amp o * v_x o.
  (** 30-41 *)
  Definition _zOscUpdateVDP (o : vdp) (u dt : T) : vdp :=
    let a := - v_omega o * (v_eps o * (v_x o * v_x o - 1) * v_v o + v_omega o * v_x o) - u in
    let v := v_v o + a * dt in
    Vdp (v_omega o) (v_eps o) (v_amp o) (v_x o + v * dt) v.
End Osc.
Arguments Kura {T}. Arguments Vdp {T}.
