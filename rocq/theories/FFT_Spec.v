(** Discrete Fourier transform, over Coquelicot's complex numbers. *)
From Coq Require Import Reals.
From Coquelicot Require Import Coquelicot.
From Verif Require Import Complex_Spec.
Open Scope R_scope.
(** exp( i t ) *)
Definition cis (t : R) : C := (cos t, sin t).
(** sum over j < n of x_j exp( i theta j k ) *)
Definition dft (n : nat) (theta : R) (x : nat -> C) (k : nat) : C :=
  csum n (fun j => Cmult (x j) (cis (theta * INR j * INR k))).
