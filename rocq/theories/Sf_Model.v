(** Model of src/zm_sf_erf.c, src/zm_sf_gamma.c and src/zm_sf_fresnel.c:12-38, 82-101 (special functions).  exp, log and the
    constants zPI, zPI_2 are parameters; decimal literals are quotients of integers; int does not overflow.  The continued fraction of
    zm_sf_fresnel.c:41-79 (arguments above 1.5) is a parameter.  The scaled and generalised Fresnel integrals are in Curve_Model. *)
From Coq Require Import ZArith List Arith.
From Verif Require Import Prelude Scalar.

Section Sf.
  Context {T : Type} {ST : Scalar T}.
  Local Open Scope S_scope.
  Local Notation ofi i := (sofZ (Z.of_nat i)).
  Variables (exp log : T -> T) (pi pi_2 : T).

  (** zm_sf_erf.c:10-23 *)
  Definition zErfN (x : T) (n : Z) : T :=
    let x2 := x * x in
    let s := fold_left (fun s i =>
      let d := fold_left (fun d j => d * (- x2 / ofi j)) (List.seq 1 i) 1 in
      s + d * x / ofi (2 * i + 1)) (List.seq 0 (Z.to_nat (n + 1))) 0 in
    sofZ 2 * s / ssqrt pi.

  (** zm_sf_gamma.c:10-22 *)
  Definition _zGammaSeed (x : T) : T :=
    let s := sofZ 1000000000190015 / sofZ 1000000000000000 in
    let s := s - sofZ 5395239384953 / sofZ 1000000000000000000 / (x + sofZ 6) in
    let s := s + sofZ 1208650973866179 / sofZ 1000000000000000000 / (x + sofZ 5) in
    let s := s - sofZ 1231739572450155 / sofZ 1000000000000000 / (x + sofZ 4) in
    let s := s + sofZ 2401409824083091 / sofZ 100000000000000 / (x + sofZ 3) in
    let s := s - sofZ 8650532032941677 / sofZ 100000000000000 / (x + sofZ 2) in
    let s := s + sofZ 7618009172947146 / sofZ 100000000000000 / (x + 1) in
    sofZ 25066282746310005 / sofZ 10000000000000000 * s / x.
  (** zm_sf_gamma.c:25-28 *)
  Definition _zGammaBias (x : T) : T := (x + 1 / sofZ 2) * log (x + sofZ 11 / sofZ 2) - x - sofZ 11 / sofZ 2.
  (** zm_sf_gamma.c:31-34 *)
  Definition zGamma (x : T) : T := exp (_zGammaBias x) * _zGammaSeed x.
  (** zm_sf_gamma.c:37-40 *)
  Definition zLnGamma (x : T) : T := _zGammaBias x + log (_zGammaSeed x).
  (** zm_sf_gamma.c:43-46 *)
  Definition zBeta (z w : T) : T := exp (zLnGamma z + zLnGamma w - zLnGamma (z + w)).

  Variable tol : T.
  (** zm_sf_fresnel.c:20-32, from iteration i with [k] iterations left (Z_MAX_ITER_NUM in all); n = 2i+1; answers flag, *s and *c *)
  Fixpoint gilbert_loop (k i : nat) (t0 s c sum t : T) : bool * T * T :=
    match k with
    | O => (false, s, c)
    | S k =>
        let t := t * (t0 / ofi i) in
        let sum := sum + (if i mod 4 <=? 1 then t else - t) / ofi (2 * i + 1) in
        if slt t (sabs sum * tol) then (true, s, c)
        else if Nat.odd i then gilbert_loop k (S i) t0 sum c c t
        else gilbert_loop k (S i) t0 s sum s t
    end.
  (** zm_sf_fresnel.c:12-38 *)
  Definition _zFresnelIntgGilbert (iter : nat) (x : T) : bool * T * T :=
    gilbert_loop iter 1 (pi_2 * x * x) 0 x 0 x.
  (** zm_sf_fresnel.c:82-101; [lentz] is 41-79 *)
  Variable lentz : T -> bool * T * T.
  Definition zFresnelIntgPI_2 (iter : nat) (x : T) : bool * T * T :=
    let ax := sabs x in
    let '(ret, s, c) :=
      if slt ax (ssqrt (1 / sofZ 1000000000000000000000000000000)) then (true, 0, ax)
      else if sle ax (sofZ 3 / sofZ 2) then _zFresnelIntgGilbert iter ax
      else lentz ax in
    if slt x 0 then (ret, - s, - c) else (ret, s, c).
End Sf.
