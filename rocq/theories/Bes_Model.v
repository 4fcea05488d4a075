(** Bessel functions of integer order: /repo/src/zm_sf_bessel.c.

    The argument tables are in [Bes_Tables].  exp, log, sin, cos of libm, zTOL and the conversion of decimal constants are
    kept abstract in the usual way: the four functions and [ztol] are parameters, decimal constants are quotients of
    integers.  [None] is the return value NAN, [UB] a read outside of a table or the conversion to int of a number whose
    truncation is not a valid block number. *)
From Verif Require Import Prelude Scalar Bes_Tables.
Open Scope S_scope.

Section Bessel.
Context {T : Type} `{Scalar T}.
Variables fexp flog fsin fcos : T -> T.
Variable ztol : T.

(** decimal constant m / 10^e (in the instance [FloatS] only meaningful below 2^63; no theorem uses it beyond) *)
Definition dec (d : Z * Z) : T := sofZ (fst d) / sofZ (10 ^ snd d)%Z.

(** C conversion [(int)t] used as a block number below [hi]: numbers in (-1,hi) are truncated; for all others (NaN
    included) the block lies outside of its table (or the conversion is undefined): UB. *)
Fixpoint cint_from (k fuel : nat) (t : T) : res nat :=
  match fuel with
  | O => UB
  | S f => if slt t (sofZ (Z.of_nat (S k))) then Ok k else cint_from (S k) f t
  end.
Definition cint (hi : nat) (t : T) : res nat := if slt (- (1)) t then cint_from 0 hi t else UB.
(** [k-lo] as a block number *)
Definition from (lo k : nat) : res nat := if (k <? lo)%nat then UB else Ok (k - lo)%nat.

(** _zBesselRec, zm_sf_bessel.c:17-27: c+o, dim *)
Fixpoint rec_loop (c : tab) (o k : nat) (x ret : T) : res T :=
  match k with
  | O => Ok ret
  | S k' => match nth_error c o with
            | None => UB
            | Some d => rec_loop c (S o) k' x (ret * x + dec d)
            end
  end.
Definition bes_rec (c : tab) (o dim : nat) (x : T) : res T :=
  match nth_error c o with
  | None => UB
  | Some d => rec_loop c (S o) (dim - 1) x (dec d)
  end.

Definition half : T := dec (5, 1)%Z.
Definition sZ (k : nat) : T := sofZ (Z.of_nat k).
(** 0.78539816339744830962, e.g. zm_sf_bessel.c:159 *)
Definition qpi : T := dec (78539816339744830962, 20)%Z.

(** zBesselJ0, zm_sf_bessel.c:30-160 *)
Definition besJ0 (x : T) : res T :=
  let x := sabs x in
  if slt x 1 then bes_rec J0a 0 8 (x * x)
  else if slt x (dec (85, 1)%Z) then
    let t := x * x * dec (625, 4)%Z in
    k <- cint 5 t ;; bes_rec J0b (k * 13) 13 (t - sZ k - half)
  else if slt x (dec (125, 1)%Z) then
    k <- cint 13 x ;; b <- from 8 k ;; bes_rec J0c (b * 14) 14 (x - sZ k - half)
  else
    let v := sofZ 24 / x in
    let t := v * v in
    b <- cint 4 t ;; let k := (b * 13)%nat in
    p <- bes_rec J0d k 7 t ;;
    q <- bes_rec J0d (k + 7) 6 t ;;
    Ok (p * ssqrt v * fcos (x + q * v - qpi)).

(** zBesselJ1, zm_sf_bessel.c:163-293; the part for x >= 0 *)
Definition besJ1p (x : T) : res T :=
  if slt x 1 then p <- bes_rec J1a 0 8 (x * x) ;; Ok (p * x)
  else if slt x (dec (85, 1)%Z) then
    let t := x * x * dec (625, 4)%Z in
    k <- cint 5 t ;; p <- bes_rec J1b (k * 13) 13 (t - sZ k - half) ;; Ok (p * x)
  else if slt x (dec (125, 1)%Z) then
    k <- cint 13 x ;; b <- from 8 k ;; bes_rec J1c (b * 14) 14 (x - sZ k - half)
  else
    let v := sofZ 24 / x in
    let t := v * v in
    b <- cint 4 t ;; let k := (b * 13)%nat in
    p <- bes_rec J1d k 7 t ;;
    q <- bes_rec J1d (k + 7) 6 t ;;
    Ok (p * ssqrt v * fsin (x + q * v - qpi)).
Definition besJ1 (x : T) : res T :=
  if slt x 0 then p <- besJ1p (- x) ;; Ok (- p) else besJ1p x.

(** the upward recurrence of zBesselJ (:314-318): [cnt] steps from [i] *)
Fixpoint J_up (cnt : nat) (i : nat) (ax j0 j1 : T) : T :=
  match cnt with
  | O => j1
  | S c => J_up c (S i) ax j1 (sZ i * ax * j1 - j0)
  end.
(** the downward recurrence of zBesselJ (:325-332); the loop counter is [i] *)
Fixpoint J_down (i n : nat) (ax j0 j1 s ret : T) (sw : bool) : T * T * T :=
  match i with
  | O => (ret, s, j1)
  | S i' =>
      let j := sZ i * ax * j1 - j0 in
      let j0 := j1 in
      let j1 := j in
      J_down i' n ax j0 j1 (if sw then s + j1 else s) (if (i =? n)%nat then j0 else ret) (negb sw)
  end.
(** the first index of the downward recurrence, 2*((n+(int)sqrt(40.0*n))/2) (:325).  40.0*n and the truncated square root
    are exact in double for every int n. *)
Definition J_start (n : nat) : nat := 2 * ((n + Nat.sqrt (40 * n)) / 2).

(** zBesselJ, zm_sf_bessel.c:296-336, for n >= 0 *)
Definition besJn (n : nat) (x : T) : res T :=
  if (n =? 0)%nat then besJ0 x
  else if (n =? 1)%nat then besJ1 x
  else
    let ax := sabs x in
    if slt ax ztol then Ok 0 else
    ret <- (if slt (sZ n) ax then
              j0 <- besJ0 ax ;; j1 <- besJ1 ax ;;
              Ok (J_up (n - 1) 1 (sofZ 2 / ax) j0 j1)
            else
              let '(ret, s, j1) := J_down (J_start n) n (sofZ 2 / ax) 0 1 0 0 false in
              Ok (ret / (sofZ 2 * s - j1))) ;;
    Ok (if slt x 0 && Nat.odd n then - ret else ret).
Definition besJ (n : Z) (x : T) : res (option T) :=
  if (n <? 0)%Z then Ok None else r <- besJn (Z.to_nat n) x ;; Ok (Some r).

(** zBesselY0, zm_sf_bessel.c:339-524 *)
Definition besY0 (x : T) : res (option T) :=
  if sle x 0 then Ok None
  else if slt x (dec (85, 2)%Z) then
    let t := x * x in
    p <- bes_rec Y0a 8 8 t ;; q <- bes_rec Y0a 0 8 t ;; Ok (Some (p + q * flog x))
  else if slt x (dec (45, 1)%Z) then
    let t := x - sofZ 4 / x in
    k <- cint 8 (t + sofZ 4) ;;
    p <- bes_rec Y0b (k * 14) 14 (t - sZ k + dec (35, 1)%Z) ;; Ok (Some p)
  else if slt x (dec (125, 1)%Z) then
    k <- cint 13 x ;; b <- from 4 k ;;
    p <- bes_rec Y0c (b * 14) 14 (x - sZ k - half) ;; Ok (Some p)
  else
    let v := sofZ 24 / x in
    let t := v * v in
    b <- cint 4 t ;; let k := (b * 13)%nat in
    p <- bes_rec Y0d k 7 t ;;
    q <- bes_rec Y0d (k + 7) 6 t ;;
    Ok (Some (p * ssqrt v * fsin (x + q * v - qpi))).

(** zBesselY1, zm_sf_bessel.c:527-712 *)
Definition besY1 (x : T) : res (option T) :=
  if sle x 0 then Ok None
  else if slt x (dec (85, 2)%Z) then
    let t := x * x in
    p <- bes_rec Y1a 8 8 t ;; q <- bes_rec Y1a 0 8 t ;; Ok (Some (p / x + q * x * flog x))
  else if slt x (dec (415, 2)%Z) then
    let v := sofZ 4 / x in
    let t := x - v in
    k <- cint 8 (t + sofZ 4) ;;
    p <- bes_rec Y1b (k * 14) 14 (t - sZ k + dec (35, 1)%Z) ;; Ok (Some (p * v))
  else if slt x (dec (125, 1)%Z) then
    k <- cint 13 x ;; b <- from 4 k ;;
    p <- bes_rec Y1c (b * 14) 14 (x - sZ k - half) ;; Ok (Some p)
  else
    let v := sofZ 24 / x in
    let t := v * v in
    b <- cint 4 t ;; let k := (b * 13)%nat in
    p <- bes_rec Y1d k 7 t ;;
    q <- bes_rec Y1d (k + 7) 6 t ;;
    Ok (Some (- p * ssqrt v * fcos (x + q * v - qpi))).

(** the upward recurrence with NAN propagating: zBesselY (:729-733) *)
Definition besYn (n : nat) (x : T) : res (option T) :=
  if (n =? 0)%nat then besY0 x
  else if (n =? 1)%nat then besY1 x
  else
    y0 <- besY0 x ;; y1 <- besY1 x ;;
    Ok (match y0, y1 with
        | Some y0, Some y1 => Some (J_up (n - 1) 1 (sofZ 2 / x) y0 y1)
        | _, _ => None
        end).
(** zBesselY, zm_sf_bessel.c:715-735 *)
Definition besY (n : Z) (x : T) : res (option T) :=
  if (n <? 0)%Z then Ok None else besYn (Z.to_nat n) x.

(** zBesselI0, zm_sf_bessel.c:738-854 *)
Definition besI0 (x : T) : res T :=
  let x := sabs x in
  if slt x (dec (85, 1)%Z) then
    let t := x * x * dec (625, 4)%Z in
    k <- cint 5 t ;; bes_rec I0a (k * 13) 13 t
  else if slt x (dec (125, 1)%Z) then
    k <- cint 13 x ;; b <- from 8 k ;; bes_rec I0b (b * 14) 14 (x - sZ k)
  else
    let t := sofZ 60 / x in
    b <- cint 5 t ;;
    p <- bes_rec I0c (b * 9) 9 t ;; Ok (p * ssqrt t * fexp x).

(** zBesselI1, zm_sf_bessel.c:857-968; the part for x >= 0 *)
Definition besI1p (x : T) : res T :=
  if slt x (dec (85, 1)%Z) then
    let t := x * x * dec (625, 4)%Z in
    k <- cint 5 t ;; p <- bes_rec I1a (k * 12) 12 t ;; Ok (p * x)
  else if slt x (dec (125, 1)%Z) then
    k <- cint 13 x ;; b <- from 8 k ;; bes_rec I1b (b * 14) 14 (x - sZ k)
  else
    let t := sofZ 60 / x in
    b <- cint 5 t ;;
    p <- bes_rec I1c (b * 9) 9 t ;; Ok (p * ssqrt t * fexp x).
Definition besI1 (x : T) : res T :=
  if slt x 0 then p <- besI1p (- x) ;; Ok (- p) else besI1p x.

(** the downward recurrence of zBesselI (:987-992) *)
Fixpoint I_down (i n : nat) (ax i0 i1 ret : T) : T * T :=
  match i with
  | O => (ret, i1)
  | S i' =>
      let inn := sZ i * ax * i1 + i0 in
      let i0 := i1 in
      I_down i' n ax i0 inn (if (i =? n)%nat then i0 else ret)
  end.
(** 2*(n+(int)sqrt(40.0*n)) (:987) *)
Definition I_start (n : nat) : nat := 2 * (n + Nat.sqrt (40 * n)).

(** zBesselI, zm_sf_bessel.c:971-995, for n >= 0 *)
Definition besIn (n : nat) (x : T) : res T :=
  if (n =? 0)%nat then besI0 x
  else if (n =? 1)%nat then besI1 x
  else
    let ax := sabs x in
    if slt ax ztol then Ok 0 else
    let '(ret, i1) := I_down (I_start n) n (sofZ 2 / ax) 0 1 0 in
    y <- besI0 x ;;
    let ret := ret * (y / i1) in
    Ok (if slt x 0 && Nat.odd n then - ret else ret).
Definition besI (n : Z) (x : T) : res (option T) :=
  if (n <? 0)%Z then Ok None else r <- besIn (Z.to_nat n) x ;; Ok (Some r).

(** zBesselK0, zm_sf_bessel.c:998-1182 *)
Definition besK0 (x : T) : res (option T) :=
  if sle x 0 then Ok None
  else if slt x (dec (86, 2)%Z) then
    let t := x * x in
    p <- bes_rec K0a 8 8 t ;; q <- bes_rec K0a 0 8 t ;; Ok (Some (p - q * flog x))
  else if slt x (dec (415, 2)%Z) then
    let t := x - sofZ 5 / x in
    k <- cint 8 (t + sofZ 5) ;;
    p <- bes_rec K0b (k * 14) 14 (sZ k - t - sofZ 4) ;; Ok (Some p)
  else if slt x (dec (125, 1)%Z) then
    k <- cint 13 x ;; b <- from 4 k ;;
    p <- bes_rec K0c (b * 15) 15 (sZ k - x + 1) ;; Ok (Some p)
  else
    let t := sofZ 60 / x in
    b <- cint 5 t ;;
    p <- bes_rec K0d (b * 8) 8 t ;; Ok (Some (p * ssqrt t * fexp (- x))).

(** zBesselK1, zm_sf_bessel.c:1185-1368.  It does not test x <= 0: the result is then NAN because of log(x). *)
Definition besK1 (x : T) : res T :=
  if slt x (dec (8, 1)%Z) then
    let t := x * x in
    p <- bes_rec K1a 8 8 t ;; q <- bes_rec K1a 0 8 t ;; Ok (p / x + q * x * flog x)
  else if slt x (dec (55, 1)%Z) then
    let v := sofZ 3 / x in
    let t := x - v in
    k <- cint 8 (t + sofZ 3) ;;
    p <- bes_rec K1b (k * 15) 15 (sZ k - t - sofZ 2) ;; Ok (p * v)
  else if slt x (dec (125, 1)%Z) then
    k <- cint 13 x ;; b <- from 5 k ;;
    bes_rec K1c (b * 15) 15 (sZ k - x + 1)
  else
    let t := sofZ 60 / x in
    b <- cint 5 t ;;
    p <- bes_rec K1d (b * 8) 8 t ;; Ok (p * ssqrt t * fexp (- x)).

(** the upward recurrence of zBesselK (:1385-1389) *)
Fixpoint K_up (cnt : nat) (i : nat) (ax k0 k1 : T) : T :=
  match cnt with
  | O => k1
  | S c => K_up c (S i) ax k1 (sZ i * ax * k1 + k0)
  end.
Definition besKn (n : nat) (x : T) : res (option T) :=
  if (n =? 0)%nat then besK0 x
  else
    k1 <- besK1 x ;;
    if (n =? 1)%nat then Ok (Some k1)
    else
      k0 <- besK0 x ;;
      Ok (match k0 with
          | Some k0 => Some (K_up (n - 1) 1 (sofZ 2 / x) k0 k1)
          | None => None
          end).
(** zBesselK, zm_sf_bessel.c:1371-1391 *)
Definition besK (n : Z) (x : T) : res (option T) :=
  if (n <? 0)%Z then Ok None else besKn (Z.to_nat n) x.
End Bessel.
