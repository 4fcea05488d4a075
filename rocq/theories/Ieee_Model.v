(** Model of src/zm_ieee.c: classification of doubles by byte inspection.
    A double is its 64-bit pattern [w]; [val.d = x; val.c[k]] through the union
    [__ieee_fp_t] (include/zm/zm_ieee.h:17) is byte [k] of [w] in little-endian
    order (the code indexes c[7] as the most significant byte, so it is correct
    on little-endian machines only: the byte order is part of the trusted base). *)
From Verif Require Import Prelude.
Local Open Scope Z_scope.

(** [val.c[k]] *)
Definition byte (w : Z) (k : Z) : Z := (w / 2 ^ (8 * k)) mod 256.

(** src/zm_ieee.c:20-29 *)
Definition zIsInf (w : Z) : Z :=
  let c := byte w in
  if negb (c 6 =? 240)
     || negb (Z.lor (Z.lor (Z.lor (Z.lor (Z.lor (c 5) (c 4)) (c 3)) (c 2)) (c 1)) (c 0) =? 0)
  then 0
  else if c 7 =? 127 then 1 else if c 7 =? 255 then -1 else 0.

(** src/zm_ieee.c:42-50 *)
Definition zIsNan (w : Z) : Z :=
  let c := byte w in
  if (Z.land (c 7) 127 =? 127) && (Z.land (c 6) 240 =? 240)
     && negb (Z.lor (Z.lor (Z.lor (Z.lor (Z.lor (Z.lor (Z.land (c 6) 15) (c 5)) (c 4)) (c 3)) (c 2)) (c 1)) (c 0) =? 0)
  then 1 else 0.

(** src/zm_ieee.c:53-56 *)
Definition zIsFinite (w : Z) : Z :=
  if negb (zIsInf w =? 1) && negb (zIsInf w =? -1) && (zIsNan w =? 0) then 1 else 0.

(** src/zm_ieee.c:10-17 and 32-39: the constants zm_huge_val and zm_nan_val,
    bytes listed from c[0] to c[7] (little-endian branch). *)
Definition of_bytes (l : list Z) : Z := fold_right (fun b acc => b + 256 * acc) 0 l.
Definition zm_huge_val : Z := of_bytes [0; 0; 0; 0; 0; 0; 240; 127].
Definition zm_nan_val : Z := of_bytes [0; 0; 0; 0; 0; 0; 248; 127].
