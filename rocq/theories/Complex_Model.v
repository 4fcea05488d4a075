(** Model of src/zm_complex_arith.c, zm_complex_pe.c, zm_cvec.c and the complex part of
    zm_pex.c.

    A [zComplex *] is an index into a memory of complex cells; every cell has a real and
    an imaginary member, written one after the other, so that aliasing of the
    destination with an operand is visible.  Local variables are plain values. *)
From Verif Require Import Prelude Scalar Pex_Model.

Section Complex.
  Context {T : Type} {ST : Scalar T}.
  Local Open Scope S_scope.
  Definition cplx : Type := (T * T)%type.
  Definition cmem : Type := nat -> cplx.
  Definition wr_re (m : cmem) (c : nat) (x : T) : cmem := fun k => if (k =? c)%nat then (x, snd (m k)) else m k.
  Definition wr_im (m : cmem) (c : nat) (x : T) : cmem := fun k => if (k =? c)%nat then (fst (m k), x) else m k.
  (** include/zm/zm_complex.h:34-37, _zComplexCreate: a macro, so the expression for the
      imaginary part is evaluated after the real part has been stored. *)
  Definition create (m : cmem) (c : nat) (r i : cmem -> T) : cmem :=
    let m := wr_re m c (r m) in wr_im m c (i m).
  (** _zComplexCopy, a struct assignment *)
  Definition wr (m : cmem) (c : nat) (z : cplx) : cmem := fun k => if (k =? c)%nat then z else m k.

  (** include/zm/zm_complex_arith.h:17 *)
  Definition sqrabs (z : cplx) : T := fst z * fst z + snd z * snd z.
  (** include/zm/zm_complex_arith.h:38,71-76 and zm_complex_arith.c:28-86 *)
  Definition zComplexConj m c cc := create m cc (fun m => fst (m c)) (fun m => - snd (m c)).
  Definition zComplexAdd m c1 c2 c := create m c (fun m => fst (m c1) + fst (m c2)) (fun m => snd (m c1) + snd (m c2)).
  Definition zComplexSub m c1 c2 c := create m c (fun m => fst (m c1) - fst (m c2)) (fun m => snd (m c1) - snd (m c2)).
  Definition zComplexRev m c rc := create m rc (fun m => - fst (m c)) (fun m => - snd (m c)).
  Definition zComplexMul m c k ec := create m ec (fun m => fst (m c) * k) (fun m => snd (m c) * k).
  Definition zComplexCMul m c1 c2 c :=
    create m c (fun m => fst (m c1) * fst (m c2) - snd (m c1) * snd (m c2))
               (fun m => fst (m c1) * snd (m c2) + snd (m c1) * fst (m c2)).
  Definition zComplexCMulConj m c1 c2 c :=
    create m c (fun m => fst (m c1) * fst (m c2) + snd (m c1) * snd (m c2))
               (fun m => (- fst (m c1)) * snd (m c2) + snd (m c1) * fst (m c2)).
  (** the same products on values (destination is a local variable) *)
  Definition cmulv (a b : cplx) : cplx := (fst a * fst b - snd a * snd b, fst a * snd b + snd a * fst b).
  Definition cmulconjv (a b : cplx) : cplx := (fst a * fst b + snd a * snd b, (- fst a) * snd b + snd a * fst b).
  (** zm_complex_arith.c:63-72; false is NULL *)
  Definition zComplexDiv (tol : T) m c k rc : bool * cmem :=
    if is_tol tol k then (false, m) else (true, zComplexMul m c (1 / k) rc).
  (** zm_complex_arith.c:89-97 *)
  Definition zComplexInv (tol : T) m c ic : bool * cmem :=
    let r2 := sqrabs (m c) in
    let cc := (fst (m c), - snd (m c)) in
    if is_tol tol r2 then (false, m)
    else (true, create m ic (fun _ => fst cc * (1 / r2)) (fun _ => snd cc * (1 / r2))).
  (** the inverse stored in a local variable; None: the local stays uninitialised *)
  Definition inv_local (tol : T) (z : cplx) : option cplx :=
    let r2 := sqrabs z in if is_tol tol r2 then None else Some (fst z * (1 / r2), (- snd z) * (1 / r2)).
  (** zm_complex_arith.c:100-107: the failure of zComplexInv is ignored *)
  Definition zComplexCDiv (tol : T) m c1 c2 c : res cmem :=
    match inv_local tol (m c2) with
    | None => UB
    | Some cc => Ok (create m c (fun m => fst (m c1) * fst cc - snd (m c1) * snd cc)
                                (fun m => fst (m c1) * snd cc + snd (m c1) * fst cc))
    end.
  (** zm_complex_arith.c:110-137 *)
  Definition zComplexCMulDRC m c1 c2 := wr m c1 (cmulv (m c1) (m c2)).
  Definition zComplexCMulConjDRC m c1 c2 := wr m c1 (cmulconjv (m c1) (m c2)).
  Definition zComplexCDivDRC (tol : T) m c1 c2 : res cmem :=
    match inv_local tol (m c2) with None => UB | Some cc => Ok (wr m c1 (cmulv (m c1) cc)) end.

  (** zm_complex_pe.c:10-32 *)
  Definition zQESolve (half four : T) (a b c : T) : option (cplx * cplx) :=
    if seq a 0 then None
    else
      let d := b * b - four * a * c in
      if sle 0 d then
        let d := ssqrt d in
        let q := (- half) * (b + (if sle 0 b then d else - d)) in
        Some ((q / a, 0), (c / q, 0))
      else
        let a2 := a * (1 + 1) in
        let d := ssqrt (- d) / a2 in
        let b := b / (- a2) in
        Some ((b, d), (b, - d)).

  (** ** complex vectors: a base address and a size *)
  Definition cvloop (n : nat) (f : nat -> cmem -> cmem) (m : cmem) : cmem := fold_left (fun m i => f i m) (List.seq 0 n) m.
  (** zm_cvec.c:35-42, 55-62 *)
  Definition zCVecZero m v n := cvloop n (fun i m => create m (v + i) (fun _ => 0) (fun _ => 0)) m.
  Definition zCVecCopyNC m src dest n := cvloop n (fun i m => wr m (dest + i) (m (src + i)%nat)) m.
  (** zm_cvec.c:221-269 *)
  Definition zCVecAddNC m v1 v2 v n := cvloop n (fun i m => zComplexAdd m (v1 + i) (v2 + i) (v + i)) m.
  Definition zCVecSubNC m v1 v2 v n := cvloop n (fun i m => zComplexSub m (v1 + i) (v2 + i) (v + i)) m.
  Definition zCVecRevNC m v1 v n := cvloop n (fun i m => zComplexRev m (v1 + i) (v + i)) m.
  Definition zCVecMulNC m v1 k v n := cvloop n (fun i m => zComplexMul m (v1 + i) k (v + i)) m.
  Definition zCVecDivNC m v1 k v n := let k := 1 / k in cvloop n (fun i m => zComplexMul m (v1 + i) k (v + i)) m.
  (** zm_cvec.c:272-279 *)
  Definition zCVecCMulNC m v1 z v n := cvloop n (fun i m => zComplexCMul m (v1 + i) z (v + i)) m.
  (** zm_cvec.c:282-294: the result of zComplexDiv is ignored; on failure dz remains conj z *)
  Definition zCVecCDivNC (tol : T) m v1 z v n :=
    let r := sqrabs (m z) in
    let dz := (fst (m z), - snd (m z)) in
    let dz := if is_tol tol r then dz else (fst dz * (1 / r), snd dz * (1 / r)) in
    cvloop n (fun i m => create m (v + i) (fun m => fst (m (v1 + i)%nat) * fst dz - snd (m (v1 + i)%nat) * snd dz)
                                          (fun m => fst (m (v1 + i)%nat) * snd dz + snd (m (v1 + i)%nat) * fst dz)) m.
  (** zm_cvec.c:298-308 *)
  Definition zCVecCatNC m v1 z v2 v n :=
    cvloop n (fun i m => let dz := cmulv (m (v2 + i)%nat) (m z) in
      create m (v + i) (fun m => fst (m (v1 + i)%nat) + fst dz) (fun m => snd (m (v1 + i)%nat) + snd dz)) m.
  (** zm_cvec.c:322-383, the size-checked versions; [None] is NULL with memory unchanged *)
  Definition chk2 (n1 n2 : nat) (r : cmem) : option cmem := if (n1 =? n2)%nat then Some r else None.
  Definition zCVecAdd m v1 n1 v2 n2 v n := if ((n1 =? n2) && (n1 =? n))%nat then Some (zCVecAddNC m v1 v2 v n) else None.
  Definition zCVecSub m v1 n1 v2 n2 v n := if ((n1 =? n2) && (n1 =? n))%nat then Some (zCVecSubNC m v1 v2 v n) else None.
  Definition zCVecRev m v1 n1 v n := chk2 n1 n (zCVecRevNC m v1 v n).
  Definition zCVecMul m v1 n1 k v n := chk2 n1 n (zCVecMulNC m v1 k v n).
  Definition zCVecDiv (tol : T) m v1 n1 k v n :=
    if (n1 =? n)%nat then if is_tol tol k then None else Some (zCVecDivNC m v1 k v n) else None.
  Definition zCVecCMul m v1 n1 z v n := chk2 n1 n (zCVecCMulNC m v1 z v n).
  Definition zCVecCDiv (tol : T) m v1 n1 z v n :=
    if (n1 =? n)%nat then
      if is_tol tol (fst (m z)) && is_tol tol (snd (m z)) then None else Some (zCVecCDivNC tol m v1 z v n)
    else None.
  Definition zCVecCat m v1 n1 z v2 n2 v n := if ((n1 =? n2) && (n1 =? n))%nat then Some (zCVecCatNC m v1 z v2 v n) else None.
  (** zm_cvec.c:386-397; the result z outside of both vectors *)
  Definition zCVecInnerProd m v1 v2 n : cplx :=
    fold_left (fun z i => let c := cmulconjv (m (v1 + i)%nat) (m (v2 + i)%nat) in (fst z + fst c, snd z + snd c)) (List.seq 0 n) (0, 0).

  (** ** pairing of conjugates, on the list of elements *)
  (** src/zm_misc.c:22-26; the finiteness checks are void for exact numbers *)
  Definition smax (a b : T) : T := if slt b a then a else b.
  Definition zEqual (a b tol : T) : bool := is_tol (tol * smax 1 (smax (sabs a) (sabs b))) (a - b).
  (** include/zm/zm_complex.h:86,95 *)
  Definition isreal (tol : T) (c : cplx) : bool := is_tol tol (snd c).
  Definition coconj (tol : T) (c1 c2 : cplx) : bool := zEqual (fst c1) (fst c2) tol && zEqual (snd c1) (- snd c2) tol.
  (** zm_cvec.c:204-209: the first j in [j, j+cnt) with a conjugate of element i *)
  Fixpoint find_conj (tol : T) (v : list cplx) (x : cplx) (cnt j : nat) : res (option nat) :=
    match cnt with
    | O => Ok None
    | S cnt => y <- get v j ;; if coconj tol x y then Ok (Some j) else find_conj tol v x cnt (S j)
    end.
  (** zm_cvec.c:203-214; [cnt] iterations left *)
  Fixpoint pair_loop (tol : T) (cnt i : nat) (v : list cplx) : res (bool * list cplx) :=
    match cnt with
    | O => Ok (true, v)
    | S cnt =>
        x <- get v i ;;
        r <- find_conj tol v x (length v - (i + 1)) (i + 1) ;;
        match r with
        | None => Ok (false, v)
        | Some j =>
            v <- (if (i + 1 <? j)%nat then a <- get v (i + 1) ;; b <- get v j ;; v <- set v (i + 1) b ;; set v j a else Ok v) ;;
            pair_loop tol cnt (i + 2) v
        end
    end.
  (** zm_cvec.c:195-216 *)
  Definition zCVecConjPair (tol : T) (v : list cplx) : res (bool * list cplx) :=
    if Nat.odd (length v) then Ok (false, v) else pair_loop tol (length v / 2) 0 v.
  (** zm_cvec.c:155-192: (return value, real numbers, paired imaginary numbers);
      an empty list stands for a NULL vector *)
  Definition zCVecToReImVec (tol : T) (v : list cplx) : res (bool * list T * list cplx) :=
    let r := map fst (filter (isreal tol) v) in
    let iv := filter (fun c => negb (isreal tol c)) v in
    match r, iv with
    | [], [] => Ok (false, r, iv)
    | _, [] => Ok (true, r, iv)
    | _, _ => '(b, iv) <- zCVecConjPair tol iv ;; Ok (b, r, iv)
    end.

  (** ** polynomials with complex arguments *)
  (** zm_pex.c:299-311 *)
  Definition zPexCVal (p : list T) m arg c : res cmem :=
    x <- getZ p (Z.of_nat (length p) - 1) ;;
    let m := create m c (fun _ => x) (fun _ => 0) in
    for_down (length p - 1) (fun i m =>
      y <- get p i ;;
      let tmp := cmulv (m c) (m arg) in
      Ok (create m c (fun _ => y + fst tmp) (fun _ => snd tmp))) m.
  (** zm_pex.c:196-222; memcpy as in Pex_Model *)
  Definition cmemcpy_down (strict : bool) (b : list cplx) (from cnt : nat) : res (list cplx) :=
    if strict && (from <? cnt)%nat then UB
    else if (length b <? from + cnt)%nat then UB
    else Ok (firstn cnt (skipn from b) ++ skipn cnt b).
  Fixpoint pexexpim (fuel : nat) (strict : bool) (size : nat) (b : list cplx) : res (option (list T) * list cplx) :=
    match fuel with
    | O => UB
    | S fuel =>
        let hsize := (size / 2)%nat in
        if (hsize =? 1)%nat then
          z <- get b 0 ;; Ok (Some [sqrabs z; (- (1 + 1)) * fst z; 1], b)
        else
          let hsize := (hsize / 2 * 2)%nat in
          '(p1, b) <- pexexpim fuel strict hsize b ;;
          b <- cmemcpy_down strict b hsize (size - hsize) ;;
          '(p2, b) <- pexexpim fuel strict (size - hsize) b ;;
          match p1, p2 with
          | Some p1, Some p2 => p <- zPexMul p1 p2 ;; Ok (p, b)
          | _, _ => Ok (None, b)
          end
    end.
  (** zm_pex.c:225-247; [tol] is ZM_PEX_EQ_TOL *)
  Definition zPexCExp (strict : bool) (tol : T) (factor : list cplx) : res (option (list T)) :=
    '(b, r, iv) <- zCVecToReImVec tol factor ;;
    if negb b then Ok None
    else
      pr <- match r with [] => Ok None | _ => '(p, _) <- pexexp (length r) strict (length r) r ;; Ok p end ;;
      pc <- match iv with [] => Ok None | _ => '(p, _) <- pexexpim (length iv) strict (length iv) iv ;; Ok p end ;;
      match pr, pc with
      | Some pr, Some pc => zPexMul pr pc
      | Some pr, None => Ok (Some pr)
      | None, pc => Ok pc
      end.
End Complex.
Arguments cplx T : clear implicits.
Arguments cmem T : clear implicits.

(** ** functions that need transcendental functions: real numbers only *)
From Coq Require Import Reals.
Local Open Scope R_scope.
(** libm's atan2 *)
Definition atan2 (y x : R) : R :=
  if Rltb 0 x then atan (y / x)
  else if Rltb x 0 then (if Rleb 0 y then atan (y / x) + PI else atan (y / x) - PI)
  else if Rltb 0 y then PI / 2 else if Rltb y 0 then - (PI / 2) else 0.
(** libm's pow for a base >= 0 (0 to a negative power is not modelled: here 0) *)
Definition libpow (r z : R) : R := if Reqb r 0 then (if Reqb z 0 then 1 else 0) else Rpower r z.
Definition cabs (c : cplx R) : R := sqrt (sqrabs c).
Definition carg (c : cplx R) : R := atan2 (snd c) (fst c).
Definition polar (r t : R) : cplx R := (r * cos t, r * sin t).
(** zm_complex_arith.c:140-162.  All operands are read before the result is stored. *)
Definition zComplexPow (c : cplx R) (z : R) : cplx R := polar (libpow (cabs c) z) (carg c * z).
(** libm's ceil *)
Definition Rceil (x : R) : R := IZR (- (up (- x) - 1)).
Definition zComplexPowRef (tol : R) (c : cplx R) (z : R) (ref : option (cplx R)) : cplx R :=
  let r := libpow (cabs c) z in
  let theta := carg c * z in
  let w := 2 * PI * z in
  let theta := match ref with
               | Some f => if negb (is_tol tol z) then theta + w * Rceil ((carg f - theta) / w) else theta
               | None => theta end in
  polar r theta.
(** zm_complex_arith.c:165-173 *)
Definition zComplexCPow (c z : cplx R) : cplx R :=
  let r := cabs c in let theta := carg c in
  polar (libpow r (fst z) * exp (- snd z * theta)) (fst z * theta + snd z * ln r).
(** zm_complex_arith.c:176-213; None is NULL *)
Definition zComplexLog (c : cplx R) (base : R) : option (cplx R) :=
  if Rleb base 0 || Reqb base 1 then None
  else Some (ln (cabs c) / ln base, carg c / ln base).
Definition zComplexCLog (c base : cplx R) : option (cplx R) :=
  let rb := cabs base in let tb := carg base in
  if Reqb rb 0 then None
  else let lrb := ln rb in
       let d := lrb * lrb + tb * tb in
       if Reqb d 0 then None
       else let tc := carg c in let lrc := ln (cabs c) in
            Some ((lrb * lrc + tb * tc) / d, (tc * lrb - tb * lrc) / d).
(** src/zm_misc.c:91-98 *)
Definition zCbrt (x : R) : R :=
  if Reqb x 0 then 0
  else let w := if Rltb 0 x then libpow x (1 / 3) else - libpow (- x) (1 / 3) in
       1 / 2 * (w + 3 * x / (2 * w * w + x / w)).
(** zm_complex_pe.c:35-66 *)
Definition zCESolve (a b c d : R) : option (cplx R * cplx R * cplx R) :=
  if Reqb a 0 then None
  else
    let b := b / (3 * a) in let c := c / a in let d := d / a in
    let p := c / 3 - b * b in
    let q := - b * (2 * b * b - c) - d in
    let g := q * q + 4 * p * p * p in
    if Rltb 0 g then
      let w := sqrt g in
      let z1 := zCbrt (1 / 2 * (q + w)) in
      let z2 := zCbrt (1 / 2 * (q - w)) in
      let a1 := (- (1 / 2) * (z1 + z2) - b, 1 / 2 * sqrt 3 * (z1 - z2)) in
      Some ((z1 + z2 - b, 0), a1, (fst a1, - snd a1))
    else
      let z1 := if negb (Reqb q 0) then atan2 (sqrt (- g)) q else PI / 2 in
      let w := 2 * sqrt (- p) in
      Some ((w * cos (z1 / 3) - b, 0), (- w * cos ((PI - z1) / 3) - b, 0), (- w * cos ((PI + z1) / 3) - b, 0)).
