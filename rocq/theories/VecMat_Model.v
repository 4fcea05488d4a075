(** Model of the zVec and zMat objects: src/zm_vec.c, src/zm_mat.c and
    include/zm/zm_vec.h, include/zm/zm_mat.h, on top of the raw kernels.

    An object is the C struct without its heap identity: buffer pointer, sizes and
    (for matrices) capacities.  [Ok None] is a NULL answer with the memory
    unchanged, [Ok (Some m)] success, [UB] an access outside a buffer.
    [eq] and [tol] stand for zEqual(.,.,tol) and zTOL. *)
From Verif Require Import Prelude Scalar Raw_Model.

Record zVec := MkVec { vbuf : ptr; vsize : Z }.
Record zMat := MkMat { mbuf : ptr; mrow : Z; mcol : Z; mrcap : Z; mccap : Z }.

Section VecMat.
  Context {T : Type} {ST : Scalar T}.
  Local Open Scope S_scope.
  Implicit Types (m : mem T) (v w dest src : zVec) (A B D Q : zMat).

  (** size checks: [if( !ok ){ error; return NULL; } return f;] *)
  Definition chk (ok : bool) (f : res (mem T)) : res (option (mem T)) :=
    if ok then rmap Some f else Ok None.
  (** zm_vec.h: zVecSizeEqual *)
  Definition vseq v w : bool := (vsize v =? vsize w)%Z.
  (** zm_mat.h: zMatSizeEqual, zMatIsSqr *)
  Definition mseq A B : bool := (mrow A =? mrow B)%Z && (mcol A =? mcol B)%Z.
  Definition msqr A : bool := (mrow A =? mcol A)%Z.
  (** zm_vec.h: zVecElem, zVecSetElem (ZEDA zArrayPosIsValid: 0 <= n < size) *)
  Definition zVecElem m v (n : Z) : res T :=
    if (0 <=? n)%Z && (n <? vsize v)%Z then load m (padd (vbuf v) n) else Ok 0.
  Definition zVecSetElem m v (n : Z) (e : T) : res (mem T) :=
    if (0 <=? n)%Z && (n <? vsize v)%Z then store m (padd (vbuf v) n) e else Ok m.
  (** zm_mat.h: zMatElemNC, zMatElem, zMatSetElem *)
  Definition mcell A (r c : Z) : ptr := padd (mbuf A) (r * mccap A + c)%Z.
  Definition mvalid A (r c : Z) : bool :=
    (0 <=? r)%Z && (r <? mrow A)%Z && (0 <=? c)%Z && (c <? mcol A)%Z.
  Definition zMatElem m A (r c : Z) : res T := if mvalid A r c then load m (mcell A r c) else Ok 0.
  Definition zMatSetElem m A (r c : Z) (e : T) : res (mem T) :=
    if mvalid A r c then store m (mcell A r c) e else Ok m.

  (** zm_vec.c:96-106 *)
  Definition zVecCopyNC m src dest := zRawVecCopy m (vbuf src) (vbuf dest) (vsize dest).
  Definition zVecCopy m src dest := chk (vseq src dest) (zVecCopyNC m src dest).
  (** zm_vec.c:139-169; only the upper end is checked *)
  Definition zVecGet m src (pos : Z) dest :=
    chk (negb (pos + vsize dest >? vsize src)%Z) (zRawVecGet m (vbuf src) pos (vbuf dest) (vsize dest)).
  Definition zVecPut m dest (pos : Z) src :=
    chk (negb (pos + vsize src >? vsize dest)%Z) (zRawVecPut m (vbuf dest) pos (vbuf src) (vsize src)).
  (** zm_vec.c:208-223: [i1 > size || i2 > size] is the rejection test *)
  Definition zVecSwapNC m v i1 i2 := zRawVecSwap m (vbuf v) i1 i2.
  Definition zVecSwap m v (i1 i2 : Z) :=
    chk (negb ((i1 >? vsize v) || (i2 >? vsize v))%Z) (zVecSwapNC m v i1 i2).
  (** zm_vec.c:247-259; [idx] is the index array of size [length idx] *)
  Definition zVecReorder m src (idx : list Z) dest : res (option (mem T)) :=
    if negb (vseq src dest) || negb (vsize src =? Z.of_nat (length idx))%Z then Ok None
    else rmap Some (for_ 0 (length idx) (fun i m =>
           k <- get idx i ;; x <- load m (padd (vbuf src) k) ;; store m (padd (vbuf dest) (Z.of_nat i)) x) m).
  (** zm_vec.c:283-311 *)
  Definition zVecEqual eq m v w : res bool :=
    if negb (vseq v w) then Ok false else zRawVecEqual eq m (vbuf v) (vbuf w) (vsize v).
  Definition zVecMatch m v w : res bool :=
    if negb (vseq v w) then Ok false else zRawVecMatch m (vbuf v) (vbuf w) (vsize v).

  (** zm_vec.c:318-450: size-checked arithmetic (the NC versions are the raw calls) *)
  Definition zVecAdd m v w dest :=
    chk (vseq v w && vseq v dest) (zRawVecAdd m (vbuf v) (vbuf w) (vbuf dest) (vsize dest)).
  Definition zVecSub m v w dest :=
    chk (vseq v w && vseq v dest) (zRawVecSub m (vbuf v) (vbuf w) (vbuf dest) (vsize dest)).
  Definition zVecRev m v dest := chk (vseq v dest) (zRawVecRev m (vbuf v) (vbuf dest) (vsize dest)).
  Definition zVecMul m v (k : T) dest := chk (vseq v dest) (zRawVecMul m (vbuf v) k (vbuf dest) (vsize dest)).
  Definition zVecDiv (tol : T) m v (k : T) dest :=
    chk (vseq v dest && negb (is_tol tol k)) (zRawVecDiv m (vbuf v) k (vbuf dest) (vsize dest)).
  Definition zVecAmp m v w dest :=
    chk (vseq v w && vseq v dest) (zRawVecAmp m (vbuf v) (vbuf w) (vbuf dest) (vsize dest)).
  Definition zVecDem m v w dest :=
    chk (vseq v w && vseq v dest) (zRawVecDem m (vbuf v) (vbuf w) (vbuf dest) (vsize dest)).
  Definition zVecCat m v (k : T) w dest :=
    chk (vseq v w && vseq v dest) (zRawVecCat m (vbuf v) k (vbuf w) (vbuf dest) (vsize dest)).
  (** zm_vec.c:539-571; the size-mismatch answer of the products is 0 *)
  Definition zVecInnerProd m v w : res T :=
    if negb (vseq v w) then Ok 0 else zRawVecInnerProd m (vbuf v) (vbuf w) (vsize v).
  Definition zVecSqrNorm m v : res T := zRawVecInnerProd m (vbuf v) (vbuf v) (vsize v).
  (** zm_vec.c:586-594 *)
  Definition zVecProj m v n dest : res (option (mem T)) :=
    if negb (vseq v n) || negb (vseq v dest) then Ok None
    else ip <- zRawVecInnerProd m (vbuf v) (vbuf n) (vsize v) ;;
         sn <- zVecSqrNorm m n ;;
         zVecMul m n (ip / sn) dest.
  (** zm_vec.c:597-601 *)
  Definition zVecOrthogonalize m v n dest : res (option (mem T)) :=
    r <- zVecProj m v n dest ;;
    match r with
    | None => Ok None
    | Some m1 => rmap Some (zRawVecSub m1 (vbuf v) (vbuf dest) (vbuf dest) (vsize dest))
    end.
  (** zm_vec.c:604-630; the size-mismatch answer is -1 *)
  Definition zVecDist m v w : res T := d <- zRawVecSqrDist m (vbuf v) (vbuf w) (vsize v) ;; Ok (ssqrt d).
  Definition zVecEdgeDist (tol : T) m v v1 v2 : res T :=
    if negb (vseq v v1) || negb (vseq v v2) then Ok (sopp 1)
    else
      '(num, den) <- forZ (vsize v) (fun i nd =>
          x <- load m (padd (vbuf v) i) ;; x1 <- load m (padd (vbuf v1) i) ;; x2 <- load m (padd (vbuf v2) i) ;;
          let e := x2 - x1 in
          Ok (fst nd + (x - x1) * e, snd nd + e * e)) (0, 0) ;;
      if is_tol tol den then zVecDist m v v1
      else
        let s := num / den in
        d <- forZ (vsize v) (fun i d =>
          x <- load m (padd (vbuf v) i) ;; x1 <- load m (padd (vbuf v1) i) ;; x2 <- load m (padd (vbuf v2) i) ;;
          let y := s * (x2 - x1) - (x - x1) in
          Ok (d + y * y)) 0 ;;
        Ok (ssqrt d).

  (** zm_mat.c:86-135 *)
  Definition zMatZero m A := zRawMatZero m (mbuf A) (mccap A) (mrow A) (mcol A).
  Definition zMatIdent m A := chk (msqr A) (zRawMatIdent m (mbuf A) (mccap A) (mrow A) (mcol A)).
  Definition zMatDiag m A v :=
    chk (msqr A && (mcol A =? vsize v)%Z) (zRawMatDiag m (mbuf A) (mccap A) (vbuf v) (mrow A) (mcol A)).
  (** zm_mat.c:152-166 *)
  Definition zMatCopyNC m A D :=
    zRawMatCopy m (mbuf A) (mccap A) (mbuf D) (mccap D) (mrow D) (mcol D).
  Definition zMatCopy m A D := chk (mseq A D) (zMatCopyNC m A D).
  (** zm_mat.c:201-270 *)
  Definition zMatGet m A (r c : Z) D :=
    chk (negb ((r + mrow D >? mrow A) || (c + mcol D >? mcol A))%Z)
        (zRawMatGet m (mbuf A) (mccap A) (mrow A) (mcol A) r c (mbuf D) (mccap D) (mrow D) (mcol D)).
  Definition zMatTGet m A (r c : Z) D :=
    chk (negb ((r + mcol D >? mrow A) || (c + mrow D >? mcol A))%Z)
        (zRawMatTGet m (mbuf A) (mccap A) (mrow A) (mcol A) r c (mbuf D) (mccap D) (mrow D) (mcol D)).
  Definition zMatPut m D (r c : Z) A :=
    chk (negb ((r + mrow A >? mrow D) || (c + mcol A >? mcol D))%Z)
        (zRawMatPut m (mbuf D) (mccap D) (mrow D) (mcol D) r c (mbuf A) (mccap A) (mrow A) (mcol A)).
  Definition zMatTPut m D (r c : Z) A :=
    chk (negb ((r + mcol A >? mrow D) || (c + mrow A >? mcol D))%Z)
        (zRawMatTPut m (mbuf D) (mccap D) (mrow D) (mcol D) r c (mbuf A) (mccap A) (mrow A) (mcol A)).
  (** zm_mat.c:273-354 *)
  Definition zMatGetRow m A (r : Z) v :=
    chk ((mcol A =? vsize v)%Z && negb (r >=? mrow A)%Z)
        (zRawMatGetRow m (mbuf A) (mccap A) (mrow A) (mcol A) r (vbuf v)).
  Definition zMatGetCol m A (c : Z) v :=
    chk ((mrow A =? vsize v)%Z && negb (c >=? mcol A)%Z)
        (zRawMatGetCol m (mbuf A) (mccap A) (mrow A) (mcol A) c (vbuf v)).
  Definition zMatPutRow m A (r : Z) v :=
    chk ((mcol A =? vsize v)%Z && negb (r >=? mrow A)%Z)
        (zRawMatPutRow m (mbuf A) (mccap A) (mrow A) (mcol A) r (vbuf v)).
  Definition zMatPutCol m A (c : Z) v :=
    chk ((mrow A =? vsize v)%Z && negb (c >=? mcol A)%Z)
        (zRawMatPutCol m (mbuf A) (mccap A) (mrow A) (mcol A) c (vbuf v)).
  (** zm_mat.c:357-388 *)
  Definition zMatSwapRow m A (r1 r2 : Z) :=
    chk (negb ((r1 >=? mrow A) || (r2 >=? mrow A))%Z)
        (zRawMatSwapRow m (mbuf A) (mccap A) (mrow A) (mcol A) r1 r2).
  Definition zMatSwapCol m A (c1 c2 : Z) :=
    chk (negb ((c1 >=? mcol A) || (c2 >=? mcol A))%Z)
        (zRawMatSwapCol m (mbuf A) (mccap A) (mrow A) (mcol A) c1 c2).
  (** zm_mat.c:391-397: the loop runs over the rows *)
  Definition zMatShift m A (shift : T) : res (mem T) :=
    forZ (mrow A) (fun i m => x <- load m (mcell A i i) ;; store m (mcell A i i) (x + shift)) m.
  (** zm_mat.c:420-441 *)
  Definition zMatEqual (eq : T -> T -> bool) m A B : res bool :=
    if negb (mseq A B) then Ok false
    else allZ (mrow A) (fun i => allZ (mcol A) (fun j =>
           x <- load m (mcell A i j) ;; y <- load m (mcell B i j) ;; Ok (eq x y))).
  Definition zMatMatch m A B : res bool := zMatEqual seq m A B.
  (** zm_mat.c:444-487 *)
  Definition zMatIsTol m A (tol : T) := zRawMatIsTol m (mbuf A) (mccap A) (mrow A) (mcol A) tol.
  Definition zMatIsDiag m A (tol : T) : res bool :=
    allZ (mrow A) (fun i => allZ (mcol A) (fun j =>
      if (j =? i)%Z then Ok true else x <- load m (mcell A i j) ;; Ok (is_tol tol x))).
  Definition zMatIsIdent (eq : T -> T -> bool) m A (tol : T) : res bool :=
    allZ (mrow A) (fun i => allZ (mcol A) (fun j =>
      x <- load m (mcell A i j) ;;
      if (j =? i)%Z then Ok (eq x 1) else Ok (is_tol tol x))).
  Definition zMatIsSymmetric m A : res bool :=
    if negb (msqr A) then Ok false
    else allZ (mrow A) (fun i => allZ (mrow A - (i + 1)) (fun k =>
           let j := (i + 1 + k)%Z in
           x <- load m (mcell A i j) ;; y <- load m (mcell A j i) ;; Ok (seq x y))).
  (** zm_mat.c:511-614: size-checked arithmetic *)
  Definition zMatAdd m A B D :=
    chk (mseq A B && mseq A D)
        (zRawMatAdd m (mbuf A) (mccap A) (mbuf B) (mccap B) (mbuf D) (mccap D) (mrow D) (mcol D)).
  Definition zMatSub m A B D :=
    chk (mseq A B && mseq A D)
        (zRawMatSub m (mbuf A) (mccap A) (mbuf B) (mccap B) (mbuf D) (mccap D) (mrow D) (mcol D)).
  Definition zMatRev m A D :=
    chk (mseq A D) (zRawMatRev m (mbuf A) (mccap A) (mbuf D) (mccap D) (mrow D) (mcol D)).
  Definition zMatMul m A (k : T) D :=
    chk (mseq A D) (zRawMatMul m (mbuf A) (mccap A) k (mbuf D) (mccap D) (mrow D) (mcol D)).
  Definition zMatDiv (tol : T) m A (k : T) D :=
    chk (mseq A D && negb (is_tol tol k))
        (zRawMatDiv m (mbuf A) (mccap A) k (mbuf D) (mccap D) (mrow D) (mcol D)).
  Definition zMatCat m A (k : T) B D :=
    chk (mseq A B && mseq A D)
        (zRawMatCat m (mbuf A) (mccap A) k (mbuf B) (mccap B) (mbuf D) (mccap D) (mrow D) (mcol D)).
  (** zm_mat.c:617-635: the infinity norm walks the buffer with one pointer, so its
      row stride is the column SIZE, not the column capacity *)
  Definition zMatSqrNorm m A := zRawMatSqrNorm m (mbuf A) (mccap A) (mrow A) (mcol A).
  Definition zMatInfNorm m A : res T :=
    '(_, rsmax) <- forZ (mrow A) (fun _ st =>
        '(k, s) <- forZ (mcol A) (fun _ st =>
            x <- load m (padd (mbuf A) (fst st)) ;; Ok ((fst st + 1)%Z, snd st + sabs x)) (fst st, 0) ;;
        Ok (k, if slt (snd st) s then s else snd st)) (0%Z, 0) ;;
    Ok rsmax.
  (** zm_mat.c:638-652 *)
  Definition zMatT m A D :=
    chk ((mrow A =? mcol D)%Z && (mrow D =? mcol A)%Z)
        (zRawMatT m (mbuf A) (mccap A) (mbuf D) (mccap D) (mrow A) (mcol A)).
  (** zm_mat.c:680-745 *)
  Definition zVecDyad m v w D :=
    chk ((vsize v =? mrow D)%Z && (vsize w =? mcol D)%Z)
        (zRawVecDyad m (vbuf v) (vsize v) (vbuf w) (vsize w) (mbuf D) (mccap D)).
  Definition zMatAddDyad m D v w :=
    chk ((vsize v =? mrow D)%Z && (vsize w =? mcol D)%Z)
        (zRawMatAddDyad m (mbuf D) (mccap D) (vbuf v) (vsize v) (vbuf w) (vsize w)).
  Definition zMatSubDyad m D v w :=
    chk ((vsize v =? mrow D)%Z && (vsize w =? mcol D)%Z)
        (zRawMatSubDyad m (mbuf D) (mccap D) (vbuf v) (vsize v) (vbuf w) (vsize w)).
  Definition zMatCatDyad m D (k : T) v w :=
    chk ((vsize v =? mrow D)%Z && (vsize w =? mcol D)%Z)
        (zRawMatCatDyad m (mbuf D) (mccap D) k (vbuf v) (vsize v) (vbuf w) (vsize w)).
  (** zm_mat.c:748-761; the answer for a non-square matrix is 0 *)
  Definition zMatTrace m A : res T :=
    if negb (msqr A) then Ok 0 else zRawMatTrace m (mbuf A) (mccap A) (mrow A) (mcol A).
  (** zm_mat.c:764-852 *)
  Definition zMulMatVec m A v dest :=
    chk ((mcol A =? vsize v)%Z && (mrow A =? vsize dest)%Z)
        (zRawMulMatVec m (mbuf A) (mccap A) (vbuf v) (mrow A) (mcol A) (vbuf dest)).
  Definition zMulMatTVec m A v dest :=
    chk ((mrow A =? vsize v)%Z && (mcol A =? vsize dest)%Z)
        (zRawMulMatTVec m (mbuf A) (mccap A) (vbuf v) (mrow A) (mcol A) (vbuf dest)).
  Definition zMulMatMat m A B D :=
    chk ((mrow B =? mcol A)%Z && (mrow A =? mrow D)%Z && (mcol B =? mcol D)%Z)
        (zRawMulMatMat m (mbuf A) (mccap A) (mrow A) (mcol A) (mbuf B) (mccap B) (mrow B) (mcol B)
           (mbuf D) (mccap D)).
  Definition zMulMatMatT m A B D :=
    chk ((mcol A =? mcol B)%Z && (mrow A =? mrow D)%Z && (mrow B =? mcol D)%Z)
        (zRawMulMatMatT m (mbuf A) (mccap A) (mrow A) (mcol A) (mbuf B) (mccap B) (mrow B) (mcol B)
           (mbuf D) (mccap D)).
  Definition zMulMatTMat m A B D :=
    chk ((mrow A =? mrow B)%Z && (mrow D =? mcol A)%Z && (mcol B =? mcol D)%Z)
        (zRawMulMatTMat m (mbuf A) (mccap A) (mrow A) (mcol A) (mbuf B) (mccap B) (mrow B) (mcol B)
           (mbuf D) (mccap D)).
  (** zm_mat.c:856-877.  The temporary vector lives in block [b] (chosen by the
      allocator, zero-filled by calloc) and is released at the end; the result of
      the inner size-checked product is ignored. *)
  Definition alloc m (b : nat) (n : Z) : mem T := fun k => if (k =? b)%nat then repeat 0 (Z.to_nat n) else m k.
  Definition free m (b : nat) : mem T := fun k => if (k =? b)%nat then [] else m k.
  Definition via_tmp (mul : mem T -> zMat -> zVec -> zVec -> res (option (mem T))) m A v (b : nat) : res (mem T) :=
    let tmp := MkVec (b, 0%Z) (vsize v) in
    let m1 := alloc m b (vsize v) in
    r <- mul m1 A v tmp ;;
    let m2 := match r with Some m2 => m2 | None => m1 end in
    m3 <- zVecCopyNC m2 tmp v ;;
    Ok (free m3 b).
  Definition zMulMatVecDRC m A v b := via_tmp zMulMatVec m A v b.
  Definition zMulMatTVecDRC m A v b := via_tmp zMulMatTVec m A v b.

  (** zm_mat.c:880-933: q = a diag(w) a^T and q = a^T diag(w) a; [None] is w=NULL.
      [el k i] is the element a(i,k), resp. a(k,i). *)
  Definition addcell m p (x : T) : res (mem T) := z <- load m p ;; store m p (z + x).
  Definition quadNC m Q (n l : Z) (el : Z -> Z -> ptr) (w : option zVec) : res (mem T) :=
    m0 <- zMatZero m Q ;;
    m1 <- forZ l (fun k m => forZ n (fun i m =>
            a <- load m (el k i) ;;
            wa <- match w with Some w => x <- zVecElem m w k ;; Ok (x * a) | None => Ok a end ;;
            forZ (n - i) (fun d m => let j := (i + d)%Z in
              b <- load m (el k j) ;; addcell m (mcell Q i j) (wa * b)) m) m) m0 ;;
    forZ n (fun i m => forZ (n - i) (fun d m => let j := (i + d)%Z in
      x <- load m (mcell Q i j) ;; store m (mcell Q j i) x) m) m1.
  Definition zMatQuadNC m A (ow : option zVec) Q := quadNC m Q (mrow A) (mcol A) (fun k i => mcell A i k) ow.
  Definition zMatTQuadNC m A (ow : option zVec) Q := quadNC m Q (mcol A) (mrow A) (fun k i => mcell A k i) ow.
  (** zm_mat.c:899-914, 936-951 *)
  Definition wok (w : option zVec) (n : Z) : bool :=
    match w with Some w => (n =? vsize w)%Z | None => true end.
  Definition zMatQuad m A (ow : option zVec) Q :=
    chk (wok ow (mcol A) && (mrow A =? mrow Q)%Z && msqr Q) (zMatQuadNC m A ow Q).
  Definition zMatTQuad m A (ow : option zVec) Q :=
    chk (wok ow (mrow A) && (mrow Q =? mcol A)%Z && msqr Q) (zMatTQuadNC m A ow Q).
  (** zm_mat.c:954-1015: m = a q a^T and m = a^T q a.  [el i j] is a(i,j), resp.
      a(j,i), with i < n.  The size of [D] is not compared with that of [A]. *)
  Definition mulQ m Q D (n : Z) (el : Z -> Z -> ptr) : res (mem T) :=
    m0 <- zMatZero m D ;;
    forZ (mrow Q) (fun i m => forZ n (fun j m =>
      y <- forZ (mcol Q) (fun k y => a <- load m (mcell Q i k) ;; b <- load m (el j k) ;; Ok (y + a * b)) 0 ;;
      forZ n (fun k m => a <- load m (el k i) ;; addcell m (mcell D k j) (a * y)) m) m) m0.
  Definition zMulMatMatMatT m A Q D :=
    chk (msqr Q && msqr D && (mrow Q =? mcol A)%Z)
        (mulQ m Q D (mrow A) (fun i j => mcell A i j)).
  Definition zMulMatTMatMat m A Q D :=
    chk (msqr Q && msqr D && (mrow A =? mrow Q)%Z)
        (mulQ m Q D (mcol A) (fun i j => mcell A j i)).
End VecMat.
