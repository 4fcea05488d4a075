(** Model of src/zm_raw_vec.c, include/zm/zm_raw_vec.h and src/zm_raw_mat.c:
    vector and matrix kernels on raw [double] pointers.

    Memory: [mem T] maps a block number to the contents of that allocation; a
    pointer is (block, offset) and may be moved freely, but loads and stores are
    checked, outside the block they are undefined behaviour ([UB]).  Pointers into
    the same block may overlap, so aliasing is visible in this model.
    C [int] sizes are [Z] without overflow.  Random fill (zRawVecRand.., zRawMatRand..)
    and printing are not modelled. *)
From Verif Require Import Prelude Scalar.

Definition mem (T : Type) : Type := nat -> list T.
Definition ptr : Type := (nat * Z)%type.
Definition padd (p : ptr) (k : Z) : ptr := (fst p, (snd p + k)%Z).

(** The cell at [p], [None] outside the block. *)
Definition cell {T} (m : mem T) (p : ptr) : option T :=
  if (snd p <? 0)%Z then None else nth_error (m (fst p)) (Z.to_nat (snd p)).
(** [*p] *)
Definition load {T} (m : mem T) (p : ptr) : res T :=
  match cell m p with Some x => Ok x | None => UB end.
(** [*p = x] *)
Definition store {T} (m : mem T) (p : ptr) (x : T) : res (mem T) :=
  l <- setZ (m (fst p)) (snd p) x ;;
  Ok (fun b => if b =? fst p then l else m b).

(** [while( size-- > 0 )]: the body sees the iteration number, pointers that are
    incremented in C are written [p + i]. *)
Definition forZ {St} (n : Z) (f : Z -> St -> res St) (s : St) : res St :=
  for_ 0 (Z.to_nat n) (fun i => f (Z.of_nat i)) s.

(** Early-return loops over a predicate: true iff every iteration answers true. *)
Fixpoint all_loop (n i : nat) (f : nat -> res bool) : res bool :=
  match n with
  | O => Ok true
  | S k => b <- f i ;; if b : bool then all_loop k (S i) f else Ok false
  end.
Definition allZ (n : Z) (f : Z -> res bool) : res bool :=
  all_loop (Z.to_nat n) 0 (fun i => f (Z.of_nat i)).

Section RawVec.
  Context {T : Type} {ST : Scalar T}.
  Local Open Scope S_scope.
  Implicit Types (m : mem T) (p v src dest : ptr) (size : Z).

  (** One element-wise pass [ dest[i] = e(i) ] for i = 0..size-1. *)
  Definition pass (size : Z) (dest : ptr) (e : Z -> mem T -> res T) (m : mem T) : res (mem T) :=
    forZ size (fun i m => x <- e i m ;; store m (padd dest i) x) m.
  Definition pass1 size src dest (f : T -> T) m :=
    pass size dest (fun i m => x <- load m (padd src i) ;; Ok (f x)) m.
  Definition pass2 size v1 v2 dest (f : T -> T -> T) m :=
    pass size dest (fun i m => x <- load m (padd v1 i) ;; y <- load m (padd v2 i) ;; Ok (f x y)) m.
  Definition pass3 size v1 v2 v3 dest (f : T -> T -> T -> T) m :=
    pass size dest (fun i m => x <- load m (padd v1 i) ;; y <- load m (padd v2 i) ;;
                               z <- load m (padd v3 i) ;; Ok (f x y z)) m.

  (** zm_raw_vec.h: zRawVecZero = memset( v, 0, sizeof(double)*size ).  A negative
      size is converted to a huge size_t: undefined behaviour. *)
  Definition zRawVecZero m v size : res (mem T) :=
    if (size <? 0)%Z then UB else pass size v (fun _ _ => Ok 0) m.
  (** zm_raw_vec.h: zRawVecCopy = memcpy( dest, src, sizeof(double)*size ):
      undefined for a negative size and for overlapping areas. *)
  Definition zRawVecCopy m src dest size : res (mem T) :=
    if (size <? 0)%Z then UB
    else if (fst src =? fst dest)%nat && (snd src <? snd dest + size)%Z && (snd dest <? snd src + size)%Z
         then UB
    else pass1 size src dest (fun x => x) m.
  (** zm_raw_vec.h: zRawVecGet, zRawVecPut *)
  Definition zRawVecGet m src (pos : Z) dest size := zRawVecCopy m (padd src pos) dest size.
  Definition zRawVecPut m dest (pos : Z) src size := zRawVecCopy m src (padd dest pos) size.
  (** zm_raw_vec.c:10-14 *)
  Definition zRawVecTouchup m v size (tol : T) :=
    forZ size (fun i m => x <- load m (padd v i) ;;
                 if is_tol tol x then store m (padd v i) 0 else Ok m) m.
  (** zm_raw_vec.c:17-20 *)
  Definition zRawVecSetAll m v size (val : T) := pass size v (fun _ _ => Ok val) m.
  (** zm_raw_vec.c:23-32 *)
  Definition zRawVecLinSpace m v size (from to : T) :=
    let range := to - from in
    pass size v (fun i _ => Ok (range * sofZ i / sofZ (size - 1) + from)) m.
  (** zm_raw_vec.c:47-50 *)
  Definition zRawVecShift m src size (shift : T) dest := pass1 size src dest (fun x => x + shift) m.
  (** zm_raw_vec.c:53-57 *)
  Definition zRawVecSwap m v (i1 i2 : Z) : res (mem T) :=
    tmp <- load m (padd v i1) ;;
    x <- load m (padd v i2) ;;
    m1 <- store m (padd v i1) x ;;
    store m1 (padd v i2) tmp.
  (** zm_raw_vec.c:60-65, with the scalar comparison zEqual(.,.,tol) as a parameter *)
  Definition zRawVecEqual (eq : T -> T -> bool) m v1 v2 size : res bool :=
    allZ size (fun i => x <- load m (padd v1 i) ;; y <- load m (padd v2 i) ;; Ok (eq x y)).
  (** zm_raw_vec.c:68-73 *)
  Definition zRawVecMatch m v1 v2 size : res bool := zRawVecEqual seq m v1 v2 size.
  (** zm_raw_vec.c:76-81 *)
  Definition zRawVecIsTol m v size (tol : T) : res bool :=
    allZ size (fun i => x <- load m (padd v i) ;; Ok (is_tol tol x)).
  (** zm_raw_vec.c:84-89, with [zIsNan(x)||zIsInf(x)] as a parameter *)
  Definition zRawVecIsNan (bad : T -> bool) m v size : res bool :=
    b <- allZ size (fun i => x <- load m (padd v i) ;; Ok (negb (bad x))) ;; Ok (negb b).
  (** zm_raw_vec.c:92-101 *)
  Definition zRawVecAdd m v1 v2 v size := pass2 size v1 v2 v sadd m.
  Definition zRawVecSub m v1 v2 v size := pass2 size v1 v2 v ssub m.
  (** zm_raw_vec.c:104-113 *)
  Definition zRawVecRev m v1 v size := pass1 size v1 v sopp m.
  Definition zRawVecMul m v1 (k : T) v size := pass1 size v1 v (fun x => x * k) m.
  (** zm_raw_vec.c:116-119 *)
  Definition zRawVecDiv m v1 (k : T) v size := zRawVecMul m v1 (1 / k) v size.
  (** zm_raw_vec.c:122-137 *)
  Definition zRawVecAmp m v1 (amp : ptr) v size := pass2 size v1 amp v smul m.
  Definition zRawVecDem m v1 (dem : ptr) v size := pass2 size v1 dem v sdiv m.
  Definition zRawVecCat m v1 (k : T) v2 v size := pass2 size v1 v2 v (fun x y => x + y * k) m.
  (** zm_raw_vec.c:140-185: the DRC versions; [*v1++ += *v2++] *)
  Definition zRawVecAddDRC m v1 v2 size := pass2 size v1 v2 v1 sadd m.
  Definition zRawVecSubDRC m v1 v2 size := pass2 size v1 v2 v1 ssub m.
  Definition zRawVecRevDRC m v size := pass1 size v v sopp m.
  Definition zRawVecMulDRC m v (k : T) size := pass1 size v v (fun x => x * k) m.
  Definition zRawVecDivDRC m v (k : T) size := zRawVecMulDRC m v (1 / k) size.
  Definition zRawVecAmpDRC m v (amp : ptr) size := pass2 size v amp v smul m.
  Definition zRawVecDemDRC m v (dem : ptr) size := pass2 size v dem v sdiv m.
  Definition zRawVecCatDRC m v1 (k : T) v2 size := pass2 size v1 v2 v1 (fun x y => x + y * k) m.
  (** zm_raw_vec.c:189-209: the variable arguments are a list of pairs *)
  Fixpoint zRawVecCats m v size (args : list (T * ptr)) : res (mem T) :=
    match args with
    | [] => Ok m
    | (k, vec) :: r => m' <- zRawVecCatDRC m v k vec size ;; zRawVecCats m' v size r
    end.
  (** zm_raw_vec.c:212-220 *)
  Definition zRawVecLinearSum m v size (args : list (T * ptr)) : res (mem T) :=
    m' <- zRawVecZero m v size ;; zRawVecCats m' v size args.
  (** zm_raw_vec.c:223-247 *)
  Definition zRawVecInterDiv m v1 v2 (ratio : T) v size :=
    pass2 size v1 v2 v (fun x y => x + ratio * (y - x)) m.
  Definition zRawVecInterDivDRC m v v2 (ratio : T) size :=
    pass2 size v v2 v (fun x y => x + ratio * (y - x)) m.
  (** [0.5 * ( x + y )]; the literal 0.5 is exact, 1/2 *)
  Definition zRawVecMid m v1 v2 v size :=
    pass2 size v1 v2 v (fun x y => sofZ 1 / sofZ 2 * (x + y)) m.
  (** zm_raw_vec.c:250-264 *)
  Definition zRawVecScale m src (min max : ptr) dest size :=
    pass3 size src min max dest (fun x lo hi => lo + x * (hi - lo)) m.
  Definition zRawVecScaleUniform m src (min max : T) dest size :=
    pass1 size src dest (fun x => min + x * (max - min)) m.

  (** State of the compensated accumulation: s_prev (= s), q; both start at 0. *)
  Definition comp_step (st : T * T) (v : T) : T * T :=
    let (s_prev, q) := st in
    let s := s_prev + v in
    let r := s - s_prev in
    (s, q + (v - r)).
  Definition comp_sum (n : Z) (e : Z -> res T) : res T :=
    '(s, q) <- forZ n (fun i st => x <- e i ;; Ok (comp_step st x)) (0, 0) ;;
    Ok (s + q).
  (** zm_raw_vec.c:267-278 *)
  Definition zRawVecInnerProd m v1 v2 size : res T :=
    comp_sum size (fun i => x <- load m (padd v1 i) ;; y <- load m (padd v2 i) ;; Ok (x * y)).
  (** zm_raw_vec.c:281-284 and zRawVecNorm of zm_raw_vec.h *)
  Definition zRawVecSqrNorm m v size := zRawVecInnerProd m v v size.
  Definition zRawVecNorm m v size : res T := s <- zRawVecSqrNorm m v size ;; Ok (ssqrt s).
  (** zm_raw_vec.c:287-298 *)
  Definition zRawVecWSqrNorm m v (w : ptr) size : res T :=
    comp_sum size (fun i => x <- load m (padd w i) ;; y <- load m (padd v i) ;; Ok (x * y * y)).
  (** zm_raw_vec.c:301-312; [None] is the NULL answer, [tol] is zTOL *)
  Definition zRawVecNormalize (tol : T) m src size dest : res (option (mem T)) :=
    l <- zRawVecNorm m src size ;;
    if is_tol tol l then Ok None
    else m' <- zRawVecMul m src (1 / l) dest size ;; Ok (Some m').
  (** zm_raw_vec.c:315-323 *)
  Definition zRawVecSqrDist m v1 v2 size : res T :=
    forZ size (fun i d => x <- load m (padd v1 i) ;; y <- load m (padd v2 i) ;;
                          Ok (d + (x - y) * (x - y))) 0.

  (** ** Matrices: row-major with a row stride [cap] (column capacity). *)
  Definition row (p : ptr) (cap i : Z) : ptr := padd p (i * cap)%Z.
  Definition rows (n : Z) (f : Z -> mem T -> res (mem T)) (m : mem T) := forZ n f m.

  (** zm_raw_mat.c:10-25 *)
  Definition zRawMatZero m (a : ptr) cap rs cs := rows rs (fun i m => zRawVecZero m (row a cap i) cs) m.
  Definition zRawMatTouchup m (a : ptr) cap rs cs tol :=
    rows rs (fun i m => zRawVecTouchup m (row a cap i) cs tol) m.
  Definition zRawMatCopy m src scap dest dcap rs cs :=
    rows rs (fun i m => zRawVecCopy m (row src scap i) (row dest dcap i) cs) m.
  (** zm_raw_mat.c:28-49 *)
  Definition zRawMatEqual (eq : T -> T -> bool) m (a : ptr) cap1 (b : ptr) cap2 rs cs :=
    allZ rs (fun i => zRawVecEqual eq m (row a cap1 i) (row b cap2 i) cs).
  Definition zRawMatMatch m (a : ptr) cap1 (b : ptr) cap2 rs cs :=
    allZ rs (fun i => zRawVecMatch m (row a cap1 i) (row b cap2 i) cs).
  Definition zRawMatIsTol m (a : ptr) cap rs cs tol :=
    allZ rs (fun i => zRawVecIsTol m (row a cap i) cs tol).
  (** zm_raw_mat.c:52-59: the diagonal loop steps by colcapacity+1 *)
  Definition zRawMatIdent m (a : ptr) cap rs cs :=
    m1 <- zRawMatZero m a cap rs cs ;;
    forZ (Z.min rs cs) (fun i m => store m (padd a (i * (cap + 1))%Z) 1) m1.
  (** zm_raw_mat.c:62-69 *)
  Definition zRawMatDiag m (a : ptr) cap (d : ptr) rs cs :=
    m1 <- zRawMatZero m a cap rs cs ;;
    forZ (Z.min rs cs) (fun i m => x <- load m (padd d i) ;; store m (padd a (i * (cap + 1))%Z) x) m1.
  (** zm_raw_mat.c:85-106 *)
  Definition zRawMatGetRow m (a : ptr) cap (rs : Z) cs r (vec : ptr) :=
    zRawVecGet m (padd a (r * cap)%Z) 0%Z vec cs.
  Definition zRawMatGetCol m (a : ptr) cap rs (cs c : Z) (vec : ptr) :=
    forZ rs (fun i m => x <- load m (padd (padd a c) (i * cap)%Z) ;; store m (padd vec i) x) m.
  Definition zRawMatPutRow m (a : ptr) cap (rs : Z) cs r (vec : ptr) :=
    zRawVecPut m (padd a (r * cap)%Z) 0%Z vec cs.
  Definition zRawMatPutCol m (a : ptr) cap rs (cs c : Z) (vec : ptr) :=
    forZ rs (fun i m => x <- load m (padd vec i) ;; store m (padd (padd a c) (i * cap)%Z) x) m.
  (** zm_raw_mat.c:109-132 *)
  Definition zRawMatSwapRow m (a : ptr) cap (rs : Z) cs r1 r2 :=
    forZ cs (fun j m =>
      let m1 := padd (padd a (r1 * cap)%Z) j in
      let m2 := padd (padd a (r2 * cap)%Z) j in
      tmp <- load m m1 ;; x <- load m m2 ;; m' <- store m m1 x ;; store m' m2 tmp) m.
  Definition zRawMatSwapCol m (a : ptr) cap rs (cs : Z) c1 c2 :=
    forZ rs (fun i m =>
      let q := padd a (i * cap)%Z in
      tmp <- load m (padd q c1) ;; x <- load m (padd q c2) ;;
      m' <- store m (padd q c1) x ;; store m' (padd q c2) tmp) m.
  (** The clamping of a block of size [n] at position [k] in a range of [lim]:
      [if( k + n > lim ) n = lim - k;]  (a warning is issued) *)
  Definition clamp (k n lim : Z) : Z := if (k + n >? lim)%Z then (lim - k)%Z else n.
  (** zm_raw_mat.c:135-147 *)
  Definition zRawMatGet m src scap srs scs r c dest dcap drs dcs :=
    let drs := clamp r drs srs in
    let dcs := clamp c dcs scs in
    let src := padd src (r * scap + c)%Z in
    forZ drs (fun i m => zRawVecGet m (padd src (i * scap)%Z) 0%Z (padd dest (i * dcap)%Z) dcs) m.
  (** zm_raw_mat.c:150-162 *)
  Definition zRawMatPut m dest dcap drs dcs r c src scap srs scs :=
    let srs := clamp r srs drs in
    let scs := clamp c scs dcs in
    let dest := padd dest (r * dcap + c)%Z in
    forZ srs (fun i m => zRawVecPut m (padd dest (i * dcap)%Z) 0%Z (padd src (i * scap)%Z) scs) m.
  (** zm_raw_mat.c:165-177 *)
  Definition zRawMatTGet m src scap srs scs r c dest dcap drs dcs :=
    let dcs := clamp r dcs srs in
    let drs := clamp c drs scs in
    let src := padd src (r * scap + c)%Z in
    forZ drs (fun i m => zRawMatGetCol m (padd src i) scap dcs drs 0%Z (padd dest (i * dcap)%Z)) m.
  (** zm_raw_mat.c:180-192 *)
  Definition zRawMatTPut m dest dcap drs dcs r c src scap srs scs :=
    let scs := clamp r scs drs in
    let srs := clamp c srs dcs in
    let dest := padd dest (r * dcap + c)%Z in
    forZ srs (fun i m => zRawMatPutCol m (padd dest i) dcap scs dcs 0%Z (padd src (i * scap)%Z)) m.
  (** zm_raw_mat.c:195-274 *)
  Definition zRawMatAdd m a1 cap1 a2 cap2 a cap3 rs cs :=
    rows rs (fun i m => zRawVecAdd m (row a1 cap1 i) (row a2 cap2 i) (row a cap3 i) cs) m.
  Definition zRawMatSub m a1 cap1 a2 cap2 a cap3 rs cs :=
    rows rs (fun i m => zRawVecSub m (row a1 cap1 i) (row a2 cap2 i) (row a cap3 i) cs) m.
  Definition zRawMatRev m a1 cap1 a cap2 rs cs :=
    rows rs (fun i m => zRawVecRev m (row a1 cap1 i) (row a cap2 i) cs) m.
  Definition zRawMatMul m a1 cap1 k a cap2 rs cs :=
    rows rs (fun i m => zRawVecMul m (row a1 cap1 i) k (row a cap2 i) cs) m.
  Definition zRawMatDiv m a1 cap1 k a cap2 rs cs := zRawMatMul m a1 cap1 (1 / k) a cap2 rs cs.
  Definition zRawMatCat m a1 cap1 k a2 cap2 a cap3 rs cs :=
    rows rs (fun i m => zRawVecCat m (row a1 cap1 i) k (row a2 cap2 i) (row a cap3 i) cs) m.
  Definition zRawMatAddDRC m a1 cap1 a2 cap2 rs cs :=
    rows rs (fun i m => zRawVecAddDRC m (row a1 cap1 i) (row a2 cap2 i) cs) m.
  Definition zRawMatSubDRC m a1 cap1 a2 cap2 rs cs :=
    rows rs (fun i m => zRawVecSubDRC m (row a1 cap1 i) (row a2 cap2 i) cs) m.
  Definition zRawMatRevDRC m a cap rs cs :=
    rows rs (fun i m => zRawVecRevDRC m (row a cap i) cs) m.
  Definition zRawMatMulDRC m a cap k rs cs :=
    rows rs (fun i m => zRawVecMulDRC m (row a cap i) k cs) m.
  Definition zRawMatDivDRC m a cap k rs cs := zRawMatMulDRC m a cap (1 / k) rs cs.
  Definition zRawMatCatDRC m a1 cap1 k a2 cap2 rs cs :=
    rows rs (fun i m => zRawVecCatDRC m (row a1 cap1 i) k (row a2 cap2 i) cs) m.
  (** zm_raw_mat.c:277-298: operations on one column *)
  Definition colpass m (a : ptr) cap rs c (e : Z -> mem T -> T -> res T) : res (mem T) :=
    forZ rs (fun i m => let q := padd (padd a c) (i * cap)%Z in
                        x <- load m q ;; y <- e i m x ;; store m q y) m.
  Definition zRawMatColAddDRC m a cap (vec : ptr) rs (cs : Z) c :=
    colpass m a cap rs c (fun i m x => y <- load m (padd vec i) ;; Ok (x + y)).
  Definition zRawMatColSubDRC m a cap (vec : ptr) rs (cs : Z) c :=
    colpass m a cap rs c (fun i m x => y <- load m (padd vec i) ;; Ok (x - y)).
  Definition zRawMatColMulDRC m a cap (k : T) rs (cs : Z) c :=
    colpass m a cap rs c (fun i m x => Ok (x * k)).
  Definition zRawMatColCatDRC m a cap (k : T) (vec : ptr) rs (cs : Z) c :=
    colpass m a cap rs c (fun i m x => y <- load m (padd vec i) ;; Ok (x + k * y)).
  (** zm_raw_mat.c:301-312 *)
  Definition zRawMatColInnerProd m (a : ptr) cap (v : ptr) rs (cs : Z) c : res T :=
    comp_sum rs (fun i => x <- load m (padd (padd a c) (i * cap)%Z) ;; y <- load m (padd v i) ;; Ok (x * y)).
  (** zm_raw_mat.c:315-322 *)
  Definition zRawMatSqrNorm m (a : ptr) cap rs cs : res T :=
    forZ rs (fun i norm => x <- zRawVecSqrNorm m (row a cap i) cs ;; Ok (norm + x)) 0.
  (** zm_raw_mat.c:325-329 *)
  Definition zRawMatT m (a : ptr) cap1 (tm : ptr) cap2 rs cs :=
    forZ cs (fun j m => zRawMatGetCol m (padd a j) cap1 rs cs 0%Z (row tm cap2 j)) m.
  (** zm_raw_mat.c:361-374 *)
  Definition zRawMatTrace m (a : ptr) cap rs cs : res T :=
    comp_sum (Z.min rs cs) (fun i => load m (padd a (i * (cap + 1))%Z)).
  (** zm_raw_mat.c:377-390 *)
  Definition zRawMulMatVec m (a : ptr) cap (v : ptr) rs cs (mv : ptr) :=
    forZ rs (fun i m => x <- zRawVecInnerProd m (row a cap i) v cs ;; store m (padd mv i) x) m.
  Definition zRawMulMatTVec m (a : ptr) cap (v : ptr) rs cs (mv : ptr) :=
    forZ cs (fun i m => x <- zRawMatColInnerProd m a cap v rs cs i ;; store m (padd mv i) x) m.
  (** zm_raw_mat.c:393-406 *)
  Definition zRawMulMatMat m (a1 : ptr) cap1 rs1 (cs1 : Z) (a2 : ptr) cap2 rs2 cs2 (a : ptr) cap3 :=
    forZ rs1 (fun i m => zRawMulMatTVec m a2 cap2 (row a1 cap1 i) rs2 cs2 (row a cap3 i)) m.
  Definition zRawMulMatMatT m (a1 : ptr) cap1 rs1 (cs1 : Z) (a2 : ptr) cap2 rs2 cs2 (a : ptr) cap3 :=
    forZ rs1 (fun i m => zRawMulMatVec m a2 cap2 (row a1 cap1 i) rs2 cs2 (row a cap3 i)) m.
  (** zm_raw_mat.c:409-420: accumulates in the destination cell itself *)
  Definition zRawMulMatTMat m (a1 : ptr) cap1 rs1 cs1 (a2 : ptr) cap2 (rs2 : Z) cs2 (a : ptr) cap3 :=
    forZ cs1 (fun k m =>
      forZ cs2 (fun i m =>
        let mp := padd (row a cap3 k) i in
        m0 <- store m mp 0 ;;
        forZ rs1 (fun j m =>
          z <- load m mp ;;
          x <- load m (padd (padd a1 k) (j * cap1)%Z) ;;
          y <- load m (padd (padd a2 i) (j * cap2)%Z) ;;
          store m mp (z + x * y)) m0) m) m.
  (** zm_raw_mat.c:423-468: dyads *)
  Definition dyadpass m (v1 : ptr) size1 (v2 : ptr) size2 (a : ptr) cap (f : T -> T -> T -> T) :=
    forZ size1 (fun i m =>
      forZ size2 (fun j m =>
        let mp := padd (row a cap i) j in
        z <- load m mp ;; x <- load m (padd v1 i) ;; y <- load m (padd v2 j) ;;
        store m mp (f z x y)) m) m.
  Definition zRawVecDyad m v1 size1 v2 size2 (a : ptr) cap :=
    forZ size1 (fun i m =>
      forZ size2 (fun j m =>
        x <- load m (padd v1 i) ;; y <- load m (padd v2 j) ;;
        store m (padd (row a cap i) j) (x * y)) m) m.
  Definition zRawMatAddDyad m a cap v1 size1 v2 size2 :=
    dyadpass m v1 size1 v2 size2 a cap (fun z x y => z + x * y).
  Definition zRawMatSubDyad m a cap v1 size1 v2 size2 :=
    dyadpass m v1 size1 v2 size2 a cap (fun z x y => z - x * y).
  Definition zRawMatCatDyad m a cap (k : T) v1 size1 v2 size2 :=
    dyadpass m v1 size1 v2 size2 a cap (fun z x y => z + k * x * y).
End RawVec.
