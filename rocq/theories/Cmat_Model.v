(** Model of src/zm_cmat.c and of what Complex_Model leaves of src/zm_cvec.c (copy, conversions, comparison, norm,
    normalisation) and of zComplexValIsIncluded (src/zm_complex.c).  Memory is that of Complex_Model: cells of complex
    numbers.  A matrix is the address of its buffer and its sizes (complex matrices are never resized, so the capacity of
    a row is its size: include/zm/zm_cmat.h has no function for it); a vector is an address and a size.  An access outside
    of the buffer of an array is [UB].  [tol] is zTOL.  Random matrices, allocation and printing are not modelled. *)
From Verif Require Import Prelude Scalar Complex_Model.

Record cmat := CM { mb : nat; mr : nat; mc : nat }.
Record cvec := CV { vb : nat; vn : nat }.
(** include/zm/zm_cmat.h:66, ZEDA zArray2ElemNC *)
Definition cell (A : cmat) (i j : nat) : nat := (mb A + i * mc A + j)%nat.
Definition cnt (A : cmat) : nat := (mr A * mc A)%nat.
(** include/zm/zm_cmat.h:42-44 *)
Definition same (A B : cmat) : bool := ((mr A =? mr B) && (mc A =? mc B))%nat.

Section Cmat.
  Context {T : Type} {ST : Scalar T}.
  Local Open Scope S_scope.
  Local Notation cplx := (cplx T).
  Local Notation cmem := (cmem T).
  Variable tol : T.

  (** zm_cmat.c:36-44 *)
  Definition zCMatZero (m : cmem) (A : cmat) : cmem := zCVecZero m (mb A) (cnt A).
  (** zm_cmat.c:82-90: the size of the source decides *)
  Definition zCMatCopyNC (m : cmem) (A D : cmat) : res cmem :=
    if (cnt A <=? cnt D)%nat then Ok (zCVecCopyNC m (mb A) (mb D) (cnt A)) else UB.
  (** zm_cmat.c:93-100; [None] is NULL *)
  Definition zCMatCopy m A D : res (option cmem) := if same A D then rmap Some (zCMatCopyNC m A D) else Ok None.

  (** a real matrix: its buffer, its sizes and the capacity of a row (ZEDA zArray2) *)
  Record rmat := RM { rbuf : list T; rr : nat; rc : nat; rcap : nat }.
  Definition relem (M : rmat) (i j : nat) : option T := nth_error (rbuf M) (i * rcap M + j).
  (** zm_cmat.c:114-122: the buffers are taken for contiguous, no size is checked *)
  Definition zMatToCMat (m : cmem) (M : rmat) (D : cmat) : res cmem :=
    for_ 0 (rr M * rc M) (fun i m =>
      x <- get (rbuf M) i ;;
      if (i <? cnt D)%nat then Ok (create m (mb D + i) (fun _ => x) (fun _ => 0)) else UB) m.

  (** zm_cmat.c:125-129: memcpy; the ranges must not overlap *)
  Definition overlap (a b n : nat) : bool := ((a <? b + n) && (b <? a + n))%nat.
  Definition memcpy (m : cmem) (src dest n : nat) : res cmem :=
    if overlap src dest n then UB else Ok (zCVecCopyNC m src dest n).
  Definition zCMatGetRowNC m A (row : Z) v : res cmem :=
    if ((0 <=? row) && (row <? Z.of_nat (mr A)))%Z && (mc A <=? vn v)%nat
    then memcpy m (cell A (Z.to_nat row) 0) (vb v) (mc A) else UB.
  (** zm_cmat.c:132-139 *)
  Definition zCMatGetColNC m A (col : Z) v : res cmem :=
    if ((0 <=? col) && (col <? Z.of_nat (mc A)))%Z && (mr A <=? vn v)%nat
    then Ok (cvloop (mr A) (fun i m => wr m (vb v + i) (m (cell A i (Z.to_nat col)))) m) else UB.
  (** zm_cmat.c:142-167: only indices that are too large are rejected *)
  Definition zCMatGetRow m A row v : res (option cmem) :=
    if negb (mc A =? vn v)%nat then Ok None
    else if (Z.of_nat (mr A) <=? row)%Z then Ok None
    else rmap Some (zCMatGetRowNC m A row v).
  Definition zCMatGetCol m A col v : res (option cmem) :=
    if negb (mr A =? vn v)%nat then Ok None
    else if (Z.of_nat (mc A) <=? col)%Z then Ok None
    else rmap Some (zCMatGetColNC m A col v).
  (** zm_cmat.c:170-174, 177-184: the size of the vector decides *)
  Definition zCMatPutRowNC m A (row : Z) v : res cmem :=
    if ((0 <=? row) && (row <? Z.of_nat (mr A)))%Z && (vn v <=? mc A)%nat
    then memcpy m (vb v) (cell A (Z.to_nat row) 0) (vn v) else UB.
  Definition zCMatPutColNC m A (col : Z) v : res cmem :=
    if ((0 <=? col) && (col <? Z.of_nat (mc A)))%Z && (vn v <=? mr A)%nat
    then Ok (cvloop (vn v) (fun i m => wr m (cell A i (Z.to_nat col)) (m (vb v + i)%nat)) m) else UB.
  (** zm_cmat.c:187-212 *)
  Definition zCMatPutRow m A row v : res (option cmem) :=
    if negb (mc A =? vn v)%nat then Ok None
    else if (Z.of_nat (mr A) <=? row)%Z then Ok None
    else rmap Some (zCMatPutRowNC m A row v).
  Definition zCMatPutCol m A col v : res (option cmem) :=
    if negb (mr A =? vn v)%nat then Ok None
    else if (Z.of_nat (mc A) <=? col)%Z then Ok None
    else rmap Some (zCMatPutColNC m A col v).

  (** include/zm/zm_complex.h:80; zm_cmat.c:215-223, zm_cvec.c:145-152 *)
  Definition cistol (t : T) (z : cplx) : bool := is_tol t (fst z) && is_tol t (snd z).
  Definition zCMatIsTol (t : T) (m : cmem) (A : cmat) : bool := forallb (fun k => cistol t (m (mb A + k)%nat)) (List.seq 0 (cnt A)).
  Definition zCVecIsTol (t : T) (m : cmem) (v : cvec) : bool := forallb (fun k => cistol t (m (vb v + k)%nat)) (List.seq 0 (vn v)).

  (** zm_cmat.c:226-306: loops over the cells, the size of the destination decides *)
  Definition zCMatAddNC m A B D : cmem := zCVecAddNC m (mb A) (mb B) (mb D) (cnt D).
  Definition zCMatSubNC m A B D : cmem := zCVecSubNC m (mb A) (mb B) (mb D) (cnt D).
  Definition zCMatRevNC m A D : cmem := zCVecRevNC m (mb A) (mb D) (cnt D).
  Definition zCMatMulNC m A k D : cmem := zCVecMulNC m (mb A) k (mb D) (cnt D).
  Definition zCMatDivNC m A k D : cmem := zCVecDivNC m (mb A) k (mb D) (cnt D).
  Definition zCMatCMulNC m A z D : cmem := zCVecCMulNC m (mb A) z (mb D) (cnt D).
  Definition zCMatCDivNC m A z D : cmem := zCVecCDivNC tol m (mb A) z (mb D) (cnt D).
  (** zm_cmat.c:309-384 *)
  Definition zCMatAdd m A B D : option cmem := if same A B && same A D then Some (zCMatAddNC m A B D) else None.
  Definition zCMatSub m A B D : option cmem := if same A B && same A D then Some (zCMatSubNC m A B D) else None.
  Definition zCMatRev m A D : option cmem := if same A D then Some (zCMatRevNC m A D) else None.
  Definition zCMatMul m A k D : option cmem := if same A D then Some (zCMatMulNC m A k D) else None.
  Definition zCMatDiv m A k D : option cmem := if same A D then if is_tol tol k then None else Some (zCMatDivNC m A k D) else None.
  Definition zCMatCMul m A z D : option cmem := if same A D then Some (zCMatCMulNC m A z D) else None.
  Definition zCMatCDiv m A z D : option cmem := if same A D then if cistol tol (m z) then None else Some (zCMatCDivNC m A z D) else None.
  (** zm_cmat.c:387-401 *)
  Definition zCMulMatVecNC m A v1 v : res cmem :=
    if ((mc A <=? vn v1) && (mr A <=? vn v))%nat then
      Ok (cvloop (mr A) (fun i m =>
            let m := create m (vb v + i) (fun _ => 0) (fun _ => 0) in
            cvloop (mc A) (fun j m =>
              let z := cmulv (m (cell A i j)) (m (vb v1 + j)%nat) in
              create m (vb v + i) (fun m => fst (m (vb v + i)%nat) + fst z) (fun m => snd (m (vb v + i)%nat) + snd z)) m) m)
    else UB.
  (** zm_cmat.c:404-411 *)
  Definition zCMulMatVec m A v1 v : res (option cmem) :=
    if (mc A =? vn v1)%nat && (mr A =? vn v)%nat then rmap Some (zCMulMatVecNC m A v1 v) else Ok None.

  (** ** vectors *)
  (** zm_cvec.c:65-68 *)
  Definition zCVecCopy (m : cmem) (v d : cvec) : option cmem := if (vn v =? vn d)%nat then Some (zCVecCopyNC m (vb v) (vb d) (vn d)) else None.
  (** zm_cvec.c:82-94 *)
  Definition zVecToCVec (m : cmem) (r : list T) (d : cvec) : res (option cmem) :=
    if negb (length r =? vn d)%nat then Ok None
    else rmap Some (for_ 0 (vn d) (fun i m => x <- get r i ;; Ok (create m (vb d + i) (fun _ => x) (fun _ => 0))) m).
  (** zm_cvec.c:96-121: the elements of the real vector, of size [n] *)
  Definition zCVecToReVec (m : cmem) (v : cvec) (n : nat) : option (list T) :=
    if (n =? vn v)%nat then Some (map (fun i => fst (m (vb v + i)%nat)) (List.seq 0 (vn v))) else None.
  Definition zCVecToImVec (m : cmem) (v : cvec) (n : nat) : option (list T) :=
    if (n =? vn v)%nat then Some (map (fun i => snd (m (vb v + i)%nat)) (List.seq 0 (vn v))) else None.
  (** include/zm/zm_complex.h:89; zm_cvec.c:134-142; zm_complex.c:104-111 *)
  Definition cequal (t : T) (a b : cplx) : bool := zEqual (fst a) (fst b) t && zEqual (snd a) (snd b) t.
  Definition zCVecEqual (t : T) (m : cmem) (v w : cvec) : bool :=
    (vn v =? vn w)%nat && forallb (fun i => cequal t (m (vb v + i)%nat) (m (vb w + i)%nat)) (List.seq 0 (vn v)).
  Definition zComplexValIsIncluded (t : T) (a : list cplx) (c : cplx) : bool := existsb (fun x => cequal t x c) a.
  (** zm_cvec.c:410-415, zm_complex_arith.h:18 *)
  Definition zCVecSqrNorm (m : cmem) (v : cvec) : T := ssqrt (sqrabs (zCVecInnerProd m (vb v) (vb v) (vn v))).
  (** include/zm/zm_cvec.h:228; zm_cvec.c:418-430: the size of the destination decides, the norm is that of the source;
      zComplexDiv does not fail since the norm is not tiny *)
  Definition zCVecNormalize (m : cmem) (v d : cvec) : res (option cmem) :=
    let r := ssqrt (zCVecSqrNorm m v) in
    if is_tol tol r then Ok None
    else if (vn d <=? vn v)%nat then Ok (Some (zCVecMulNC m (vb v) (1 / r) (vb d) (vn d))) else UB.
End Cmat.
