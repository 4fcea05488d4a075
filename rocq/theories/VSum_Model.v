(** Model of the sums of several vectors, of the vector rings and arrays and of the reordering in
    place: src/zm_vec.c:449-488, 246-269, src/zm_vec_ring.c, src/zm_vec_array.c.

    The vectors of the program live in a store: a name (a zVec, that is a pointer) gives its vector.
    Two arguments that are the same vector have the same name.  The operations on one vector act on
    all elements at once (proved of the raw loops in C05, C63).  ZEDA, not part of the repository,
    provides the ring ([zRingElem(r,i)] is the cell [(head+i) mod size] of the buffer) and the array
    ([zArrayHead] is its last cell).  Allocation is assumed to succeed. *)
From Verif Require Import Prelude Scalar Fmat.

Section VSum.
  Context {T : Type} {ST : Scalar T}.
  Local Open Scope S_scope.
  Local Notation vec := (fvec T).
  Definition store := nat -> vec.
  Definition supd (s : store) (v : nat) (x : vec) : store := fun k => if (k =? v)%nat then x else s k.
  (** zm_vec.c:371-375 with the destination as first operand: the loop runs over the size of it *)
  Definition zVecCatNCDRC (s : store) (v : nat) (k : T) (w : nat) : res store :=
    if (vlen (s v) <=? vlen (s w))%nat
    then Ok (supd s v (FV (vlen (s v)) (fun i => vel (s v) i + vel (s w) i * k))) else UB.
  (** zm_vec.c:443-447: the null pointer and nothing done on a mismatch *)
  Definition zVecCatDRC (s : store) (v : nat) (k : T) (w : nat) : res store :=
    if (vlen (s v) =? vlen (s w))%nat then zVecCatNCDRC s v k w else Ok s.
  (** zm_vec.c:452-465: a mismatch is warned about; the result of zVecCatDRC is not looked at.
      [args] is the list of the variable arguments. *)
  Fixpoint _zVecCats (s : store) (v : nat) (args : list (T * nat)) : res store :=
    match args with
    | nil => Ok s
    | (k, w) :: r => s <- zVecCatDRC s v k w ;; _zVecCats s v r
    end.
  (** zm_vec.c:468-476 *)
  Definition zVecCats (s : store) (v : nat) (args : list (T * nat)) : res store := _zVecCats s v args.
  Definition zVecZero (s : store) (v : nat) : store := supd s v (FV (vlen (s v)) (fun _ => 0)).
  (** zm_vec.c:479-488 *)
  Definition zVecLinearSum (s : store) (v : nat) (args : list (T * nat)) : res store := _zVecCats (zVecZero s v) v args.

  (** zm_vec.c:98-102: memcpy, undefined if the areas are the same *)
  Definition zVecCopyNC (s : store) (src dest : nat) : res store :=
    if (src =? dest)%nat && (1 <=? vlen (s dest))%nat then UB
    else if (vlen (s dest) <=? vlen (s src))%nat
    then Ok (supd s dest (FV (vlen (s dest)) (vel (s src)))) else UB.

  (** ZEDA ring *)
  Record ring := Ring { rbuf : list nat; rhead : nat }.
  Definition zRingSize (r : ring) : nat := length (rbuf r).
  Definition zRingElem (r : ring) (i : nat) : res nat :=
    match nth_error (rbuf r) ((rhead r + i) mod zRingSize r) with Some x => Ok x | None => UB end.
  (** zm_vec_ring.c:35-46.  The flag is false for the null pointer. *)
  Definition zVecRingFill (s : store) (r : ring) (v : nat) : res (bool * store) :=
    h <- zRingElem r 0 ;;
    if negb (vlen (s h) =? vlen (s v))%nat then Ok (false, s) else
    s <- for_ 0 (zRingSize r) (fun i s => e <- zRingElem r i ;; zVecCopyNC s v e) s ;; Ok (true, s).
  (** zm_vec_ring.c:49-60 *)
  Definition zVecRingCat (s : store) (v c : nat) (r : ring) : res (bool * store) :=
    h <- zRingElem r 0 ;;
    if negb (vlen (s h) =? vlen (s v))%nat then Ok (false, s) else
    s <- for_ 0 (vlen (s c)) (fun i s => e <- zRingElem r i ;; zVecCatNCDRC s v (vel (s c) i) e) s ;; Ok (true, s).
  (** zm_vec_ring.c:63-67 *)
  Definition zVecRingLinearSum (s : store) (v c : nat) (r : ring) : res (bool * store) :=
    zVecRingCat (zVecZero s v) v c r.

  (** zm_vec_array.c:36-47 *)
  Definition zArrayElem (a : list nat) (i : nat) : res nat :=
    match nth_error a i with Some x => Ok x | None => UB end.
  Definition zVecArrayFill (s : store) (a : list nat) (v : nat) : res (bool * store) :=
    match length a with
    | O => UB
    | S l =>
      h <- zArrayElem a l ;;
      if negb (vlen (s h) =? vlen (s v))%nat then Ok (false, s) else
      s <- for_ 0 (length a) (fun i s => e <- zArrayElem a i ;; zVecCopyNC s v e) s ;; Ok (true, s)
    end.

  (** zm_vec.c:247-258 *)
  Definition zVecReorder (s : store) (src : nat) (idx : list nat) (dest : nat) : res (bool * store) :=
    if negb (vlen (s src) =? vlen (s dest))%nat || negb (vlen (s src) =? length idx)%nat then Ok (false, s) else
    s <- for_ 0 (length idx) (fun i s =>
      k <- zArrayElem idx i ;; x <- vget (s src) k ;; d <- vset (s dest) i x ;; Ok (supd s dest d)) s ;;
    Ok (true, s).
  (** zm_vec.c:261-269; [tmp] is the name of the clone, which is freed at the end; the result of
      zVecReorder is not looked at *)
  Definition zVecReorderDRC (s : store) (v : nat) (idx : list nat) (tmp : nat) : res (bool * store) :=
    '(_, s) <- zVecReorder (supd s tmp (s v)) tmp idx v ;; Ok (true, s).
End VSum.
Arguments store T : clear implicits.
