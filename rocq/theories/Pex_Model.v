(** Model of src/zm_pex.c (real coefficients).

    A polynomial expression [zPex] is its coefficient array, lowest power first: a
    list of length dim+1.  Simplifications: heap identity and memory exhaustion are
    not modelled; [zPexAlloc(n)] with n < 0 is NULL (ZEDA's zArrayAlloc allocates
    nothing for a size <= 0 and zVecAlloc, src/zm_vec.c:31-45, then answers NULL),
    with n >= 0 it gives n+1 zeros. *)
From Verif Require Import Prelude Scalar Misc_Model.

Section Pex.
  Context {T : Type} {ST : Scalar T}.
  Local Open Scope S_scope.

  (** zm_pex.h: zPexAlloc; argument n+1 *)
  Definition pexalloc (size : nat) : option (list T) :=
    match size with O => None | _ => Some (repeat 0 size) end.

  (** zm_pex.c:14-29, zPexRgl.  [k] is size+1 of the loop
      [for( size=zPexDim( *p ); zPexCoeff( *p,size)==0; size-- );], which has no lower
      bound: with k=0 it reads coefficient -1. *)
  Fixpoint rgl_loop (k : nat) (p : list T) : res nat :=
    match k with
    | O => UB
    | S j => x <- get p j ;; if seq x 0 then rgl_loop j p else Ok k
    end.
  Definition zPexRgl (p : list T) : res (list T) :=
    k <- rgl_loop (length p) p ;; Ok (firstn k p).

  (** zm_pex.c:31-65; None is NULL with p1 unchanged *)
  Definition drc (op : T -> T -> T) (p1 p2 : list T) : res (option (list T)) :=
    if (length p2 =? 0)%nat then Ok None
    else if (length p1 <? length p2)%nat then Ok None
    else rmap Some (for_ 0 (length p2) (fun i p1 => x <- get p1 i ;; y <- get p2 i ;; set p1 i (op x y)) p1).
  Definition zPexAddDRC := drc sadd.
  Definition zPexSubDRC := drc ssub.
  Definition keep (p : list T) (r : option (list T)) : list T := match r with Some p' => p' | None => p end.
  (** zm_pex.c:67-89; the results of the DRC calls are ignored *)
  Definition addsub op2 (p1 p2 : list T) : res (option (list T)) :=
    match pexalloc (Nat.max (length p1) (length p2)) with
    | None => Ok None
    | Some p =>
        r1 <- zPexAddDRC p p1 ;; let p := keep p r1 in
        r2 <- drc op2 p p2 ;; let p := keep p r2 in
        rmap Some (zPexRgl p)
    end.
  Definition zPexAdd := addsub sadd.
  Definition zPexSub := addsub ssub.
  (** zm_pex.c:91-105.  (dim1+dim2 = length p1 + length p2 - 2.) *)
  Definition zPexMul (p1 p2 : list T) : res (option (list T)) :=
    match pexalloc (length p1 + length p2 - 1) with
    | None => Ok None
    | Some p =>
        p' <- for_ 0 (length p2) (fun i p => for_ 0 (length p1) (fun j p =>
                z <- get p (i + j) ;; y <- get p2 i ;; x <- get p1 j ;; set p (i + j) (z + y * x)) p) p ;;
        rmap Some (zPexRgl p')
    end.

  (** zm_pex.c:107-130, _zPexDivDRC.  [np] is the current size of p (n+1); sizes of
      f and q are m+1 and n-m+1.  The function is called with decreasing dimension
      of p and q; zPexSetCoeff is the bounds-checked setter, always in range here. *)
  Fixpoint divDRC (np : nat) (p f q : list T) : res (list T * list T) :=
    let m := (length f - 1)%nat in
    match np with
    | O => Ok (q, firstn 0 p)
    | S n =>
        if (n <? m)%nat then Ok (q, firstn np p)
        else
          x <- get p n ;; y <- get f m ;;
          let a := x / y in
          q <- set q (n - m) a ;;
          p <- for_ 1 (S m) (fun i p => u <- get p (n - i) ;; w <- get f (m - i) ;; set p (n - i) (u - a * w)) p ;;
          divDRC n p f q
    end.
  (** zm_pex.c:132-150; [None] is the answer false.  The remainder is copied to r
      (of the same size: m, when dim f <= dim p + 1) and regulated. *)
  Definition zPexDiv (p f : list T) : res (option (list T * list T)) :=
    if (length p =? 0)%nat then Ok None else
    match pexalloc (length p + 1 - length f), pexalloc (length f - 1) with
    | Some q, Some _ =>
        '(q, r) <- divDRC (length p) p f q ;;
        r <- zPexRgl r ;; Ok (Some (q, r))
    | _, _ => Ok None
    end.

  (** zm_pex.c:152-191, _zPexExp and zPexExp.  [b] is the buffer of the factor vector,
      [size] its current size.  memcpy is undefined on overlapping areas; [strict] says
      whether that is taken into account (otherwise it is assumed to act as memmove). *)
  Definition memcpy_down (strict : bool) (b : list T) (from cnt : nat) : res (list T) :=
    if strict && (from <? cnt)%nat then UB
    else if (length b <? from + cnt)%nat then UB
    else Ok (firstn cnt (skipn from b) ++ skipn cnt b).
  Fixpoint pexexp (fuel : nat) (strict : bool) (size : nat) (b : list T) : res (option (list T) * list T) :=
    match fuel with
    | O => UB
    | S fuel =>
        if (size =? 1)%nat then x <- get b 0 ;; Ok (Some [- x; 1], b)
        else
          let hsize := (size / 2)%nat in
          '(p1, b) <- pexexp fuel strict hsize b ;;
          b <- memcpy_down strict b hsize (size - hsize) ;;
          '(p2, b) <- pexexp fuel strict (size - hsize) b ;;
          match p1, p2 with
          | Some p1, Some p2 => p <- zPexMul p1 p2 ;; Ok (p, b)
          | _, _ => Ok (None, b)
          end
    end.
  Definition zPexExp (strict : bool) (factor : list T) : res (option (list T)) :=
    match factor with
    | [] => Ok None
    | _ => '(p, _) <- pexexp (length factor) strict (length factor) factor ;; Ok p
    end.

  (** zm_pex.c:247-260 *)
  Definition zPexModulo (p1 : list T) (a : T) (p2 : list T) : res (option (list T)) :=
    if negb (length p1 =? length p2)%nat then Ok None
    else rmap Some (for_down (length p1 - 1) (fun i p => for_ i (length p1 - 1) (fun j p =>
           x <- get p j ;; y <- get p (j + 1) ;; set p j (x - a * y)) p) p1).
  (** zm_pex.c:262-284 *)
  Definition zPexDif (p : list T) : res (option (list T)) :=
    match pexalloc (length p - 1) with
    | None => Ok None
    | Some q => rmap Some (for_ 0 (length p - 1) (fun i q => x <- get p (i + 1) ;; set q i (x * sofZ (Z.of_nat (i + 1)))) q)
    end.
  Definition zPexIntg (p : list T) : res (option (list T)) :=
    match pexalloc (length p + 1) with
    | None => Ok None
    | Some q => rmap Some (for_ 0 (length p) (fun i q => x <- get p i ;; set q (i + 1) (x / sofZ (Z.of_nat (i + 1)))) q)
    end.
  (** zm_pex.c:286-296 *)
  Definition zPexVal (p : list T) (arg : T) : res T :=
    if seq arg 0 then get p 0
    else
      v <- getZ p (Z.of_nat (length p) - 1) ;;
      for_down (length p - 1) (fun i v => x <- get p i ;; Ok (v * arg + x)) v.
  (** zm_pex.c:313-327; the order [d] is taken non-negative *)
  Definition zPexDifVal (p : list T) (d : nat) (arg : T) : res T :=
    let n := (length p - 1)%nat in
    x <- getZ p (Z.of_nat (length p) - 1) ;;
    let c := zPermutation (Z.of_nat n) (Z.of_nat d) in
    '(_, r) <- for_down (n - d) (fun k cr => (* i = d + k + 1 *)
       let i := (d + k + 1)%nat in
       let c := fst cr * (sofZ (Z.of_nat (i - d)) / sofZ (Z.of_nat i)) in
       y <- get p (i - 1) ;; Ok (c, c * y + snd cr * arg)) (c, c * x) ;;
    Ok r.
End Pex.
