(** Model of src/zm_ip_chebyshev.c: interpolation by Chebyshev polynomials.  Conventions as in IP_Model; matrices as in LE_Model. *)
From Verif Require Import Prelude Scalar Fmat LE_Model IP_Model.

Section Cheb.
  Context {T : Type} {ST : Scalar T}.
  Local Open Scope S_scope.
  Local Notation vec := (fvec T).
  Local Notation two := (sofZ 2).
  Variable tol : T.

  (** 10-13 *)
  Definition zIPScaleChebyshev (t tmin tmax : T) : T := (two * t - (tmax + tmin)) / (tmax - tmin).
  (** 22-23, 44-45, 69-70: the scaled abscissa, the ends being those of the data *)
  Definition cheb_x (d : ipdata T) (t : T) : res T :=
    t0 <- zIPDataTime d 0 ;; t1 <- zIPDataTime d (zIPDataSize d - 1) ;; Ok (zIPScaleChebyshev t t0 t1).
  (** 47, 72 *)
  Definition cheb_dx (d : ipdata T) : res T :=
    t1 <- zIPDataTime d (zIPDataSize d - 1) ;; t0 <- zIPDataTime d 0 ;; Ok (two / (t1 - t0)).
  (** 16-33 *)
  Definition zIPVecChebyshev (d : ipdata T) (t : T) (v : vec) : res vec :=
    let v := zVecZero v in
    x <- cheb_x d t ;;
    a <- ipva d 0 ;; v <- zVecCopyNC a v ;;
    a <- ipva d 1 ;; v <- zVecCatNCDRC v x a ;;
    rmap fst (for_ 2 (zIPDataSize d) (fun i st =>
      let '(v, (f1, f2)) := st in
      let f := two * x * f2 - f1 in
      a <- ipva d i ;; v <- zVecCatDRC v f a ;; Ok (v, (f2, f))) (v, (1, x))).
  (** 36-59 *)
  Definition zIPVelChebyshev (d : ipdata T) (t : T) (v : vec) : res vec :=
    let v := zVecZero v in
    x <- cheb_x d t ;; dx <- cheb_dx d ;;
    a <- ipva d 1 ;; v <- zVecMulC a dx v ;;
    rmap fst (for_ 2 (zIPDataSize d) (fun i st =>
      let '(v, (f1, f2, (df1, df2))) := st in
      let f := two * x * f2 - f1 in
      let df := two * (dx * f2 + x * df2) - df1 in
      a <- ipva d i ;; v <- zVecCatDRC v df a ;; Ok (v, (f2, f, (df2, df)))) (v, (1, x, (0, dx)))).
  (** 62-89 *)
  Definition zIPAccChebyshev (d : ipdata T) (t : T) (v : vec) : res vec :=
    let v := zVecZero v in
    x <- cheb_x d t ;; dx <- cheb_dx d ;;
    rmap fst (for_ 2 (zIPDataSize d) (fun i st =>
      let '(v, (f1, f2, (df1, df2), (ddf1, ddf2))) := st in
      let f := two * x * f2 - f1 in
      let df := two * (dx * f2 + x * df2) - df1 in
      let ddf := two * (two * dx * df2 + x * ddf2) - ddf1 in
      a <- ipva d i ;; v <- zVecCatDRC v ddf a ;; Ok (v, (f2, f, (df2, df), (ddf2, ddf)))) (v, (1, x, (0, dx), (0, 0)))).
  (** 92-95 *)
  Definition zIPSecVelChebyshev (d : ipdata T) (i : nat) (v : vec) : res vec := t <- zIPDataTime d i ;; zIPVelChebyshev d t v.
  (** 98-101 *)
  Definition zIPSecAccChebyshev (d : ipdata T) (i : nat) (v : vec) : res vec := t <- zIPDataTime d i ;; zIPAccChebyshev d t v.

  (** zMatPutRowNC and zMatGetRowNC (zm_mat.c:273-277, 315-319): as many elements as the matrix has columns *)
  Definition put_row (m : fmat T) (i : nat) (v : vec) : res (fmat T) :=
    for_ 0 (nc m) (fun j m => x <- vget v j ;; mset m i j x) m.
  Definition get_row (m : fmat T) (i : nat) (v : vec) : res vec :=
    for_ 0 (nc m) (fun j v => x <- mget m i j ;; vset v j x) v.
  (** 131-138: a row of the matrix *)
  Definition cheb_row (n i : nat) (x : T) (r : fmat T) : res (fmat T) :=
    r <- mset r i 0 1 ;; r <- mset r i 1 x ;;
    rmap fst (for_ 2 n (fun j st => let '(r, (f1, f2)) := st in
      let f := two * x * f2 - f1 in r <- mset r i j f ;; Ok (r, (f2, f))) (r, (1, x))).
  (** 114-151; the answer of zMulInvMatMat is not tested, and the coefficients stay 0 if it fails *)
  Definition zIPCreateChebyshev (seq : list (T * vec)) : res (ipdata T) :=
    d <- zIPDataAlloc seq ;;
    let n := zIPDataSize d in
    c <- zIPDataSecVec d 0 ;;
    let m := vlen c in
    rp <- for_ 0 n (fun i rp =>
      ti <- zIPDataTime d i ;; t0 <- zIPDataTime d 0 ;; t1 <- zIPDataTime d (n - 1) ;;
      r <- cheb_row n i (zIPScaleChebyshev ti t0 t1) (fst rp) ;;
      c <- zIPDataSecVec d i ;; p <- put_row (snd rp) i c ;; Ok (r, p)) (zmat n n, zmat n m) ;;
    o <- zMulInvMatMat tol (fst rp) (snd rp) (zmat n m) ;;
    let v := match o with Some v => v | None => zmat n m end in
    for_ 0 n (fun i d => a <- ipva d i ;; a <- get_row v i a ;; set_va d i a) d.
End Cheb.
