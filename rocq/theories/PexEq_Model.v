(** Model of src/zm_pex_eq.c: the Bairstow-Hitchcock and the Durand-Kerner-Aberth solvers
    of polynomial equations.  A polynomial is the list of its coefficients, lowest order
    first; a complex vector is a list of pairs.  ZITERWARN only prints a warning: the
    models return the Boolean "a warning was printed" with the result.  Allocation
    succeeds. *)
From Verif Require Import Prelude Scalar Pex_Model Complex_Model.

Section PexEq.
  Context {T : Type} {ST : Scalar T}.
  Local Open Scope S_scope.
  (** zTOL, ZM_PEX_EQ_TOL (include/zm/zm_pex_eq.h:36), Z_MAX_ITER_NUM, 0.5 and 4 *)
  Variables ztol peqtol : T.
  Variable maxiter : nat.
  Variables half four : T.

  (** zm_complex.c:31-41: a quotient by zero is infinite or NaN in IEEE arithmetic, hence
      never within a tolerance; [quot_tol] says so for exact numbers as well. *)
  Definition quot_tol (tol a b : T) : bool := negb (seq b 0) && is_tol tol (a / b).
  Definition zComplexTouchup (tol : T) (c : T * T) : T * T :=
    let ri := quot_tol tol (fst c) (snd c) in
    let ir := quot_tol tol (snd c) (fst c) in
    (if ri || is_tol tol (fst c) then 0 else fst c, if ir || is_tol tol (snd c) then 0 else snd c).
  (** zm_cvec.c:45-52 *)
  Definition zCVecTouchup (tol : T) (v : list (T * T)) : list (T * T) := map (zComplexTouchup tol) v.

  (** ** zm_pex_eq.c:27-31: coefficients of the quotient *)
  Definition bh_quot (p q : T) (a : list T) (n : nat) (b : list T) : res (list T) :=
    x <- get a n ;; b <- set b n x ;;
    x <- get a (n - 1) ;; y <- get b n ;; b <- set b (n - 1) (x - p * y) ;;
    for_ 2 (n + 1) (fun j b =>
      x <- get a (n - j) ;; y <- get b (n - j + 1) ;; z <- get b (n - j + 2) ;;
      set b (n - j) (x - p * y - q * z)) b.
  (** zm_pex_eq.c:32-36: gradient of the divider coefficients *)
  Definition bh_grad (p q : T) (n : nat) (b c : list T) : res (list T) :=
    x <- get b n ;; c <- set c (n - 1) x ;;
    x <- get b (n - 1) ;; y <- get c (n - 1) ;; c <- set c (n - 2) (x - p * y) ;;
    for_down (n - 2) (fun j c =>
      x <- get b (j + 1) ;; y <- get c (j + 1) ;; z <- get c (j + 2) ;;
      set c j (x - p * y - q * z)) c.
  (** zm_pex_eq.c:37-40.  The last component tells whether the determinant is zero: in
      IEEE arithmetic its inverse is then infinite and the corrections are infinite or
      NaN, never within a tolerance; with exact numbers they are meaningless. *)
  Definition bh_delta (b c : list T) : res (T * T * bool) :=
    b0 <- get b 0 ;; b1 <- get b 1 ;; c0 <- get c 0 ;; c1 <- get c 1 ;; c2 <- get c 2 ;;
    let det := c1 * c1 + (b1 - c0) * c2 in
    let d := 1 / det in
    Ok ((b1 * c1 - b0 * c2) * d, (b0 * c1 + b1 * (b1 - c0)) * d, seq det 0).
  (** zm_pex_eq.c:26-46, [k] iterations left; the result is (p, q, b, warned) *)
  Fixpoint bh_loop (k : nat) (tol : T) (a : list T) (n : nat) (p q : T) (b c : list T) : res (T * T * list T * bool) :=
    match k with
    | O => Ok (p, q, b, true)
    | S k =>
        b <- bh_quot p q a n b ;;
        c <- bh_grad p q n b c ;;
        '(dp, dq, singular) <- bh_delta b c ;;
        if negb singular && is_tol tol dp && is_tol tol dq then Ok (p, q, b, false)
        else bh_loop k tol a n (p + dp) (q + dq) b c
    end.
  (** zm_pex_eq.c:12-55; ZITERINIT replaces 0 by Z_MAX_ITER_NUM *)
  Definition _zPexBH (p q : T) (a : list T) (n : nat) (tol : T) (iter : nat) : res (T * T * list T * bool) :=
    let iter := if (iter =? 0)%nat then maxiter else iter in
    '(p, q, b, w) <- bh_loop iter tol a n p q (repeat 0 (n + 1)) (repeat 0 n) ;;
    a <- for_ 2 (n + 1) (fun j a => x <- get b j ;; set a (j - 2) x) a ;;
    Ok (p, q, a, w).
  (** zQESolve into ans[k], ans[k+1]: nothing is written when the leading coefficient is 0 *)
  Definition qe_store (a b c : T) (ans : list (T * T)) (k : nat) : res (list (T * T)) :=
    match zQESolve half four a b c with
    | None => Ok ans
    | Some (x1, x2) => ans <- set ans k x1 ;; set ans (k + 1) x2
    end.
  (** zm_pex_eq.c:65-83; [fuel] bounds the number of factors, a run out of fuel is UB *)
  Fixpoint bhdst_loop (fuel n : nat) (tol : T) (iter : nat) (a : list T) (ans : list (T * T)) (w : bool) : res (list (T * T) * bool) :=
    match n with
    | O => Ok (ans, w)
    | 1%nat => x0 <- get a 0 ;; x1 <- get a 1 ;; ans <- set ans 0 (- x0 / x1, 0) ;; Ok (ans, w)
    | 2%nat => x0 <- get a 0 ;; x1 <- get a 1 ;; x2 <- get a 2 ;; ans <- qe_store x2 x1 x0 ans 0 ;; Ok (ans, w)
    | _ =>
        match fuel with
        | O => UB
        | S fuel =>
            x0 <- get a 0 ;; x1 <- get a 1 ;;
            '(p, q, a, w') <- _zPexBH (x1 + 1) (x0 + 1) a n tol iter ;;
            ans <- qe_store 1 p q ans (n - 2) ;;
            bhdst_loop fuel (n - 2) tol iter a ans (w || w')
        end
    end.
  (** zm_pex_eq.c:59-84 *)
  Definition zPexBHDST (a : list T) (ans : list (T * T)) (tol : T) (iter : nat) : res (list (T * T) * bool) :=
    let tol := if seq tol 0 then peqtol else tol in
    bhdst_loop (length a) (length a - 1) tol iter a ans false.
  (** zm_pex_eq.c:87-100; None is NULL *)
  Definition zPexBH (a : list T) (ans : list (T * T)) (tol : T) (iter : nat) : res (option (list (T * T) * bool)) :=
    if (length ans <? length a - 1)%nat then Ok None
    else '(ans, w) <- zPexBHDST a ans tol iter ;; Ok (Some (zCVecTouchup ztol ans, w)).

  (** ** Durand-Kerner-Aberth *)
  (** pow, cos, sin and the constants zPIx2 and 1.5 *)
  Variable powr : T -> T -> T.
  Variables cosr sinr : T -> T.
  Variables pix2 c15 : T.
  (** zm_pex.c:299-311 with the result in p[i]: the value at a point that is not modified *)
  Definition pexcval (a : list T) (z : T * T) : res (T * T) :=
    x <- getZ a (Z.of_nat (length a) - 1) ;;
    for_down (length a - 1) (fun i c => y <- get a i ;; let tmp := cmulv c z in Ok (y + fst tmp, snd tmp)) (x, 0).
  (** zComplexCDiv into a local variable: the failure of zComplexInv is ignored, so that a
      divisor with a square norm within zTOL makes it read an uninitialised variable *)
  Definition cdivl (w d : T * T) : res (T * T) :=
    match inv_local ztol d with None => UB | Some cc => Ok (cmulv w cc) end.
  Definition csubl (x y : T * T) : T * T := (fst x - fst y, snd x - snd y).
  Definition nofn (n : nat) : T := sofZ (Z.of_nat n).
  (** zm_pex_eq.c:125-130: the shift s and the radius r0 *)
  Definition dka_radius (a : list T) (n : nat) : res (T * T) :=
    x <- getZ a (Z.of_nat n - 1) ;; y <- get a n ;;
    let s := x / (y * nofn n) in
    b <- zPexModulo a s (repeat 0 (n + 1)) ;;
    match b with
    | None => UB
    | Some b =>
        r0 <- for_ 1 (n + 1) (fun i r0 =>
          x <- getZ b (Z.of_nat (length b) - 1 - Z.of_nat i) ;; y <- get b n ;;
          let r := powr (nofn n * sabs (x / y)) (1 / nofn i) in
          Ok (if slt r0 r then r else r0)) 0 ;;
        Ok (s, r0)
    end.
  (** zm_pex_eq.c:131-134 *)
  Definition dka_init (n : nat) (s r0 : T) (ans : list (T * T)) : res (list (T * T)) :=
    for_ 0 n (fun i ans =>
      let t := (pix2 * nofn i + c15) / nofn n in
      set ans i (r0 * cosr t - s, r0 * sinr t)) ans.
  (** zm_pex_eq.c:138-139 *)
  Definition dka_eval (tol : T) (a : list T) (n : nat) (ans p : list (T * T)) : res (bool * list (T * T)) :=
    for_ 0 n (fun i '(flag, p) =>
      z <- get ans i ;; v <- pexcval a z ;; p <- set p i v ;;
      Ok (flag && (is_tol tol (fst v) && is_tol tol (snd v)), p)) (true, p).
  (** zm_pex_eq.c:141-149; zComplexDiv leaves p[i] when the leading coefficient is within zTOL *)
  Definition dka_delta (a : list T) (n : nat) (ans p : list (T * T)) : res (list (T * T)) :=
    for_ 0 n (fun i p =>
      p <- for_ 0 n (fun j p =>
        if (j =? i)%nat then Ok p
        else x <- get ans i ;; y <- get ans j ;; w <- get p i ;; w <- cdivl w (csubl x y) ;; set p i w) p ;;
      w <- get p i ;; k <- get a n ;;
      if is_tol ztol k then Ok p else set p i (fst w * (1 / k), snd w * (1 / k))) p.
  (** zm_pex_eq.c:150-151 *)
  Definition dka_update (n : nat) (ans p : list (T * T)) : res (list (T * T)) :=
    for_ 0 n (fun i ans => x <- get ans i ;; y <- get p i ;; set ans i (csubl x y)) ans.
  (** zm_pex_eq.c:137-152; the Boolean is true after a warning *)
  Fixpoint dka_loop (k : nat) (tol : T) (a : list T) (n : nat) (ans p : list (T * T)) : res (list (T * T) * bool) :=
    match k with
    | O => Ok (ans, true)
    | S k =>
        '(flag, p) <- dka_eval tol a n ans p ;;
        if flag then Ok (ans, false)
        else p <- dka_delta a n ans p ;; ans <- dka_update n ans p ;; dka_loop k tol a n ans p
    end.
  (** zm_pex_eq.c:105-158 *)
  Definition zPexDKA (a : list T) (ans : list (T * T)) (tol : T) (iter : nat) : res (option (list (T * T) * bool)) :=
    if (length ans <? length a - 1)%nat then Ok None
    else
      let n := (length a - 1)%nat in
      let tol := if seq tol 0 then peqtol else tol in
      '(s, r0) <- dka_radius a n ;;
      ans <- dka_init n s r0 ans ;;
      let iter := if (iter =? 0)%nat then maxiter else iter in
      '(ans, w) <- dka_loop iter tol a n ans (repeat (0, 0) n) ;;
      Ok (Some (zCVecTouchup ztol ans, w)).
End PexEq.
