(** Model of the interpolators over a sequence of points: src/zm_ip.c, zm_ip_lin.c,
    zm_ip_lagrange.c, zm_ip_spline.c (spline and PCHIP), zm_ip_akima.c.

    A point sequence is the list of its cells (delta time, vector) in the order of
    zListForEachRew, i.e. in the order of time.  [tol] is zTOL.  An array access outside its
    range is [UB].  Vector operations act elementwise (proved of the raw loops in C05, C63);
    the unchecked ones read as many elements as the destination has, the checked ones leave
    the destination alone when sizes differ.  Allocation is assumed to succeed. *)
From Verif Require Import Prelude Scalar Fmat LE_Model.

Section VOps.
  Context {T : Type} {ST : Scalar T}.
  Local Open Scope S_scope.
  Local Notation vec := (fvec T).
  Variable tol : T.
  (** loop over the size of the destination; the destination may be one of the operands *)
  Definition vop1 (f : T -> T) (v1 v : vec) : res vec :=
    if (vlen v <=? vlen v1)%nat then Ok (FV (vlen v) (fun i => f (vel v1 i))) else UB.
  Definition vop2 (f : T -> T -> T) (v1 v2 v : vec) : res vec :=
    if (vlen v <=? vlen v1)%nat && (vlen v <=? vlen v2)%nat
    then Ok (FV (vlen v) (fun i => f (vel v1 i) (vel v2 i))) else UB.
  (** zm_vec.c:98-102, 320-352, 371-375 *)
  Definition zVecCopyNC (v1 v : vec) := vop1 (fun x => x) v1 v.
  Definition zVecAddNC (v1 v2 v : vec) := vop2 sadd v1 v2 v.
  Definition zVecSubNC (v1 v2 v : vec) := vop2 ssub v1 v2 v.
  Definition zVecMulNC (v1 : vec) (k : T) (v : vec) := vop1 (fun x => x * k) v1 v.
  Definition zVecDivNC (v1 : vec) (k : T) (v : vec) := vop1 (fun x => x * (1 / k)) v1 v.
  Definition zVecCatNC (v1 : vec) (k : T) (v2 v : vec) := vop2 (fun x y => x + y * k) v1 v2 v.
  (** zm_vec.h:429, 443-447 with zm_vec.c:411-447: the checked versions, in place *)
  Definition zVecCatNCDRC (v : vec) (k : T) (v2 : vec) := zVecCatNC v k v2 v.
  Definition zVecCatDRC (v : vec) (k : T) (v2 : vec) : res vec :=
    if (vlen v =? vlen v2)%nat then zVecCatNC v k v2 v else Ok v.
  Definition zVecMulDRC (v : vec) (k : T) : res vec := zVecMulNC v k v.
  Definition zVecDivDRC (v : vec) (k : T) : res vec := if is_tol tol k then Ok v else zVecDivNC v k v.
  (** zm_vec.c:390-402, 411-415: checked versions with a separate destination *)
  Definition zVecAddC (v1 v2 v : vec) : res vec :=
    if (vlen v1 =? vlen v2)%nat && (vlen v2 =? vlen v)%nat then zVecAddNC v1 v2 v else Ok v.
  Definition zVecSubC (v1 v2 v : vec) : res vec :=
    if (vlen v1 =? vlen v2)%nat && (vlen v2 =? vlen v)%nat then zVecSubNC v1 v2 v else Ok v.
  Definition zVecMulC (v1 : vec) (k : T) (v : vec) : res vec :=
    if (vlen v1 =? vlen v)%nat then zVecMulNC v1 k v else Ok v.
  Definition zVecCopyC (v1 v : vec) : res vec := if (vlen v1 =? vlen v)%nat then zVecCopyNC v1 v else Ok v.
  (** zVecZero / zVecAlloc *)
  Definition vzero (n : nat) : vec := FV n (fun _ => 0).
  Definition zVecZero (v : vec) : vec := vzero (vlen v).
End VOps.

Section IP.
  Context {T : Type} {ST : Scalar T}.
  Local Open Scope S_scope.
  Local Notation vec := (fvec T).
  Variable tol : T.
  Local Notation nz z := (sofZ z%Z).
  Local Notation half := (sofZ 1%Z / sofZ 2%Z).
  Definition sqr (x : T) : T := x * x.

  (** include/zm/zm_ip.h:16-29: time stamps and cells of the knots, work vectors *)
  Record ipdata := IPD { ip_t : fvec T; ip_c : fvec (T * vec); ip_va : fvec vec }.
  (** zm_ip.h:31-36 *)
  Definition zIPDataSize (d : ipdata) : nat := vlen (ip_c d).
  Definition zIPDataTime (d : ipdata) (i : nat) : res T := vget (ip_t d) i.
  Definition zIPDataDeltaTime (d : ipdata) (i : nat) : res T := rmap fst (vget (ip_c d) i).
  Definition zIPDataSecVec (d : ipdata) (i : nat) : res vec := rmap snd (vget (ip_c d) i).
  Definition zIPDataSecVal (d : ipdata) (i j : nat) : res T := v <- zIPDataSecVec d i ;; vget v j.
  (** *zArrayElem(&dat->va,i) and zVecArrayElem(&dat->va,i,j) *)
  Definition ipva (d : ipdata) (i : nat) : res vec := vget (ip_va d) i.
  Definition ipvae (d : ipdata) (i j : nat) : res T := v <- ipva d i ;; vget v j.
  Definition set_va (d : ipdata) (i : nat) (v : vec) : res ipdata :=
    va <- vset (ip_va d) i v ;; Ok (IPD (ip_t d) (ip_c d) va).
  Definition set_vae (d : ipdata) (i j : nat) (x : T) : res ipdata :=
    v <- ipva d i ;; v <- vset v j x ;; set_va d i v.

  (** zm_ip.c:15-40.  Of an empty sequence the member seq is left unset although true is
      answered, so that the constructors go on to read it: [UB] *)
  Fixpoint times (t : T) (seq : list (T * vec)) : list T :=
    match seq with [] => [] | c :: r => (t + fst c) :: times (t + fst c) r end.
  Definition zIPDataAlloc (seq : list (T * vec)) : res ipdata :=
    match seq with
    | [] => UB
    | c :: _ => Ok (IPD (vec_of 0 (times 0 seq)) (vec_of c seq)
                        (FV (length seq) (fun _ => vzero (vlen (snd c)))))
    end.

  (** zm_ip.c:51-61; running out of fuel is an error *)
  Fixpoint seg_loop (fuel : nat) (d : ipdata) (t : T) (i j : nat) : res nat :=
    match fuel with
    | O => UB
    | S fuel => let k := Nat.div (i + j) 2 in
                if (k =? i)%nat then Ok i
                else tk <- zIPDataTime d k ;;
                     if slt t tk then seg_loop fuel d t i k else seg_loop fuel d t k j
    end.
  Definition zIPDataSeg (d : ipdata) (t : T) : res nat :=
    seg_loop (S (zIPDataSize d)) d t 0 (zIPDataSize d - 1).

  (** ** linear interpolation *)
  (** zm_ip_lin.c:62-74 *)
  Definition zIPCreateLinear (seq : list (T * vec)) : res ipdata :=
    d <- zIPDataAlloc seq ;;
    for_ 1 (zIPDataSize d) (fun i d =>
      v1 <- zIPDataSecVec d i ;; v0 <- zIPDataSecVec d (i - 1) ;; va <- ipva d (i - 1) ;;
      va <- zVecSubNC v1 v0 va ;;
      dt <- zIPDataDeltaTime d i ;;
      va <- zVecDivDRC tol va dt ;;
      set_va d (i - 1) va) d.
  (** zm_ip_lin.c:10-16 *)
  Definition zIPVecLinear (d : ipdata) (t : T) (v : vec) : res vec :=
    i <- zIPDataSeg d t ;;
    x <- zIPDataSecVec d i ;; ti <- zIPDataTime d i ;; a <- ipva d i ;;
    zVecCatNC x (t - ti) a v.
  (** zm_ip_lin.c:19-23 *)
  Definition zIPSecVelLinear (d : ipdata) (i : Z) (v : vec) : res vec :=
    if (i <? 0)%Z || (Z.of_nat (zIPDataSize d) <=? i + 1)%Z then Ok (zVecZero v)
    else a <- ipva d (Z.to_nat i) ;; zVecCopyNC a v.
  (** zm_ip_lin.c:39-42 *)
  Definition zIPVelLinear (d : ipdata) (t : T) (v : vec) : res vec :=
    i <- zIPDataSeg d t ;; zIPSecVelLinear d (Z.of_nat i) v.
  (** HUGE_VAL, -HUGE_VAL or a number *)
  Inductive ext := Fin (x : T) | PInf | NInf.
  (** zm_ip_lin.c:26-36 *)
  Definition zIPSecAccLinear (d : ipdata) (i : Z) (v : vec) : res (fvec ext) :=
    if (i <=? 0)%Z || (Z.of_nat (zIPDataSize d) <=? i + 1)%Z then Ok (FV (vlen v) (fun _ => Fin 0))
    else let i := Z.to_nat i in
         for_ 0 (vlen v) (fun j w =>
           x <- ipvae d i j ;; y <- ipvae d (i - 1) j ;;
           vset w j (if slt y x then PInf else if slt x y then NInf else Fin 0))
           (FV (vlen v) (fun j => Fin (vel v j))).
  (** zm_ip_lin.c:45-51 *)
  Definition zIPAccLinear (d : ipdata) (t : T) (v : vec) : res (fvec ext) :=
    i <- zIPDataSeg d t ;; ti <- zIPDataTime d i ;;
    if is_tol tol (ti - t) then zIPSecAccLinear d (Z.of_nat i) v else Ok (FV (vlen v) (fun _ => Fin 0)).

  (** ** Lagrange interpolation *)
  (** the products of zm_ip_lagrange.c:17-19, 34-36, 53-55, 92-94: factors t - t_j over the
      knots j that are not excluded *)
  Definition lag_prod (d : ipdata) (p t : T) (skip : nat -> bool) : res T :=
    for_ 0 (zIPDataSize d) (fun j p => if skip j then Ok p else tj <- zIPDataTime d j ;; Ok (p * (t - tj))) p.
  (** zm_ip_lagrange.c:85-99 *)
  Definition zIPCreateLagrange (seq : list (T * vec)) : res ipdata :=
    d <- zIPDataAlloc seq ;;
    for_ 0 (zIPDataSize d) (fun i d =>
      ti <- zIPDataTime d i ;;
      a <- lag_prod d 1 ti (fun j => (j =? i)%nat) ;;
      x <- zIPDataSecVec d i ;; va <- ipva d i ;;
      va <- zVecDivNC x a va ;; set_va d i va) d.
  (** zm_ip_lagrange.c:10-23 *)
  Definition zIPVecLagrange (d : ipdata) (t : T) (v : vec) : res vec :=
    for_ 0 (zIPDataSize d) (fun i v =>
      p <- lag_prod d 1 t (fun j => (j =? i)%nat) ;;
      a <- ipva d i ;; zVecCatDRC v p a) (zVecZero v).
  (** zm_ip_lagrange.c:26-41 *)
  Definition zIPVelLagrange (d : ipdata) (t : T) (v : vec) : res vec :=
    for_ 0 (zIPDataSize d) (fun i => for_ (S i) (zIPDataSize d) (fun j v =>
      p <- lag_prod d 1 t (fun k => (k =? i)%nat || (k =? j)%nat) ;;
      a <- ipva d i ;; v <- zVecCatNCDRC v p a ;;
      a <- ipva d j ;; zVecCatNCDRC v p a)) (zVecZero v).
  (** zm_ip_lagrange.c:44-61 *)
  Definition zIPAccLagrange (d : ipdata) (t : T) (v : vec) : res vec :=
    for_ 0 (zIPDataSize d) (fun i => for_ (S i) (zIPDataSize d) (fun j => for_ (S j) (zIPDataSize d) (fun k v =>
      p <- lag_prod d (nz 2) t (fun l => (l =? i)%nat || (l =? j)%nat || (l =? k)%nat) ;;
      a <- ipva d i ;; v <- zVecCatNCDRC v p a ;;
      a <- ipva d j ;; v <- zVecCatNCDRC v p a ;;
      a <- ipva d k ;; zVecCatNCDRC v p a))) (zVecZero v).
  (** zm_ip_lagrange.c:64-73 *)
  Definition zIPSecVelLagrange (d : ipdata) (i : nat) (v : vec) : res vec := t <- zIPDataTime d i ;; zIPVelLagrange d t v.
  Definition zIPSecAccLagrange (d : ipdata) (i : nat) (v : vec) : res vec := t <- zIPDataTime d i ;; zIPAccLagrange d t v.

  (** ** cubic splines *)
  (** zm_ip_spline.c:12-17 *)
  Definition fb1 (t : T) := (nz 3 - nz 2 * t) * t * t.
  Definition fb2 (t : T) := (t - 1) * t * t.
  Definition fbv1 (t : T) := nz 6 * t * (1 - t).
  Definition fbv2 (t : T) := (nz 3 * t - nz 2) * t.
  Definition fba1 (t : T) := nz 6 * (1 - nz 2 * t).
  Definition fba2 (t : T) := nz 2 * (nz 3 * t - 1).
  (** zm_ip_spline.c:20-27 *)
  Definition zFergusonVal (t term x0 v0 x1 v1 : T) : T :=
    let dt2 := t / term in let dt1 := 1 - dt2 in
    fb1 dt1 * x0 + fb1 dt2 * x1 + term * (- fb2 dt1 * v0 + fb2 dt2 * v1).
  (** zm_ip_spline.c:30-81: the common frame of the three functions with their coefficients *)
  Definition spline_eval (k1 k2 k3 k4 : T -> T -> T -> T) (d : ipdata) (t : T) (v : vec) : res vec :=
    i <- zIPDataSeg d t ;;
    dt <- zIPDataDeltaTime d (i + 1) ;;
    t1 <- zIPDataTime d (i + 1) ;; t0 <- zIPDataTime d i ;;
    let dt1 := (t1 - t) / dt in let dt2 := (t - t0) / dt in
    x0 <- zIPDataSecVec d i ;; x1 <- zIPDataSecVec d (i + 1) ;;
    v0 <- ipva d i ;; v1 <- ipva d (i + 1) ;;
    v <- zVecCatDRC (zVecZero v) (k1 dt dt1 dt2) x0 ;;
    v <- zVecCatDRC v (k2 dt dt1 dt2) x1 ;;
    v <- zVecCatDRC v (k3 dt dt1 dt2) v0 ;;
    zVecCatDRC v (k4 dt dt1 dt2) v1.
  Definition zIPVecSpline := spline_eval (fun _ dt1 _ => fb1 dt1) (fun _ _ dt2 => fb1 dt2)
                                         (fun dt dt1 _ => - dt * fb2 dt1) (fun dt _ dt2 => dt * fb2 dt2).
  Definition zIPVelSpline := spline_eval (fun dt dt1 _ => - fbv1 dt1 / dt) (fun dt _ dt2 => fbv1 dt2 / dt)
                                         (fun _ dt1 _ => fbv2 dt1) (fun _ _ dt2 => fbv2 dt2).
  Definition zIPAccSpline := spline_eval (fun dt dt1 _ => fba1 dt1 / sqr dt) (fun dt _ dt2 => fba1 dt2 / sqr dt)
                                         (fun dt dt1 _ => - fba2 dt1 / dt) (fun dt _ dt2 => fba2 dt2 / dt).
  (** zm_ip_spline.c:84-88 *)
  Definition zIPSecVelSpline (d : ipdata) (i : nat) (v : vec) : res vec :=
    if (zIPDataSize d <=? i)%nat then Ok (zVecZero v) else a <- ipva d i ;; zVecCopyNC a v.
  (** zm_ip_spline.c:91-107 *)
  Definition zIPSecAccSpline (d : ipdata) (i : nat) (v : vec) : res vec :=
    let v := zVecZero v in
    if (zIPDataSize d <=? i)%nat then Ok v
    else if (i =? zIPDataSize d - 1)%nat then
      dt <- zIPDataDeltaTime d i ;;
      if (i =? 0)%nat then UB else
      x0 <- zIPDataSecVec d (i - 1) ;; x1 <- zIPDataSecVec d i ;; v1 <- ipva d i ;; v0 <- ipva d (i - 1) ;;
      v <- zVecCatNCDRC v (nz 6 / dt) x0 ;; v <- zVecCatNCDRC v (nz (-6) / dt) x1 ;;
      v <- zVecCatNCDRC v (nz (-4)) v1 ;; v <- zVecCatNCDRC v (nz (-2)) v0 ;;
      zVecDivDRC tol v dt
    else
      dt <- zIPDataDeltaTime d (i + 1) ;;
      x1 <- zIPDataSecVec d (i + 1) ;; x0 <- zIPDataSecVec d i ;; v0 <- ipva d i ;; v1 <- ipva d (i + 1) ;;
      v <- zVecCatNCDRC v (nz 6 / dt) x1 ;; v <- zVecCatNCDRC v (nz (-6) / dt) x0 ;;
      v <- zVecCatNCDRC v (nz (-4)) v0 ;; v <- zVecCatNCDRC v (nz (-2)) v1 ;;
      zVecDivDRC tol v dt.
  (** zm_ip_spline.c:110-139, 230-233 *)
  Definition zIPSplineCoeff (dat : ipdata) (i : nat) (a b c d : vec) : res (option (vec * vec * vec * vec)) :=
    w <- ipva dat 0 ;;
    if negb ((vlen w =? vlen a)%nat && (vlen w =? vlen b)%nat && (vlen w =? vlen c)%nat && (vlen w =? vlen d)%nat) then Ok None
    else
      dt1 <- zIPDataDeltaTime dat (i + 1) ;;
      let dt2 := sqr dt1 in let dt3 := dt1 * dt2 in
      x0 <- zIPDataSecVec dat i ;; x1 <- zIPDataSecVec dat (i + 1) ;;
      v0 <- ipva dat i ;; v1 <- ipva dat (i + 1) ;;
      c <- zVecSubC x0 x1 c ;;
      d <- zVecAddC v0 v1 d ;;
      a <- zVecMulNC c (nz 2 / dt3) a ;;
      a <- zVecCatNCDRC a (1 / dt2) d ;;
      b <- zVecMulNC c (nz (-3) / dt2) b ;;
      b <- zVecCatNCDRC b (nz (-1) / dt1) d ;;
      b <- zVecCatNCDRC b (nz (-1) / dt1) v0 ;;
      c <- zVecCopyNC v0 c ;;
      d <- zVecCopyC x0 d ;;
      Ok (Some (a, b, c, d)).

  (** zm_ip_spline.h: ZSPLINE_FIX_EDGE, ZSPLINE_FREE_EDGE, anything else *)
  Inductive etype := FixEdge (v : vec) | FreeEdge | BadEdge.
  (** zm_ip_spline.c:158-166: the three values set *)
  Definition free_edge (dat : ipdata) (iv j : nat) : res (T * T * T) :=
    dt <- zIPDataDeltaTime dat iv ;;
    if (iv =? 0)%nat then UB else
    x1 <- zIPDataSecVal dat iv j ;; x0 <- zIPDataSecVal dat (iv - 1) j ;;
    let r := 1 / dt in
    Ok (nz 2 * r, r, nz 3 * (x1 - x0) / sqr dt).
  (** zm_ip_spline.c:185-215: the tridiagonal equation of component i.  The work vectors are
      taken as cleared for every component: the elements that the solver destroys are all
      set again, but a[n-1], which the solver clears *)
  Definition spline_eq (dat : ipdata) (n i : nat) (e1 e2 : etype) : res (option (vec * vec * vec * vec)) :=
    '(a, b, c, d) <- for_ 1 (n - 1) (fun j st =>
      let '(a, b, c, d) := st in
      dt1 <- zIPDataDeltaTime dat j ;; dt2 <- zIPDataDeltaTime dat (j + 1) ;;
      let r1 := 1 / dt1 in let r2 := 1 / dt2 in
      a <- vset a j r1 ;; b <- vset b j (nz 2 * (r1 + r2)) ;; c <- vset c j r2 ;;
      let r1 := nz 3 / sqr dt1 in let r2 := nz 3 / sqr dt2 in
      x0 <- zIPDataSecVal dat (j - 1) i ;; x1 <- zIPDataSecVal dat j i ;; x2 <- zIPDataSecVal dat (j + 1) i ;;
      d <- vset d j (- x0 * r1 + x1 * (r1 - r2) + x2 * r2) ;;
      Ok (a, b, c, d)) (vzero n, vzero n, vzero n, vzero n) ;;
    st <- match e1 with
          | FixEdge v1 => b <- vset b 0 1 ;; x <- vget v1 i ;; d <- vset d 0 x ;; Ok (Some (a, b, c, d))
          | FreeEdge => '(p, q, r) <- free_edge dat 1 i ;;
                        b <- vset b 0 p ;; c <- vset c 0 q ;; d <- vset d 0 r ;; Ok (Some (a, b, c, d))
          | BadEdge => Ok None
          end ;;
    match st with
    | None => Ok None
    | Some (a, b, c, d) =>
        match e2 with
        | FixEdge v2 => b <- vset b (n - 1) 1 ;; x <- vget v2 i ;; d <- vset d (n - 1) x ;; Ok (Some (a, b, c, d))
        | FreeEdge => '(p, q, r) <- free_edge dat (n - 1) i ;;
                      a <- vset a (n - 1) p ;; b <- vset b (n - 1) q ;; d <- vset d (n - 1) r ;; Ok (Some (a, b, c, d))
        | BadEdge => Ok None
        end
    end.
  (** zm_ip_spline.c:169-227; [None]: false is answered.  v, the solution vector, keeps its
      former value when the solver fails *)
  Definition zIPCreateSpline (seq : list (T * vec)) (e1 e2 : etype) : res (option ipdata) :=
    dat <- zIPDataAlloc seq ;;
    let n := zIPDataSize dat in
    x0 <- zIPDataSecVec dat 0 ;;
    st <- forb 0 (vlen x0) (fun i st =>
      let '(dat, v) := st in
      o <- spline_eq dat n i e1 e2 ;;
      match o with
      | None => Ok (inr tt)
      | Some (a, b, c, d) =>
          s <- zLETridiagSolveDST a b c d v ;;
          let v := match s with Some x => x | None => v end in
          dat <- for_ 0 n (fun j dat => x <- vget v j ;; set_vae dat j i x) dat ;;
          Ok (inl (dat, v))
      end) (dat, vzero n) ;;
    match st with inl (dat, _) => Ok (Some dat) | inr _ => Ok None end.

  (** ** PCHIP *)
  (** zm_ip_spline.c:238-242 *)
  Definition zIPSecAccPCHIP (d : ipdata) (i : nat) (v : vec) : res vec :=
    x <- zIPDataSecVec d i ;; v <- zVecMulC x (nz (-6)) v ;;
    dt <- zIPDataDeltaTime d (i + 1) ;; a <- ipva d i ;; zVecCatDRC v (- dt * nz 4) a.
  (** zm_ip_spline.c:262-265 and alike: work vector i becomes a combination of three points *)
  Definition grad3 (d : ipdata) (i : nat) (k0 : T) (i0 : nat) (k1 : T) (i1 : nat) (k2 : T) (i2 : nat) : res ipdata :=
    va <- ipva d i ;;
    x0 <- zIPDataSecVec d i0 ;; x1 <- zIPDataSecVec d i1 ;; x2 <- zIPDataSecVec d i2 ;;
    va <- zVecCatDRC (zVecZero va) k0 x0 ;; va <- zVecCatDRC va k1 x1 ;; va <- zVecCatDRC va k2 x2 ;;
    set_va d i va.
  (** zm_ip_spline.c:254-283 *)
  Definition zIPInitPCHIP (d : ipdata) : res ipdata :=
    let n := (zIPDataSize d - 1)%nat in
    dt1 <- zIPDataDeltaTime d 1 ;; dt2 <- zIPDataDeltaTime d 2 ;;
    let dt3 := dt1 + dt2 in
    d <- grad3 d 0 (- (dt1 + dt3) / (dt1 * dt3)) 0 (dt3 / (dt1 * dt2)) 1 (- dt1 / (dt2 * dt3)) 2 ;;
    d <- for_ 1 n (fun i d =>
           dt1 <- zIPDataDeltaTime d i ;; dt2 <- zIPDataDeltaTime d (i + 1) ;;
           let dt3 := dt1 + dt2 in
           grad3 d i (- dt2 / (dt1 * dt3)) (i - 1) ((dt2 - dt1) / (dt1 * dt2)) i (dt1 / (dt2 * dt3)) (i + 1)) d ;;
    dt1 <- zIPDataDeltaTime d (n - 1) ;; dt2 <- zIPDataDeltaTime d n ;;
    let dt3 := dt1 + dt2 in
    grad3 d n (dt2 / (dt1 * dt3)) (n - 2) (- dt3 / (dt1 * dt2)) (n - 2) ((dt2 + dt3) / (dt2 * dt3)) n.
  (** zm_ip_spline.c:294-306 *)
  Definition pchip_step (i j : nat) (dat : ipdata) : res ipdata :=
    x1 <- zIPDataSecVal dat (i + 1) j ;; x0 <- zIPDataSecVal dat i j ;; dt <- zIPDataDeltaTime dat (i + 1) ;;
    let d := (x1 - x0) / dt in
    if is_tol tol d then dat <- set_vae dat i j 0 ;; set_vae dat (i + 1) j 0
    else
      v0 <- ipvae dat i j ;; v1 <- ipvae dat (i + 1) j ;;
      let a := v0 / d in let b := v1 / d in
      let l := ssqrt (a * a + b * b) in
      if sle (nz 3) l then
        dat <- set_vae dat i j (a * d * nz 3 / l) ;; set_vae dat (i + 1) j (b * d * nz 3 / l)
      else Ok dat.
  (** zm_ip_spline.c:286-308 *)
  Definition zIPModifyPCHIP (d : ipdata) : res ipdata :=
    x0 <- zIPDataSecVec d 0 ;;
    for_ 0 (zIPDataSize d - 1) (fun i => for_ 0 (vlen x0) (fun j => pchip_step i j)) d.
  (** zm_ip_spline.c:311-318 *)
  Definition zIPCreatePCHIP (seq : list (T * vec)) : res ipdata :=
    d <- zIPDataAlloc seq ;; d <- zIPInitPCHIP d ;; zIPModifyPCHIP d.

  (** ** Akima interpolation *)
  (** zm_ip_akima.c:10-23 *)
  Definition zIPVecAkima (dat : ipdata) (t : T) (v : vec) : res vec :=
    i <- zIPDataSeg dat t ;;
    d <- zIPDataDeltaTime dat (i + 1) ;; ti <- zIPDataTime dat i ;;
    let d2 := sqr d in let dt := t - ti in let dt2 := sqr dt in
    x1 <- zIPDataSecVec dat (i + 1) ;; x0 <- zIPDataSecVec dat i ;;
    v0 <- ipva dat i ;; v1 <- ipva dat (i + 1) ;;
    v <- zVecSubNC x1 x0 v ;;
    v <- zVecMulDRC v (dt2 * (nz 3 - nz 2 * dt / d) / d2) ;;
    v <- zVecCatNCDRC v (dt * (1 - nz 2 * dt / d + dt2 / d2)) v0 ;;
    v <- zVecCatNCDRC v (dt2 * (dt / d - 1) / d) v1 ;;
    zVecAddNC v x0 v.
  (** zm_ip_akima.c:26-39 *)
  Definition zIPVelAkima (dat : ipdata) (t : T) (v : vec) : res vec :=
    i <- zIPDataSeg dat t ;;
    d <- zIPDataDeltaTime dat (i + 1) ;; ti <- zIPDataTime dat i ;;
    let dt := (t - ti) / d in
    x1 <- zIPDataSecVec dat (i + 1) ;; x0 <- zIPDataSecVec dat i ;;
    v0 <- ipva dat i ;; v1 <- ipva dat (i + 1) ;;
    v <- zVecSubNC x1 x0 v ;;
    v <- zVecMulDRC v (nz 6 * dt * (1 - dt) / d) ;;
    v <- zVecCatNCDRC v (1 - nz 4 * dt + nz 3 * sqr dt) v0 ;;
    zVecCatNCDRC v (dt * (nz 3 * dt - nz 2)) v1.
  (** zm_ip_akima.c:42-55 *)
  Definition zIPAccAkima (dat : ipdata) (t : T) (v : vec) : res vec :=
    i <- zIPDataSeg dat t ;;
    d <- zIPDataDeltaTime dat (i + 1) ;; ti <- zIPDataTime dat i ;;
    let d2 := sqr d in let dt := t - ti in
    x1 <- zIPDataSecVec dat (i + 1) ;; x0 <- zIPDataSecVec dat i ;;
    v0 <- ipva dat i ;; v1 <- ipva dat (i + 1) ;;
    v <- zVecSubNC x1 x0 v ;;
    v <- zVecMulDRC v (nz 6 * (1 - nz 2 / d * dt) / d2) ;;
    v <- zVecCatNCDRC v (nz 6 / d2 * dt - nz 4 / d) v0 ;;
    zVecCatNCDRC v (nz 6 / d2 * dt - nz 2 / d) v1.
  (** zm_ip_akima.c:58-62 *)
  Definition zIPSecVelAkima (d : ipdata) (i : nat) (v : vec) : res vec :=
    if (zIPDataSize d <=? i)%nat || (i =? 0)%nat then Ok (zVecZero v) else a <- ipva d i ;; zVecCopyNC a v.
  (** zVecElem: 0 outside *)
  Definition zVecElem (m : vec) (j : nat) : T := if (j <? vlen m)%nat then vel m j else 0.
  (** zm_ip_akima.c:147-156 *)
  Definition zIPAkimaWeight (m : vec) (j : nat) : T := sabs (zVecElem m (j + 1) - zVecElem m j).
  Definition zIPModifiedAkimaWeight (m : vec) (j : nat) : T :=
    sabs (zVecElem m (j + 1) - zVecElem m j) + half * sabs (zVecElem m (j + 1) + zVecElem m j).
  (** zm_ip_akima.c:113-144 *)
  Definition zIPCreateAkimaW (weight : vec -> nat -> T) (seq : list (T * vec)) : res ipdata :=
    dat <- zIPDataAlloc seq ;;
    let n := zIPDataSize dat in
    x0 <- zIPDataSecVec dat 0 ;;
    st <- for_ 0 (vlen x0) (fun i st =>
      let '(dat, m) := st in
      m <- for_ 2 (S n) (fun j m =>
             x1 <- zIPDataSecVal dat (j - 1) i ;; x0 <- zIPDataSecVal dat (j - 2) i ;;
             dt <- zIPDataDeltaTime dat (j - 1) ;; vset m j ((x1 - x0) / dt)) m ;;
      m <- vset m 0 (nz 3 * zVecElem m 2 - nz 2 * zVecElem m 3) ;;
      m <- vset m 1 (nz 2 * zVecElem m 2 - zVecElem m 3) ;;
      m <- vset m (n + 1) (nz 2 * zVecElem m n - nz 2 * zVecElem m (n - 1)) ;;
      m <- vset m (n + 2) (nz 3 * zVecElem m n - zVecElem m (n - 1)) ;;
      dat <- for_ 0 n (fun j dat =>
               let dm1 := weight m j in let dm2 := weight m (j + 2)%nat in
               set_vae dat j i (if is_tol tol dm1 && is_tol tol dm2 then half * (dm1 + dm2)
                                else (dm2 * zVecElem m (j + 1) + dm1 * zVecElem m (j + 2)) / (dm1 + dm2))) dat ;;
      Ok (dat, m)) (dat, vzero (n + 3)) ;;
    Ok (fst st).
  (** zm_ip_akima.c:159-168 *)
  Definition zIPCreateAkima := zIPCreateAkimaW zIPAkimaWeight.
  Definition zIPCreateModifiedAkima := zIPCreateAkimaW zIPModifiedAkimaWeight.
End IP.
Arguments ipdata T : clear implicits.
Arguments etype T : clear implicits.
Arguments ext T : clear implicits.
