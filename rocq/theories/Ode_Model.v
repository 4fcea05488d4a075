(** Model of the numerical integrators: src/zm_intg.c (quadrature of a sampled signal), src/zm_ode*.c
    (solvers of x' = f(t,x)) and src/zm_ode2.c (solvers of x'' = f(t,x,v)).

    The user's right-hand side [f( t, x, util, dx )] is a function of (t, x) here.  [cat( x, dt, dx, xn, util )]
    and [sub( x1, x2, dx, util )] are parameters, as in the code where the user may supply them;
    [dcat] and [dsub] are the defaults.  All vectors of a solver have the size [dim] given at its
    creation, so the element loops cannot leave them.  Workspaces are values (aliasing of [x] and
    [xn] is harmless for elementwise operations).  zVecRing of ZEDA is a list whose first
    element is the head.  Allocation is assumed to succeed. *)
From Verif Require Import Prelude Scalar Fmat Misc_Model.

Section Intg.
  Context {T : Type} {ST : Scalar T}.
  Local Open Scope S_scope.
  Local Notation half := (1 / sofZ 2%Z).
  (** include/zm/zm_intg.h: zIntg *)
  Record intg := Intg { ig_s : T; ig_x0 : T; ig__dt : T; ig__x : T }.
  (** zm_intg.c:12-19 *)
  Definition zIntgInit (s0 x0 : T) : intg := Intg s0 x0 0 0.
  (** zm_intg.c:24-29; the returned value is [ig_s] of the new state *)
  Definition zIntgRect (g : intg) (x dt : T) : intg :=
    Intg (ig_s g + ig_x0 g * dt) x (ig__dt g) (ig__x g).
  (** zm_intg.c:34-39 *)
  Definition zIntgTR (g : intg) (x dt : T) : intg :=
    Intg (ig_s g + half * (ig_x0 g + x) * dt) x (ig__dt g) (ig__x g).
  (** zm_intg.c:44-62 *)
  Definition zIntgQuad (g : intg) (x dt : T) : intg :=
    if seq (ig__dt g) 0 then zIntgTR (Intg (ig_s g) (ig_x0 g) dt (ig_x0 g)) x dt
    else
      let d := dt + ig__dt g in
      let a := dt / (sofZ 6%Z * ig__dt g) + half in
      let b := (dt / sofZ 3%Z + half * ig__dt g) / d in
      let c := - dt * dt / (sofZ 6%Z * ig__dt g * d) in
      Intg (ig_s g + (ig_x0 g * a + x * b + ig__x g * c) * dt) x dt (ig_x0 g).
End Intg.
Arguments intg : clear implicits.

Section Ode.
  Context {T : Type} {ST : Scalar T}.
  Local Open Scope S_scope.
  Local Notation half := (1 / sofZ 2%Z).
  Local Notation nz z := (sofZ z%Z).
  Local Notation nat_ n := (sofZ (Z.of_nat n)).
  Local Notation fr a b := (sofZ a%Z / sofZ b%Z).
  Context {V : Type}.
  Variable f : T -> V -> V.             (** ode->f *)
  Variable cat : V -> T -> V -> V.      (** ode->cat( x, dt, dx ) *)
  Variable sub : V -> V -> V.           (** ode->sub( x1, x2 ) *)
  Variable vcat : V -> T -> V -> V.     (** zVecCatNC( v, k, w ) *)
  Variable vmul : V -> T -> V.          (** zVecMulNC( v, k ) *)
  Variable dist : V -> V -> T.          (** zVecDist *)

  (** zm_ode_euler.c:29-33 *)
  Definition zODEUpdateEuler (t : T) (x : V) (dt : T) : V := cat x dt (f t x).

  (** zm_ode_heun.c:44-58 *)
  Definition zODEUpdateHeun (t : T) (x : V) (dt : T) : V :=
    let k0 := f t x in
    let k1 := f (t + dt / nz 3) (cat x (dt / nz 3) k0) in
    let k2 := f (t + dt * nz 2 / nz 3) (cat x (dt * nz 2 / nz 3) k1) in
    let x := cat x (fr 1 4 * dt) k0 in
    cat x (fr 3 4 * dt) k2.

  (** zm_ode_rk4.c:45-67 *)
  Definition zODEUpdateRK4 (t : T) (x : V) (dt : T) : V :=
    let dt1 := dt * half in
    let dt2 := dt / nz 6 in
    let dt3 := dt2 * nz 2 in
    let k0 := f t x in
    let k1 := f (t + dt1) (cat x dt1 k0) in
    let k2 := f (t + dt1) (cat x dt1 k1) in
    let k3 := f (t + dt) (cat x dt k2) in
    let x := cat x dt2 k0 in
    let x := cat x dt3 k1 in
    let x := cat x dt3 k2 in
    cat x dt2 k3.

  (** zm_ode_rkg.c:43-76; the vectors u and v of the workspace are combined with zVecMulNCDRC and
      zVecCatNCDRC, not with the user's [cat] *)
  Definition zODEUpdateRKG (t : T) (x : V) (dt : T) : V :=
    let r2 := ssqrt (nz 2) in
    let c1 := 1 - half * r2 in
    let c2 := 1 + half * r2 in
    let dt1 := half * dt in
    let dt2 := c1 * dt in
    let dt3 := c2 * dt in
    let u := f t x in
    let x := cat x dt1 u in
    let v := u in
    let u := f (t + dt1) x in
    let x := cat x dt2 u in
    let x := cat x (- dt2) v in
    let v := vmul v (half * (nz 3 * r2 - nz 4)) in
    let v := vcat v (nz 2 * c1) u in
    let u := f (t + dt1) x in
    let x := cat x dt3 u in
    let x := cat x (- dt3) v in
    let v := vmul v (- half * (nz 3 * r2 + nz 4)) in
    let v := vcat v (nz 2 * c2) u in
    let u := f (t + dt) x in
    let x := cat x (dt / nz 6) u in
    cat x (- dt / nz 3) v.

  (** zm_ode_erk.c:66-72: the stage derivatives; [a] is walked through with the index [l] *)
  Definition erk_stages (s : nat) (a c : list T) (t : T) (x : V) (dt : T) : res (list V) :=
    '(ks, _) <- for_ 1 s (fun i st =>
        let '(ks, l) := st in
        '(xc, l) <- for_ 0 i (fun j xl =>
            let '(xc, l) := xl in
            al <- get a l ;; kj <- get ks j ;;
            Ok (cat xc (al * dt) kj, S l)) (x, l) ;;
        ci <- get c (i - 1) ;;
        Ok (ks ++ [f (t + ci * dt) xc], l)) ([f t x], 0%nat) ;;
    Ok ks.
  (** zm_ode_erk.c:73-78: [x] advanced with the weights [b] *)
  Definition erk_sum (s : nat) (b : list T) (ks : list V) (x : V) (dt : T) : res V :=
    for_ 0 s (fun i y => bi <- get b i ;; ki <- get ks i ;; Ok (cat y (bi * dt) ki)) x.
  (** ZODE_ERK_TOL, ZODE_ERK_DT_TOL, zm_ode_erk.c:10-11 *)
  Definition ERK_TOL : T := fr 1 1000000.
  Definition ERK_DT_TOL : T := fr 1 100000000.
  (** zm_ode_erk.c:60-86; the recursion is bounded by [fuel] *)
  Fixpoint _zODEUpdateERK (fuel s : nat) (a bc bf c : list T) (t : T) (x : V) (dt : T) : res V :=
    match fuel with
    | O => UB
    | S fuel =>
        ks <- erk_stages s a c t x dt ;;
        xc <- erk_sum s bc ks x dt ;;
        xf <- erk_sum s bf ks x dt ;;
        if slt ERK_DT_TOL dt && slt ERK_TOL (dist xc xf) then
          let dt := dt * half in
          x <- _zODEUpdateERK fuel s a bc bf c t x dt ;;
          _zODEUpdateERK fuel s a bc bf c (t + dt) x dt
        else Ok xf
    end.
  (** zm_ode_erk.c:102-111 *)
  Definition rkf_a : list T :=
    [ fr 1 4;
      fr 3 32; fr 9 32;
      fr 1932 2197; fr (-7200) 2197; fr 7296 2197;
      fr 439 216; nz (-8); fr 3680 513; fr (-845) 4104;
      fr (-8) 27; nz 2; fr (-3544) 2565; fr 1859 4104; fr (-11) 40 ].
  Definition rkf_b4 : list T := [ fr 25 216; 0; fr 1408 2565; fr 2197 4104; fr (-1) 5; 0 ].
  Definition rkf_b5 : list T := [ fr 16 135; 0; fr 6656 12825; fr 28561 56430; fr (-9) 50; fr 2 55 ].
  Definition rkf_c : list T := [ fr 1 4; fr 3 8; fr 12 13; 1; fr 1 2 ].
  (** zm_ode_erk.c:130-139 *)
  Definition ck_a : list T :=
    [ fr 1 5;
      fr 3 40; fr 9 40;
      fr 3 10; fr (-9) 10; fr 6 5;
      fr (-11) 54; fr 5 2; fr (-70) 27; fr 35 27;
      fr 1631 55296; fr 175 512; fr 575 13824; fr 44275 110592; fr 253 4096 ].
  Definition ck_b4 : list T := [ fr 37 378; 0; fr 250 621; fr 125 594; 0; fr 512 1771 ].
  Definition ck_b5 : list T := [ fr 2825 27648; 0; fr 18575 48384; fr 13525 55296; fr 277 14336; fr 1 4 ].
  Definition ck_c : list T := [ fr 1 5; fr 3 10; fr 3 5; 1; fr 7 8 ].
  (** zm_ode_erk.c:158-170 *)
  Definition dp_a : list T :=
    [ fr 1 5;
      fr 3 40; fr 9 40;
      fr 44 45; fr (-56) 15; fr 32 9;
      fr 19372 6561; fr (-25360) 2187; fr 64448 6561; fr (-212) 729;
      fr 9017 3168; fr (-355) 33; fr 46732 5247; fr 49 176; fr (-5103) 18656;
      fr 35 384; 0; fr 500 1113; fr 125 192; fr (-2187) 6784; fr 11 84 ].
  Definition dp_b4 : list T :=
    [ fr 5179 57600; 0; fr 7571 16695; fr 393 640; fr (-92097) 339200; fr 187 2100; fr 1 40 ].
  Definition dp_b5 : list T :=
    [ fr 35 384; 0; fr 500 1113; fr 125 192; fr (-2187) 6784; fr 11 84; 0 ].
  Definition dp_c : list T := [ fr 1 5; fr 3 10; fr 4 5; fr 8 9; 1; 1 ].
  (** zm_ode_erk.c:100-114, 128-142, 156-173; step numbers from 90-93, 118-121, 146-149 *)
  Definition zODEUpdateRKF45 (fuel : nat) := _zODEUpdateERK fuel 6 rkf_a rkf_b4 rkf_b5 rkf_c.
  Definition zODEUpdateCK45 (fuel : nat) := _zODEUpdateERK fuel 6 ck_a ck_b4 ck_b5 ck_c.
  Definition zODEUpdateDP45 (fuel : nat) := _zODEUpdateERK fuel 7 dp_a dp_b4 dp_b5 dp_c.

  (** [solve r x] is the content of the variable vector after zNLESolve on the residual function [r]
      from [x], whatever the outcome: the solvers below ignore the returned value *)
  Variable solve : (V -> V) -> V -> V.
  (** zm_ode_beuler.c:22-30; [x0] is ws->x *)
  Definition _zODE_BEuler_Func (t dt : T) (x0 x : V) : V := cat (sub x x0) (- dt) (f t x).
  (** zm_ode_beuler.c:64-75 *)
  Definition zODEUpdateBEuler (t : T) (x : V) (dt : T) : V :=
    solve (_zODE_BEuler_Func (t + dt) dt x) x.
  (** zm_ode_beuler.c:80-93 *)
  Definition zODEUpdateTR (t : T) (x : V) (dt : T) : V :=
    let dt' := half * dt in
    solve (_zODE_BEuler_Func (t + dt) dt' (cat x dt' (f t x))) x.

  (** [solve2]: the same on ws->k, seen as the pair of its halves ws->k1, ws->k2.  _zODE_BK4_Func reads
      ws->k instead of its argument; the solver evaluates it on ws->k itself. *)
  Variable solve2 : (V * V -> V * V) -> V * V -> V * V.
  Variable zero : V.                    (** zVecZero *)
  (** zm_ode_bk4.c:22-44 *)
  Definition _zODE_BK4_Func (t1 t2 a11 a12 a21 a22 : T) (x : V) (k : V * V) : V * V :=
    let xt := cat x a11 (fst k) in
    let xt := cat xt a12 (snd k) in
    let y1 := sub (fst k) (f t1 xt) in
    let xt := cat x a21 (fst k) in
    let xt := cat xt a22 (snd k) in
    let y2 := sub (snd k) (f t2 xt) in
    (y1, y2).
  (** zm_ode_bk4.c:82-103 *)
  Definition zODEUpdateGauss (t : T) (x : V) (dt : T) : V :=
    let bk4_c := ssqrt (nz 3) / nz 6 in
    let t1 := t + (half + bk4_c) * dt in
    let t2 := t + (half - bk4_c) * dt in
    let a11 := fr 1 4 * dt in
    let a12 := (fr 1 4 + bk4_c) * dt in
    let a21 := (fr 1 4 - bk4_c) * dt in
    let dt' := dt * half in
    let k := solve2 (_zODE_BK4_Func t1 t2 a11 a12 a21 a11 x) (zero, zero) in
    let x := cat x dt' (fst k) in
    cat x dt' (snd k).
  (** zm_ode_bk4.c:106-124 *)
  Definition zODEUpdateRadau (t : T) (x : V) (dt : T) : V :=
    let t1 := t + dt / nz 3 in
    let t2 := t + dt in
    let a12 := fr (-1) 12 * dt in
    let a11 := nz (-5) * a12 in
    let a22 := fr 1 4 * dt in
    let a21 := nz 3 * a22 in
    let k := solve2 (_zODE_BK4_Func t1 t2 a11 a12 a21 a22 x) (zero, zero) in
    let x := cat x a21 (fst k) in
    cat x a22 (snd k).

  (** zRingDecHead, zRingIncHead of ZEDA on a list whose first element is the head *)
  Definition ringdec {A} (h : list A) : list A :=
    match rev h with [] => [] | z :: r => z :: rev r end.
  Definition ringinc {A} (h : list A) : list A :=
    match h with [] => [] | z :: r => r ++ [z] end.

  (** zm_ode_gear.c:41-51 *)
  Definition gear_a : list (list T) :=
    [ [ nz (-1); 0; 0; 0; 0; 0 ];
      [ fr (-4) 3; fr 1 3; 0; 0; 0; 0 ];
      [ fr (-18) 11; fr 9 11; fr (-2) 11; 0; 0; 0 ];
      [ fr (-48) 25; fr 36 25; fr (-16) 25; fr 3 25; 0; 0 ];
      [ fr (-300) 137; fr 300 137; fr (-200) 137; fr 75 137; fr (-12) 137; 0 ];
      [ fr (-120) 49; fr 150 49; fr (-400) 147; fr 75 49; fr (-24) 49; fr 10 147 ] ].
  Definition gear_b : list T := [ 1; fr 2 3; fr 6 11; fr 12 25; fr 60 137; fr 20 49 ].
  Record gear := Gear { gr_a : list T; gr_b : T; gr_hist : list V }.
  (** zm_ode_gear.c:38-76; the history consists of zero vectors until zODEInitHistoryGear *)
  Definition zODECreateGear (step : nat) : res gear :=
    let step := if (step <? 1)%nat then 1%nat else if (6 <? step)%nat then 6%nat else step in
    row <- get gear_a (step - 1) ;;
    b <- get gear_b (step - 1) ;;
    Ok (Gear (firstn step row) b (repeat zero step)).
  (** zm_ode_gear.c:92-95 *)
  Definition zODEInitHistoryGear (g : gear) (x : V) : gear :=
    Gear (gr_a g) (gr_b g) (repeat x (length (gr_hist g))).
  (** zm_ode_gear.c:21-35.  The loop passes [util] (the solver) and not [ws->util] to the user's [cat];
      the model has no such argument. *)
  Definition _zODE_Gear_Func (g : gear) (t dt : T) (x : V) : res V :=
    y <- for_ 0 (length (gr_a g)) (fun i y =>
           ai <- get (gr_a g) i ;; hi <- get (gr_hist g) i ;; Ok (cat y ai hi)) x ;;
    Ok (cat y (- gr_b g * dt) (f (t + dt) x)).
  (** zm_ode_gear.c:98-110; [solver] is [solve] on a residual function that may be undefined *)
  Definition zODEUpdateGear (solver : (V -> res V) -> V -> V) (g : gear) (t : T) (x : V) (dt : T)
      : res (gear * V) :=
    match gr_hist g with
    | [] => UB
    | _ :: h =>
        let g' := Gear (gr_a g) (gr_b g) (x :: h) in
        let x := solver (_zODE_Gear_Func g' t dt) x in
        Ok (Gear (gr_a g) (gr_b g) (ringdec (gr_hist g')), x)
    end.

  (** zm_ode_adams.c:41-61; [w] is a new zero vector.  An empty vector has no element 0. *)
  Definition _zODESetWeightAdams (step : nat) (g0 : T) : res (fvec T) :=
    g <- vset (FV step (fun _ => 0)) 0 1 ;;
    g <- for_ 1 step (fun i g =>
           g <- vset g i g0 ;;
           for_ 1 (S i) (fun j g =>
             y <- vget g (i - j) ;; vmod g i (fun x => x - y / nat_ (S j))) g) g ;;
    for_ 0 step (fun i w =>
      w <- for_ i step (fun j w =>
             y <- vget g j ;; vmod w i (fun x => x + zCombination (Z.of_nat j) (Z.of_nat i) * y)) w ;;
      if Nat.odd i then vmod w i (fun x => - x) else Ok w) (FV step (fun _ => 0)).
  (** zm_vec_ring.c:50-68 *)
  Definition zVecRingLinearSum (w : fvec T) (h : list V) : res V :=
    for_ 0 (vlen w) (fun i v => wi <- vget w i ;; hi <- get h i ;; Ok (vcat v wi hi)) zero.
  (** zm_ode_adams.c:64-72: the new history and x + dt * sum of w_i hist_i *)
  Definition _zODEUpdateAdams (t : T) (x xorg : V) (w : fvec T) (dt : T) (h : list V) : res (list V * V) :=
    match h with
    | [] => UB
    | _ :: r =>
        let h := f t xorg :: r in
        dx <- zVecRingLinearSum w h ;;
        Ok (h, cat x dt dx)
    end.
  (** zm_ode_adams.c:117-121: the corrector loop, [i] iterations left; the new history and
      the vector called [xnew] at its end *)
  Fixpoint adams_corr (tol : T) (i : nat) (t2 : T) (x xold xnew : V) (wm : fvec T) (dt : T) (h : list V)
      : res (list V * V) :=
    match i with
    | O => Ok (h, xnew)
    | S i =>
        '(h, xnew) <- _zODEUpdateAdams t2 x xold wm dt h ;;
        if is_tol tol (dist xold xnew) then Ok (h, xnew)
        else adams_corr tol i t2 x xnew xold wm dt h
    end.
  (** zm_ode_adams.c:100-127.  [iter] is the bound set by ZITERINIT; ws->x2, which is returned
      if no iteration is made, is [x2] *)
  Definition zODEUpdateAdams (tol : T) (iter : nat) (wb wm : fvec T) (h : list V) (x2 : V) (t : T) (x : V) (dt : T)
      : res (list V * V) :=
    '(h, xold) <- _zODEUpdateAdams t x x wb dt (ringdec h) ;;
    '(h, xnew) <- adams_corr tol iter (t + dt) x xold x2 wm dt (ringdec h) ;;
    Ok (ringinc h, xnew).

  (** zm_ode_dc.c:32-51; [upd] is zODEUpdate, a stateless method; bounded by [fuel] *)
  Definition DC_TOL : T := fr 1 1000000.
  Fixpoint zODEUpdateDC (upd : T -> V -> T -> V) (fuel : nat) (t : T) (x : V) (dt : T) : res V :=
    match fuel with
    | O => UB
    | S fuel =>
        let x1 := upd t x dt in
        let dt := dt * half in
        let x2 := upd t x dt in
        let x2 := upd (t + dt) x2 dt in
        if slt DC_TOL (dist x1 x2) then
          x <- zODEUpdateDC upd fuel t x dt ;;
          zODEUpdateDC upd fuel (t + dt) x dt
        else Ok (sub (vmul x2 (nz 2)) x1)
    end.
End Ode.
Arguments gear : clear implicits.

Section Ode2.
  Context {T : Type} {ST : Scalar T}.
  Local Open Scope S_scope.
  Local Notation half := (1 / sofZ 2%Z).
  Local Notation vec := (fvec T).
  (** _zODECatDefault, _zODESubDefault (zm_ode.c:10-19) on vectors of one size; zVecCatNC, zVecMulNC,
      zVecZero, zVecDist *)
  Definition dcat (x : vec) (k : T) (y : vec) : vec := FV (vlen x) (fun i => vel x i + vel y i * k).
  Definition dsub (x y : vec) : vec := FV (vlen x) (fun i => vel x i - vel y i).
  Definition dmul (x : vec) (k : T) : vec := FV (vlen x) (fun i => vel x i * k).
  Definition dzero (n : nat) : vec := FV n (fun _ => 0).
  Fixpoint dsum (n : nat) (g : nat -> T) : T := match n with O => 0 | S n => dsum n g + g n end.
  Definition ddist (x y : vec) : T :=
    ssqrt (dsum (vlen x) (fun i => (vel x i - vel y i) * (vel x i - vel y i))).

  Variable f : T -> vec -> vec -> vec.          (** ode->f( t, x, v ) *)
  Variable cat_dis cat_vel : vec -> T -> vec -> vec.
  Variable sub_dis sub_vel : vec -> vec -> vec.
  (** the halves of a vector of 2n elements, and their concatenation *)
  Definition lo (y : vec) : vec := FV (vlen y / 2) (vel y).
  Definition hi (y : vec) : vec := FV (vlen y / 2) (fun i => vel y (i + vlen y / 2)%nat).
  Definition join (x v : vec) : vec :=
    FV (vlen x + vlen v) (fun i => if (i <? vlen x)%nat then vel x i else vel v (i - vlen x)%nat).
  (** zm_ode2.c:45-57 *)
  Definition _zODE2RegularFunc (t : T) (y : vec) : vec := join (hi y) (f t (lo y) (hi y)).
  (** zm_ode2.c:60-75, 78-93 *)
  Definition _zODE2Cat (y : vec) (dt : T) (dy : vec) : vec :=
    join (cat_dis (lo y) dt (lo dy)) (cat_vel (hi y) dt (hi dy)).
  Definition _zODE2Sub (y1 y2 : vec) : vec :=
    join (sub_dis (lo y1) (lo y2)) (sub_vel (hi y1) (hi y2)).
  (** zm_ode2.c:96-104; [upd] is the update of the first-order solver of _zODE2RegularFunc *)
  Definition zODE2UpdateRegular (upd : T -> vec -> T -> vec) (t : T) (x v : vec) (dt : T) : vec * vec :=
    let y := upd t (join x v) dt in (lo y, hi y).
  (** zm_ode2.c:127-132 *)
  Definition zODE2UpdateSymplectic (t : T) (x v : vec) (dt : T) : vec * vec :=
    let a := f t x v in
    let v := cat_vel v dt a in
    let x := cat_dis x dt v in
    (x, v).
  (** zm_ode2.c:152-155: the half-step velocity ode->_v *)
  Definition zODE2InitHistoryLeapfrog (x v : vec) (dt : T) : vec := v.
  (** zm_ode2.c:165-175: new ode->_v, x and v *)
  Definition zODE2UpdateLeapfrog (_v : vec) (t : T) (x v : vec) (dt : T) : vec * vec * vec :=
    let a := f t x v in
    let _v := cat_vel _v dt a in
    let x := cat_dis x dt _v in
    let a := f t x _v in
    let v := cat_vel _v (half * dt) a in
    (_v, x, v).
End Ode2.
