(** Model of src/zm_opt_dm.c (descent methods for unconstrained optimisation).  The objective [eval] and the optional
    user functions [grad], [hess] are pure; the user pointer is part of them.  [ztol] is zTOL, [eps] is Z_OPT_EPS
    (zm_opt.h:19).  [isnan], [isinf] are zIsNan, zIsInf.  Vectors and matrices are at the value level.  A loop that the code does not bound is
    given a fuel; None as a result says that the fuel was used up.  Allocation is assumed to succeed. *)
From Verif Require Import Prelude Scalar Fmat LE_Model IP_Model Vop Root_Model Asm_Model.

Section Dm.
  Context {T : Type} {ST : Scalar T}.
  Local Open Scope S_scope.
  Local Notation vec := (fvec T).
  Local Notation mat := (fmat T).
  Local Notation half := (sofZ 1 / sofZ 2).
  Variable ztol eps : T.
  Variable isnan isinf : T -> bool.
  Variable eval : vec -> T.
  Variable grad : option (vec -> vec).
  Variable hess : option (vec -> mat).
  Variable scale : T.

  (** zm_opt_dm.c:14-29: the variables are restored; both are returned *)
  Definition _zOptDMGradNG (var g : vec) : res (vec * vec) :=
    for_ 0 (vlen var) (fun i '(var, g) =>
      org <- vget var i ;;
      var <- vset var i (org + eps) ;;
      let adv := eval var in
      var <- vset var i (org - eps) ;;
      let prv := eval var in
      g <- vset g i (half * (adv - prv) / eps) ;;
      var <- vset var i org ;;
      Ok (var, g)) (var, g).
  (** zm_opt_dm.c:11-13, 343: a user function fills the vector given to it *)
  Definition _grad (var g : vec) : res vec :=
    match grad with Some f => Ok (f var) | None => rmap (fun o => store (snd o)) (_zOptDMGradNG var g) end.
  (** zm_opt_dm.c:36-63 *)
  Definition _zOptDMHessNG (var : vec) (h : mat) : res (vec * mat) :=
    o <- for_ 0 (vlen var) (fun i '(var, h) =>
           org <- vget var i ;;
           var <- vset var i (org + eps) ;;
           adg <- _grad var (zvec (vlen var)) ;;
           var <- vset var i (org - eps) ;;
           prg <- _grad var (zvec (vlen var)) ;;
           h <- for_ 0 (nr h) (fun j h => a <- vget adg j ;; p <- vget prg j ;; mset h i j (a - p)) h ;;
           var <- vset var i org ;;
           Ok (var, h)) (var, h) ;;
    let '(var, h) := o in
    Ok (var, FM (nr h) (nc h) (fun i j => el h i j * (half / eps))).
  Definition _hess (var : vec) (h : mat) : res mat :=
    match hess with Some f => Ok (f var) | None => rmap (fun o => mstore (snd o)) (_zOptDMHessNG var h) end.

  (** include/zm/zm_opt_dm.h:25-44, the members that change during the iteration *)
  Record dm := DM { dx : vec; dd : vec; dg : vec; dp : vec; dq : vec; dr : vec; dh : mat; didx : list nat; db : T }.

  (** zm_stat.c:131-143 *)
  Definition zVecElemAbsMax (v : vec) : res T :=
    x <- vget v 0 ;; for_ 1 (vlen v) (fun i m => y <- vget v i ;; Ok (if slt m (sabs y) then sabs y else m)) (sabs x).
  (** zm_opt_dm.c:67-84: the state of the loop is a, _p, _x and the value at _x.  What zVecMulNC and zVecAddNC store has
      the size of the destinations *)
  Record trial := TR { ta : T; tp : vec; tx : vec; te : T }.
  Definition try_point (var d : vec) (s : trial) : res trial :=
    p <- zVecMulNC d (- ta s) (tp s) ;;
    let p := store p in
    x <- zVecAddNC var p (tx s) ;;
    let x := store x in
    Ok (TR (ta s) p x (eval x)).
  Fixpoint _zOptDMStepTest (fuel : nat) (var d : vec) (e0 df : T) (s : trial) : res (option (bool * trial)) :=
    match fuel with
    | O => Ok None
    | S fuel =>
        if slt ztol (ta s) then
          s <- try_point var d s ;;
          if isinf (te s) || isnan (te s) then _zOptDMStepTest fuel var d e0 df (TR (ta s * (sofZ 1 / sofZ 10)) (tp s) (tx s) (te s))
          else
            max <- zVecElemAbsMax (tp s) ;;
            if slt scale max then _zOptDMStepTest fuel var d e0 df (TR (ta s * (scale / max)) (tp s) (tx s) (te s))
            else Ok (Some (sle (ta s * df) (e0 - te s), s))
        else Ok (Some (sle (ta s * df) (e0 - te s), s))
    end.
  (** the common end of the line searches: zm_opt_dm.c:155-157, 190-192, 217-219, 257-260 (_r holds the gradient at _x) *)
  Definition accept (s : dm) (p x r : vec) (b : T) : res (dm * vec) :=
    q <- zVecSubNC r (dg s) (dq s) ;;
    g <- zVecCopyNC r (dg s) ;;
    Ok (DM x (dd s) (store g) p (store q) r (dh s) (didx s) b, x).

  (** the answer of a line search: None is the null pointer; otherwise the state, the variables and the value there *)
  Definition stepped : Type := option (dm * vec * T).

  (** zm_opt_dm.c:87-92 *)
  Definition _zOptDMStepPlain (s : dm) (var : vec) (e0 : T) : res (option stepped) :=
    var <- zVecAddNC var (dd s) var ;;
    let var := store var in
    Ok (Some (Some (s, var, eval var))).

  (** zm_opt_dm.c:161, 359: Z_OPT_DM_STEP_MIN and opt->_df *)
  Definition step_min : T := sofZ 1 / sofZ 1000.
  Definition decrease : T := sofZ 1 / sofZ 10000.
  (** zm_opt_dm.c:207-222: the loop of Nocedal's backtracking; [r] is the vector _r *)
  Fixpoint noc_loop (fuel tf : nat) (s : dm) (var : vec) (e0 df cf : T) (t : trial) : res (option stepped) :=
    match fuel with
    | O => Ok None
    | S fuel =>
        if sle step_min (ta t) then
          o <- _zOptDMStepTest tf var (dd s) e0 df t ;;
          match o with
          | None => Ok None
          | Some (false, t) => noc_loop fuel tf s var e0 df cf (TR (ta t * half) (tp t) (tx t) (te t))
          | Some (true, t) =>
              r <- _grad (tx t) (dr s) ;;
              let v := ksum (vlen r) (fun i => vel r i * vel (dd s) i) in
              if slt step_min (ta t) && slt cf v then noc_loop fuel tf s var e0 df cf (TR (ta t * (sofZ 21 / sofZ 10)) (tp t) (tx t) (te t))
              else sv <- accept s (tp t) (tx t) r (db s) ;; Ok (Some (Some (fst sv, snd sv, te t)))
          end
        else Ok (Some None)
    end.
  (** zm_opt_dm.c:196-223; [cfac] is opt->_cf *)
  Definition _zOptDMStepNoc (fuel tf : nat) (cfac : T) (s : dm) (var : vec) (e0 : T) : res (option stepped) :=
    if isnan e0 then Ok (Some None)
    else
      let sl := ksum (vlen (dg s)) (fun i => vel (dg s) i * vel (dd s) i) in
      noc_loop fuel tf s var e0 (decrease * sl) (cfac * sl) (TR 1 (dp s) (dx s) 0).

  (** zm_opt_dm.c:178-186: the loop of Dennis-Schnabel's method *)
  Definition zmax (x y : T) : T := if slt y x then x else y.
  Fixpoint ds_loop (fuel tf : nat) (d var : vec) (e0 s df a1 a2 v2 : T) (t : trial) : res (option trial) :=
    match fuel with
    | O => Ok None
    | S fuel =>
        let da := a1 - a2 in
        if is_tol ztol (da - a1) then Ok (Some t)
        else
          let v1 := (te t - e0 + s * a2) / (a2 * a2) in
          let c1 := sofZ 3 * (v1 - v2) / da in
          let c2 := (v2 * a1 - v1 * a2) / da in
          let a2 := a1 in
          let a1 := zmax ((- c2 + ssqrt (c2 * c2 + c1 * s)) / c1) step_min in
          o <- _zOptDMStepTest tf var d e0 df (TR a1 (tp t) (tx t) (te t)) ;;
          match o with
          | None => Ok None
          | Some (true, t) => Ok (Some t)
          | Some (false, t) => ds_loop fuel tf d var e0 s df (ta t) a2 v1 t
          end
    end.
  Definition finish (s : dm) (o : option trial) : res (option stepped) :=
    match o with
    | None => Ok None
    | Some t => r <- _grad (tx t) (dr s) ;; sv <- accept s (tp t) (tx t) r (db s) ;; Ok (Some (Some (fst sv, snd sv, te t)))
    end.
  (** zm_opt_dm.c:162-193 *)
  Definition _zOptDMStepDS (fuel tf : nat) (s : dm) (var : vec) (e0 : T) : res (option stepped) :=
    if isnan e0 then Ok (Some None)
    else
      let sl := ksum (vlen (dg s)) (fun i => vel (dg s) i * vel (dd s) i) in
      let df := decrease * sl in
      o <- _zOptDMStepTest tf var (dd s) e0 df (TR 1 (dp s) (dx s) 0) ;;
      match o with
      | None => Ok None
      | Some (true, t) => finish s (Some t)
      | Some (false, t) =>
          let a2 := ta t in
          let v2 := te t - e0 + a2 * sl in
          let a1 := zmax (half * sl / v2) step_min in
          o <- _zOptDMStepTest tf var (dd s) e0 df (TR a1 (tp t) (tx t) (te t)) ;;
          match o with
          | None => Ok None
          | Some (true, t) => finish s (Some t)
          | Some (false, t) => o <- ds_loop fuel tf (dd s) var e0 sl df (ta t) a2 v2 t ;; finish s o
          end
      end.

  (** zm_opt_dm.c:114-151: the loop of More-Thuente's method.  [g] is _g, which gt is computed from in place of the gradient at the
      trial point; [e1] is te. *)
  Definition mt_trial (al au at_ da fl gl gt e1 : T) : T :=
    let v1 := e1 - fl - gl * da in
    let v2 := gt - gl in
    let c1 := sofZ 3 * (- sofZ 2 * v1 + v2 * da) / (da * da * da) in
    let c2 := (sofZ 3 * v1 - v2 * da) / (da * da) in
    let ac := al + (- c2 + ssqrt (c2 * c2 - c1 * gl)) / c1 in
    let aq := al - half * gl * da * da / v1 in
    let as_ := al - gl * da / v2 in
    if slt fl e1 then (if slt (sabs (ac - al)) (sabs (aq - al)) then ac else half * (aq + ac))
    else if slt (gt * gl) 0 then (if sle (sabs (as_ - at_)) (sabs (ac - at_)) then ac else as_)
    else if sle (sabs gt) (sabs gl) then
      let at_ := if slt (sabs (ac - at_)) (sabs (as_ - at_)) then ac else as_ in
      let v1 := at_ + (sofZ 66 / sofZ 100) * (au - at_) in
      if slt al at_ then (if slt v1 at_ then v1 else at_) else (if slt at_ v1 then v1 else at_)
    else ac.
  Fixpoint mt_loop (fuel tf : nat) (g d var : vec) (e0 df al au at_ da fl gl gt : T) (t : trial) : res (option trial) :=
    match fuel with
    | O => Ok None
    | S fuel =>
        if slt ztol da then
          let at_ := mt_trial al au at_ da fl gl gt (te t) in
          o <- _zOptDMStepTest tf var d e0 df (TR at_ (tp t) (tx t) (te t)) ;;
          match o with
          | None => Ok None
          | Some (true, t) => Ok (Some t)
          | Some (false, t) =>
              let at_ := ta t in
              let da := at_ - al in
              let gt := - ksum (vlen g) (fun i => vel g i * vel d i) in
              if slt fl (te t) then mt_loop fuel tf g d var e0 df al at_ at_ da fl gl gt t
              else mt_loop fuel tf g d var e0 df at_ (if slt 0 (gt * da) then at_ else au) at_ da (te t) gt gt t
          end
        else Ok (Some t)
    end.
  (** zm_opt_dm.c:95-158 *)
  Definition _zOptDMStepMT (fuel tf : nat) (s : dm) (var : vec) (e0 : T) : res (option stepped) :=
    if isnan e0 then Ok (Some None)
    else
      let sl := ksum (vlen (dg s)) (fun i => vel (dg s) i * vel (dd s) i) in
      let df := decrease * sl in
      o <- _zOptDMStepTest tf var (dd s) e0 df (TR 1 (dp s) (dx s) 0) ;;
      match o with
      | None => Ok None
      | Some (true, t) => finish s (Some t)
      | Some (false, t) => o <- mt_loop fuel tf (dg s) (dd s) var e0 df 0 (ta t) (ta t) 1 e0 (- sl) (- sl) t ;; finish s o
      end.

  (** zm_opt_dm.c:233-261 *)
  Definition _zOptDMStepBrent (s : dm) (var : vec) (e0 : T) : res (option stepped) :=
    if isnan e0 then Ok (Some None)
    else if (vlen (dx s) <=? vlen var)%nat && (vlen (dx s) <=? vlen (dd s))%nat then
      let a := zOptLineBrent ztol (fun x => eval (FV (vlen (dx s)) (fun i => vel var i + vel (dd s) i * (- x)))) zGOLDENRATIO2 eps 0 1 100 in
      t <- try_point var (dd s) (TR a (dp s) (dx s) 0) ;;
      r <- _grad (tx t) (dr s) ;;
      let b := zVecSqrNorm r / zVecSqrNorm (dg s) in
      sv <- accept s (tp t) (tx t) r b ;; Ok (Some (Some (fst sv, snd sv, te t)))
    else UB.

  (** zm_opt_dm.c:265-269: C's remainder; size 0 is a division by zero *)
  Definition _zOptDMUpdateNone (s : dm) (count : nat) : res dm :=
    if (vlen (dd s) =? 0)%nat then UB
    else Ok (if (Z.rem (Z.of_nat count - 1) (Z.of_nat (vlen (dd s))) =? 0)%Z then DM (dx s) (dd s) (dg s) (dp s) (dq s) (dr s) (dh s) (didx s) 0 else s).
  (** zm_opt_dm.c:270-279 *)
  Definition _zOptDMUpdateDFP (s : dm) : res dm :=
    let k := ksum (vlen (dp s)) (fun i => vel (dp s) i * vel (dq s) i) in
    let l := 1 / k in
    r <- zMulMatVecNC (dh s) (dq s) (dr s) ;;
    let r := store r in
    h <- zMatCatDyadNC (dh s) ((1 + ksum (vlen r) (fun i => vel r i * vel (dq s) i) / k) * l) (dp s) (dp s) ;;
    h <- zMatCatDyadNC h (- l) (dp s) r ;;
    h <- zMatCatDyadNC h (- l) r (dp s) ;;
    Ok (DM (dx s) (dd s) (dg s) (dp s) (dq s) r (mstore h) (didx s) (db s)).
  (** zm_opt_dm.c:280-298 *)
  Definition _zOptDMUpdateBFGS (s : dm) : res dm :=
    r <- zMulMatVecNC (dh s) (dq s) (dr s) ;;
    let r := store r in
    let k := 1 / ksum (vlen (dp s)) (fun i => vel (dp s) i * vel (dq s) i) in
    let l := ksum (vlen (dq s)) (fun i => vel (dq s) i * vel r i) * k + 1 in
    h <- for_ 0 (vlen (dp s)) (fun i h =>
           pi <- vget (dp s) i ;; ri <- vget r i ;;
           for_ 0 (vlen (dp s)) (fun j h =>
             pj <- vget (dp s) j ;; rj <- vget r j ;;
             mmod h i j (fun x => x + (l * pi * pj - ri * pj - rj * pi) * k)) h) (dh s) ;;
    Ok (DM (dx s) (dd s) (dg s) (dp s) (dq s) r (mstore h) (didx s) (db s)).

  Definition with_d (s : dm) (d : vec) : dm := DM (dx s) d (dg s) (dp s) (dq s) (dr s) (dh s) (didx s) (db s).
  (** zm_opt_dm.c:303-306 *)
  Definition _zOptDMVecSD (s : dm) (var : vec) : res dm := d <- zVecCopyNC (dg s) (dd s) ;; Ok (with_d s (store d)).
  (** zm_opt_dm.c:309-319: the elimination works on _g itself, so that _g holds the eliminated right-hand side afterwards.
      The caller does not look at the null pointer of a singular matrix; what the vectors hold then is not modelled (UB). *)
  Definition _zOptDMVecLM (s : dm) (var : vec) : res dm :=
    h <- _hess var (dh s) ;;
    let m := zVecSqrNorm (dg s) in
    h <- for_ 0 (vlen (dg s)) (fun i h => mmod h i i (fun x => x + m)) h ;;
    let h := mstore h in
    let n := vlen (dg s) in
    mms <- zMatMatBalancingDST h (col_of (dg s)) (Some (dr s)) ;;
    let '(a2, b2, _) := mms in
    st <- gauss_forward ztol n a2 b2 (didx s) ;;
    match st with
    | inr _ => UB
    | inl (_, b3, idx) =>
        o <- zLESolveGaussDST ztol h (dg s) (dd s) (didx s) (Some (dr s)) ;;
        match o with
        | None => UB
        | Some d => Ok (DM (dx s) (store d) (store (of_col b3)) (dp s) (dq s) (dr s) h idx (db s))
        end
    end.
  (** zm_opt_dm.c:322-325 *)
  Definition _zOptDMVecVM (s : dm) (var : vec) : res dm := d <- zMulMatVecNC (dh s) (dg s) (dd s) ;; Ok (with_d s (store d)).
  (** zm_opt_dm.c:328-332 *)
  Definition _zOptDMVecCG (s : dm) (var : vec) : res dm :=
    d <- zVecMulDRC (dd s) (db s) ;; d <- zVecAddNC d (dg s) d ;; Ok (with_d s (store d)).

  (** the functions that zOptDMAssignSD, LM, VM, CG choose: zm_opt_dm.c:363-415 *)
  Record method := Method { m_vec : dm -> vec -> res dm; m_step : dm -> vec -> T -> res (option stepped); m_upd : dm -> nat -> res dm }.
  Inductive search := Plain | DS | Noc | Brent | MT.
  Definition assign_step (fuel tf : nat) (cf : T) (m : search) : dm -> vec -> T -> res (option stepped) :=
    match m with
    | Plain => _zOptDMStepPlain | DS => _zOptDMStepDS fuel tf | Noc => _zOptDMStepNoc fuel tf cf
    | Brent => _zOptDMStepBrent | MT => _zOptDMStepMT fuel tf
    end.
  Definition cf9 : T := sofZ 9 / sofZ 10.
  Definition zOptDMAssignSD (fuel tf : nat) (m : search) : method := Method _zOptDMVecSD (assign_step fuel tf cf9 m) _zOptDMUpdateNone.
  Definition zOptDMAssignLM (fuel tf : nat) (m : search) : method := Method _zOptDMVecLM (assign_step fuel tf cf9 m) _zOptDMUpdateNone.
  Definition zOptDMAssignVM (fuel tf : nat) (m : search) (dfp : bool) : method :=
    Method _zOptDMVecVM (assign_step fuel tf cf9 m) (fun s _ => if dfp then _zOptDMUpdateDFP s else _zOptDMUpdateBFGS s).
  Definition zOptDMAssignCG (fuel tf : nat) : method := Method _zOptDMVecCG _zOptDMStepBrent _zOptDMUpdateNone.
  (** zm_opt_dm.c:337-361: the workspace; the default is the steepest descent without a line search *)
  Definition zOptDMCreate (n : nat) : dm := DM (zvec n) (zvec n) (zvec n) (zvec n) (zvec n) (zvec n) (zmat n n) (List.seq 0 n) 0.

  (** the answer of zOptDMSolve: the returned number (None for -1), the variables and *eval *)
  Record answer := Ans { number : option nat; avar : vec; aeval : T }.
  (** zm_opt_dm.c:443-451: [k] iterations left, [i] done *)
  Fixpoint dm_loop (k i : nat) (m : method) (tol : T) (s : dm) (var : vec) (ev : T) : res (option answer) :=
    match k with
    | O => Ok (Some (Ans None var ev))
    | S k =>
        s <- m_vec m s var ;;
        o <- m_step m s var ev ;;
        match o with
        | None => Ok None
        | Some None => Ok (Some (Ans None var ev))
        | Some (Some (s, var, e)) =>
            if zVecIsTol tol (dg s) || zVecIsTol tol (dp s) then Ok (Some (Ans (Some i) var ev))
            else s <- m_upd m s i ;; dm_loop k (S i) m tol s var e
        end
    end.
  (** zm_opt_dm.c:432-452 *)
  Definition zOptDMSolve (m : method) (s : dm) (var : vec) (tol : T) (iter : Z) : res (option answer) :=
    let h := FM (nr (dh s)) (nc (dh s)) (fun i j => if (i =? j)%nat then 1 else 0) in
    let ev := eval var in
    g <- _grad var (dg s) ;;
    let s := DM (dx s) (dd s) g (dp s) (dq s) (dr s) h (didx s) (db s) in
    if zVecIsTol tol g then Ok (Some (Ans (Some 0%nat) var ev))
    else dm_loop (ziter iter) 0 m tol s var ev.
End Dm.
