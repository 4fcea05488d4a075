(** Model of the single-curve interpolators: src/zm_ip_pex.c (polynomial with boundary
    conditions, least squares), src/zm_ip_trvelprof.c (trapezoidal velocity profile),
    src/zm_ip_clothoid.c (value of a clothoid) with the generalized Fresnel integral of
    src/zm_sf_fresnel.c.  [tol] is zTOL.  Allocation is assumed to succeed. *)
From Verif Require Import Prelude Scalar Fmat Pex_Model LE_Model.

Section Curve.
  Context {T : Type} {ST : Scalar T}.
  Local Open Scope S_scope.
  Variable tol : T.
  Local Notation vec := (fvec T).
  Local Notation mat := (fmat T).
  Local Notation nz z := (sofZ z%Z).
  Local Notation nat_ n := (sofZ (Z.of_nat n)).
  Local Notation half := (sofZ 1%Z / sofZ 2%Z).
  Local Definition sqr (x : T) : T := x * x.

  (** include/zm/zm_ip_pex.h:28-39 *)
  Record pexip := PIP { pip_term : T; pip_c : list T }.
  (** zm_ip_pex.c:10-19; a dimension >= 0 *)
  Definition zPexIPAlloc (term : T) (dim : nat) : option pexip :=
    if seq term 0 then None
    else option_map (PIP term) (pexalloc (dim + 1)).
  (** zPexIPSetCoeff, zm_ip_pex.h:39 (all uses are in range), and [zVecElemNC(pc->c,i) += x] *)
  Definition setco (c : list T) (i : nat) (x : T) : res (list T) := set c i x.
  Definition addco (c : list T) (i : nat) (x : T) : res (list T) := y <- get c i ;; set c i (y + x).
  (** zm_ip_pex.c:29-56; [v] is [] for NULL *)
  Definition zPexIPCreateBoundary (term x1 v1 a1 x2 v2 a2 : T) (v : list T) : res (option pexip) :=
    let n := (length v + 5)%nat in
    match zPexIPAlloc term n with
    | None => Ok None
    | Some pc =>
        let n1 := (n - 1)%nat in let n2 := (n - 2)%nat in let n3 := (n - 3)%nat in
        let k1 := x2 - x1 - (v1 + half * a1 * term) * term in
        let k2 := (v2 - v1 - a1 * term) * term in
        let k3 := (a2 - a1) * sqr term in
        c <- setco (pip_c pc) 0 x1 ;;
        c <- setco c 1 (v1 * term) ;;
        c <- setco c 2 (half * a1 * sqr term) ;;
        c <- setco c n2 (half * k1 * nat_ n * nat_ n1 - k2 * nat_ n1 + half * k3) ;;
        c <- setco c n1 (- k1 * nat_ n * nat_ n2 + k2 * nat_ (2 * n - 3)%nat - k3) ;;
        c <- setco c n (half * k1 * nat_ n1 * nat_ n2 - k2 * nat_ n2 + half * k3) ;;
        c <- for_ 3 (S n3) (fun i c =>
               k1 <- get v (i - 3) ;;
               c <- setco c i k1 ;;
               c <- addco c n (- half * nat_ (n1 - i)%nat * nat_ (n2 - i)%nat * k1) ;;
               c <- addco c n1 (nat_ ((n - i) * (n2 - i))%nat * k1) ;;
               addco c n2 (- half * nat_ (n - i)%nat * nat_ (n1 - i)%nat * k1)) c ;;
        Ok (Some (PIP term c))
    end.
  (** pow( x, j ) of libm with an integer j, taken as the exact power *)
  Fixpoint powi (x : T) (j : nat) : T := match j with O => 1 | S j => x * powi x j end.
  (** zm_ip_pex.c:81-82: the work vector of the powers *)
  Definition powers (term ti : T) (v : vec) : res vec :=
    for_ 0 (vlen v) (fun j v => vset v j (powi (ti / term) j)) v.
  (** zm_ip_pex.c:80-88 (lo=0, hi=m) and 120-128 (lo=3, hi=m-3): sums of the normal equations *)
  Definition lsm_sums (term : T) (m lo hi : nat) (t x : vec) : res (mat * vec) :=
    '(a, b, _) <- for_ 0 (vlen t) (fun i abv =>
        let '(a, b, v) := abv in
        ti <- vget t i ;;
        v <- powers term ti v ;;
        '(a, b) <- for_ lo hi (fun j ab =>
            let '(a, b) := ab in
            a <- for_ 0 m (fun k a => p <- vget v (j + k) ;; mmod a j k (fun y => y + p)) a ;;
            xi <- vget x i ;; p <- vget v j ;;
            b <- vmod b j (fun y => y + xi * p) ;;
            Ok (a, b)) (a, b) ;;
        Ok (a, b, v)) (zmat m m, zvec m, zvec (2 * m)) ;;
    Ok (a, b).
  (** the polynomial set by zLESolveGauss( a, b, pc->c ); on a failure pc->c keeps its zeros,
      and the constructors answer true all the same *)
  Definition lsm_solve (term : T) (m : nat) (a : mat) (b : vec) : res (option pexip) :=
    o <- zLESolveGauss tol a b (zvec m) ;;
    Ok (Some (PIP term (match o with Some x => to_list x | None => repeat 0 m end))).
  (** zm_ip_pex.c:59-94 *)
  Definition zPexIPCreateLSM (term : T) (dim : nat) (t x : vec) : res (option pexip) :=
    if negb (vlen t =? vlen x)%nat then Ok None
    else match zPexIPAlloc term dim with
    | None => Ok None
    | Some _ =>
        let m := (dim + 1)%nat in
        '(a, b) <- lsm_sums term m 0 m t x ;;
        lsm_solve term m a b
    end.
  (** zm_ip_pex.c:97-152.  Row indices m-3, m-2, m-1 below 0 are [UB] (the last row's are
      checked in the C code). *)
  Definition zPexIPCreateBounderyLSM (term x1 v1 a1 x2 v2 a2 : T) (dim : nat) (t x : vec) : res (option pexip) :=
    if negb (vlen t =? vlen x)%nat then Ok None
    else match zPexIPAlloc term dim with
    | None => Ok None
    | Some _ =>
        let m := (dim + 1)%nat in
        '(a, b) <- lsm_sums term m 3 (m - 3) t x ;;
        a <- mset a 0 0 1 ;;
        a <- mset a 1 1 (1 / term) ;;
        a <- mset a 2 2 (nz 2 / sqr term) ;;
        if (m <? 3)%nat then UB else
        a <- for_ 0 m (fun i a => mset a (m - 3) i 1) a ;;
        a <- for_ 1 m (fun i a => mset a (m - 2) i (nat_ i)) a ;;
        a <- for_ 2 m (fun i a => mset a (m - 1) i (nat_ (i * (i - 1))%nat)) a ;;
        b <- vset b 0 x1 ;; b <- vset b 1 v1 ;; b <- vset b 2 a1 ;;
        b <- vset b (m - 3) x2 ;; b <- vset b (m - 2) v2 ;; b <- vset b (m - 1) a2 ;;
        lsm_solve term m a b
    end.
  (** zm_ip_pex.c:155-170 *)
  Definition zPexIPVal (pc : pexip) (t : T) : res T := zPexVal (pip_c pc) (t / pip_term pc).
  Definition zPexIPVel (pc : pexip) (t : T) : res T :=
    rmap (fun x => x / pip_term pc) (zPexDifVal (pip_c pc) 1 (t / pip_term pc)).
  Definition zPexIPAcc (pc : pexip) (t : T) : res T :=
    rmap (fun x => x / sqr (pip_term pc)) (zPexDifVal (pip_c pc) 2 (t / pip_term pc)).

  (** include/zm/zm_ip_trvelprof.h:17-27 *)
  Record trprof := TR { tr_v0 : T; tr_vT : T; tr_vmax : T; tr_acc : T; tr_dist : T; tr_t : T; tr_t1 : T; tr_t2 : T }.
  (** zm_ip_trvelprof.c:10-53 *)
  Definition zTRVelProfCreate (v0 vT vmax acc dist : T) : option trprof :=
    if slt dist 0 then None
    else if sle vmax 0 then None
    else if slt vmax v0 then None
    else if slt vmax vT then None
    else if sle acc 0 then None
    else
      let t1 := (vmax - v0) / acc in
      let dt3 := (vmax - vT) / acc in
      let d1 := (v0 + half * acc * t1) * t1 in
      let d3 := (vT + half * acc * dt3) * dt3 in
      if slt (d1 + d3) dist then
        let t2 := t1 + (dist - d1 - d3) / vmax in
        Some (TR v0 vT vmax acc dist (t2 + dt3) t1 t2)
      else
        let vm := ssqrt (half * (v0 * v0 + vT * vT + nz 2 * acc * dist)) in
        let t1 := (vm - v0) / acc in
        Some (TR v0 vT vmax acc dist (t1 + (vm - vT) / acc) t1 t1).
  (** zm_ip_trvelprof.h:39 *)
  Definition zTRVelProfTerm (p : trprof) : T := tr_t p.
  (** zm_ip_trvelprof.c:56-65 *)
  Definition zTRVelProfDist (p : trprof) (t : T) : T :=
    if slt t (tr_t1 p) then (tr_v0 p + half * tr_acc p * t) * t
    else
      let d := (tr_v0 p + half * tr_acc p * tr_t1 p) * tr_t1 p in
      if slt t (tr_t2 p) then d + tr_vmax p * (t - tr_t1 p)
      else let dt := tr_t p - t in tr_dist p - (tr_vT p + half * tr_acc p * dt) * dt.
  (** zm_ip_trvelprof.c:68-73 *)
  Definition zTRVelProfVel (p : trprof) (t : T) : T :=
    if slt t (tr_t1 p) then tr_v0 p + tr_acc p * t
    else if slt t (tr_t2 p) then tr_vmax p
    else tr_vT p + tr_acc p * (tr_t p - t).
  (** zm_ip_trvelprof.c:76-81 *)
  Definition zTRVelProfAcc (p : trprof) (t : T) : T :=
    if slt t (tr_t1 p) then tr_acc p
    else if slt t (tr_t2 p) then 0
    else - tr_acc p.

  (** libm: sin, cos and the constant zPI_2 = pi/2 *)
  Variables (fsin fcos : T -> T) (pi_2 : T).
  (** zFresnelIntgPI_2 (zm_sf_fresnel.c:82-101) by series or continued fraction: its flag,
      and its answers s and c *)
  Variable fresnel : T -> bool * T * T.
  (** zm_sf_fresnel.c:104-119: answers flag, *s, *c *)
  Definition zFresnelIntgScale (x f : T) : bool * T * T :=
    if is_tol tol f then (true, 0, x)
    else
      let r := ssqrt (pi_2 / sabs f) in
      let '(ret, s, c) := fresnel (x / r) in
      (ret, s * (if slt 0 f then r else - r), c * r).
  (** zm_sf_fresnel.c:122-125 *)
  Definition zFresnelIntg (x : T) : bool * T * T := zFresnelIntgScale x 1.
  (** zm_sf_fresnel.c:128-153 *)
  Definition zFresnelIntgGen (x f0 f1 f2 : T) : bool * T * T :=
    if is_tol tol f2 then
      let s1 := fsin f0 in let c1 := fcos f0 in
      if is_tol tol f1 then (true, x * s1, x * c1)
      else
        let s2 := fsin (f0 + f1 * x) in let c2 := fcos (f0 + f1 * x) in
        (true, - (c2 - c1) / f1, (s2 - s1) / f1)
    else
      let '(ret1, s1, c1) := zFresnelIntgScale (x + half * f1 / f2) f2 in
      let '(ret2, s2, c2) := zFresnelIntgScale (half * f1 / f2) f2 in
      let s1 := s1 - s2 in let c1 := c1 - c2 in
      let s2 := fsin (f0 - half * half * f1 * f1 / f2) in
      let c2 := fcos (f0 - half * half * f1 * f1 / f2) in
      (ret1 && ret2, c1 * s2 + s1 * c2, c1 * c2 - s1 * s2).

  (** include/zm/zm_ip_clothoid.h:17-23 *)
  Record clothoid := CL { cl_x0 : T; cl_y0 : T; cl_f0 : T; cl_fc : T; cl_fs : T; cl_h : T }.
  (** zm_ip_clothoid.c:56-64 *)
  Definition zClothoidXY (cl : clothoid) (s : T) : option (T * T) :=
    let '(ret, dy, dx) := zFresnelIntgGen s (cl_f0 cl) (cl_fc cl) (cl_fs cl) in
    if ret then Some (cl_x0 cl + cl_h cl * dx, cl_x0 cl + cl_h cl * dy) else None.

  (** zm_ip_clothoid.c:11-17; atan2 of libm *)
  Variables (fatan2 : T -> T -> T) (pi : T).
  Definition zClothoidArg (x0 y0 f0 f1 fs : T) : T :=
    let '(_, s, c) := zFresnelIntgGen 1 f0 (f1 - f0 - fs) fs in fatan2 (s - y0) (c - x0).
  (** zm_ip_clothoid.c:34-45: bisection on fs; [n] is the number of iterations left *)
  Fixpoint clothoid_search (n : nat) (x0 y0 f0 f1 a fs fs0 fs1 : T) : T :=
    match n with
    | O => fs
    | S n =>
        let am := zClothoidArg x0 y0 f0 f1 fs in
        if is_tol tol (a - am) then fs
        else if slt am a then clothoid_search n x0 y0 f0 f1 a (half * (fs + fs1)) fs fs1
        else clothoid_search n x0 y0 f0 f1 a (half * (fs0 + fs)) fs0 fs
    end.
  (** zm_ip_clothoid.c:20-53; [iter] is Z_MAX_ITER_NUM (running out of iterations is only
      reported) *)
  Definition zClothoidCreateSegment (iter : nat) (x0 y0 f0 x1 y1 f1 : T) : clothoid :=
    let a := fatan2 (y1 - y0) (x1 - x0) in
    let a0 := zClothoidArg x0 y0 f0 f1 (- nz 2 * pi) in
    let a1 := zClothoidArg x0 y0 f0 f1 (nz 2 * pi) in
    let fs := if slt a1 a0 then clothoid_search iter x0 y0 f0 f1 a 0 (nz 2 * pi) (- nz 2 * pi)
              else clothoid_search iter x0 y0 f0 f1 a 0 (- nz 2 * pi) (nz 2 * pi) in
    let '(_, s, c) := zFresnelIntgGen 1 f0 (f1 - f0 - fs) fs in
    CL x0 y0 f0 (f1 - f0 - fs) fs (ssqrt ((sqr (x1 - x0) + sqr (y1 - y0)) / (s * s + c * c))).
End Curve.
Arguments TR {T}. Arguments CL {T}. Arguments PIP {T}.
