(** Model of src/zm_nurbs.c: knots, segment search, basis functions and their derivatives,
    NURBS and B-spline curves.  [tol] is zTOL.  An access outside the knots or the control
    points is [UB].  The number of slices and memory exhaustion are not modelled; orders are
    non-negative. *)
From Verif Require Import Prelude Scalar Fmat Misc_Model IP_Model.

Section Nurbs.
  Context {T : Type} {ST : Scalar T}.
  Local Open Scope S_scope.
  Variable tol : T.
  Local Notation vec := (fvec T).
  Local Notation nat_ n := (sofZ (Z.of_nat n)).

  (** include/zm/zm_nurbs.h:20-24 *)
  Record bparam := BP { bp_order : nat; bp_knot : vec }.
  (** zm_nurbs.h:28-33 *)
  Definition knot (p : bparam) (i : nat) : res T := vget (bp_knot p) i.
  Definition cpnum (p : bparam) : nat := (vlen (bp_knot p) - bp_order p - 1)%nat.
  (** zm_nurbs.c:12-19 *)
  Definition zBSplineParamAlloc (order nc : nat) : bparam := BP order (vzero (nc + order + 1)).
  Definition setknot (p : bparam) (i : nat) (x : T) : res bparam :=
    k <- vset (bp_knot p) i x ;; Ok (BP (bp_order p) k).
  (** zm_nurbs.c:54-65 *)
  Definition zBSplineParamKnotInit (p : bparam) : res bparam :=
    let nc := cpnum p in
    let o := bp_order p in
    p <- for_ 0 (S o) (fun j p => setknot p j 0) p ;;
    p <- for_ (S o) (Nat.max (S o) (S nc)) (fun j p => x <- knot p (j - 1) ;; setknot p j (x + 1)) p ;;
    for_ (Nat.max (S o) (S nc)) (vlen (bp_knot p)) (fun j p => x <- knot p (j - 1) ;; setknot p j x) p.
  (** zm_nurbs.c:68-72; zm_vec.c:202-206 and the checked division *)
  Definition zBSplineParamKnotNormalize (p : bparam) : res bparam :=
    x0 <- knot p 0 ;;
    k <- vop1 (fun x => x + - x0) (bp_knot p) (bp_knot p) ;;
    xl <- vget k (vlen k - 1) ;;
    k <- zVecDivDRC tol k xl ;;
    Ok (BP (bp_order p) k).
  (** zm_nurbs.c:75-79; zm_raw_vec.c:260-264 *)
  Definition zBSplineParamKnotScale (p : bparam) (ks ke : T) : res bparam :=
    p <- zBSplineParamKnotNormalize p ;;
    k <- vop1 (fun x => ks + x * (ke - ks)) (bp_knot p) (bp_knot p) ;;
    Ok (BP (bp_order p) k).

  (** zm_nurbs.c:88-89: the inner loops *)
  Fixpoint skip_up (fuel : nat) (p : bparam) (i : nat) : res nat :=
    match fuel with
    | O => UB
    | S f => x <- knot p (S i) ;; y <- knot p i ;; if seq x y then skip_up f p (S i) else Ok i
    end.
  Fixpoint skip_down (fuel : nat) (p : bparam) (j : nat) : res nat :=
    match fuel, j with
    | O, _ | _, O => UB
    | S f, S j' => x <- knot p j' ;; y <- knot p j ;; if seq x y then skip_down f p j' else Ok j
    end.
  (** zm_nurbs.c:87-96; running out of fuel (more rounds than knots) is [UB] *)
  Fixpoint seg_loop (fuel : nat) (p : bparam) (t : T) (i j : nat) : res nat :=
    match fuel with
    | O => UB
    | S f =>
        i <- skip_up (vlen (bp_knot p)) p i ;;
        j <- skip_down (vlen (bp_knot p)) p j ;;
        if (j <=? i + 1)%nat then Ok i
        else
          let k := ((i + j) / 2)%nat in
          x <- knot p k ;;
          if slt t x then seg_loop f p t i k else seg_loop f p t k j
    end.
  (** zm_nurbs.c:82-98 *)
  Definition zBSplineParamSeg (p : bparam) (t : T) : res nat :=
    seg_loop (vlen (bp_knot p)) p t (bp_order p) (cpnum p).

  (** zm_nurbs.c:101-120 *)
  Fixpoint zBSplineParamBasis (p : bparam) (t : T) (i r seg : nat) : res T :=
    match r with
    | O => Ok (if (i =? seg)%nat then 1 else 0)
    | S r' =>
        b <- (if (seg <=? i + r)%nat then
                t1 <- knot p i ;; tr1 <- knot p (i + r) ;;
                if negb (seq tr1 t1) then
                  y <- zBSplineParamBasis p t i r' seg ;; Ok (0 + (t - t1) / (tr1 - t1) * y)
                else Ok 0
              else Ok 0) ;;
        (if (i <=? seg)%nat then
           t1 <- knot p (i + 1) ;; tr1 <- knot p (i + r + 1) ;;
           if negb (seq tr1 t1) then
             y <- zBSplineParamBasis p t (i + 1) r' seg ;; Ok (b + (tr1 - t) / (tr1 - t1) * y)
           else Ok b
         else Ok b)
    end.
  (** zm_nurbs.c:123-138; the order of differentiation is non-negative; a negative r, which
      only a not-a-number knot leads to, is [UB] *)
  Fixpoint zBSplineParamBasisDiff (p : bparam) (t : T) (i r seg diff : nat) {struct diff} : res T :=
    match diff with
    | O => zBSplineParamBasis p t i r seg
    | S d =>
        if (bp_order p + 1 <? diff)%nat then Ok 0
        else
          b <- (if (seg <=? i + r)%nat then
                  x <- knot p (i + r) ;; y <- knot p i ;;
                  let dt := x - y in
                  if negb (seq dt 0) then
                    match r with O => UB | S r' => z <- zBSplineParamBasisDiff p t i r' seg d ;; Ok (0 + z / dt) end
                  else Ok 0
                else Ok 0) ;;
          b <- (if (i <=? seg)%nat then
                  x <- knot p (i + r + 1) ;; y <- knot p (i + 1) ;;
                  let dt := x - y in
                  if negb (seq dt 0) then
                    match r with O => UB | S r' => z <- zBSplineParamBasisDiff p t (i + 1) r' seg d ;; Ok (b - z / dt) end
                  else Ok b
                else Ok b) ;;
          Ok (b * nat_ r)
    end.

  (** zm_nurbs.h:84-103: parameters and the control points with their weights *)
  Record nurbs := NB { nb_param : bparam; nb_cp : fvec (T * vec) }.
  Definition weight (n : nurbs) (i : nat) : res T := rmap fst (vget (nb_cp n) i).
  Definition ctrl (n : nurbs) (i : nat) : res vec := rmap snd (vget (nb_cp n) i).
  (** zm_nurbs.c:151-180; the control points in the order of zListForEachRew *)
  Definition zNURBSCreate (seq : list vec) (order : nat) : res (option nurbs) :=
    if (length seq <=? order)%nat then Ok None
    else
      p <- zBSplineParamKnotInit (zBSplineParamAlloc order (length seq)) ;;
      Ok (Some (NB p (vec_of (1, vzero 0) (map (fun v => (1, v)) seq)))).
  (** zm_nurbs.c:212-226 *)
  Definition zNURBSVec (n : nurbs) (t : T) (v : vec) : res vec :=
    let p := nb_param n in
    s <- zBSplineParamSeg p t ;;
    '(den, v) <- for_ (s - bp_order p) (S s) (fun i dv =>
        w <- weight n i ;; b <- zBSplineParamBasis p t i (bp_order p) s ;;
        let b := w * b in
        c <- ctrl n i ;; v <- zVecCatNCDRC (snd dv) b c ;;
        Ok (fst dv + b, v)) (0, zVecZero v) ;;
    if is_tol tol den then c <- ctrl n 0 ;; zVecCopyC c v else zVecDivDRC tol v den.
  (** zm_nurbs.c:229-237 *)
  Definition den_diff (n : nurbs) (t : T) (s diff : nat) : res T :=
    let p := nb_param n in
    for_ (s - bp_order p) (S s) (fun i den =>
        w <- weight n i ;; b <- zBSplineParamBasisDiff p t i (bp_order p) s diff ;; Ok (den + w * b)) 0.
  (** zm_nurbs.c:240-270; [None] is NULL; the recursive calls have a smaller order, so the
      fuel [diff] is enough *)
  Fixpoint nurbs_diff (fuel : nat) (n : nurbs) (t : T) (diff : nat) (v : vec) : res (option vec) :=
    let p := nb_param n in
    if (diff =? 0)%nat then rmap Some (zNURBSVec n t v)
    else if (bp_order p + 1 <? diff)%nat then Ok None
    else
      match fuel with
      | O => UB
      | S f =>
          c0 <- ctrl n 0 ;;
          let tmp := vzero (vlen c0) in
          s <- zBSplineParamSeg p t ;;
          '(den, v) <- for_ (s - bp_order p) (S s) (fun i dv =>
              w <- weight n i ;; bd <- zBSplineParamBasisDiff p t i (bp_order p) s diff ;;
              b0 <- zBSplineParamBasis p t i (bp_order p) s ;;
              c <- ctrl n i ;; v <- zVecCatNCDRC (snd dv) (w * bd) c ;;
              Ok (fst dv + w * b0, v)) (0, zVecZero v) ;;
          '(v, _) <- for_ 1 (diff + 1) (fun i vt =>
              r <- nurbs_diff f n t (diff - i) (snd vt) ;;
              match r with
              | None => Ok vt
              | Some tmp =>
                  d <- den_diff n t s i ;;
                  v <- zVecCatNCDRC (fst vt) (- zCombination (Z.of_nat diff) (Z.of_nat i) * d) tmp ;; Ok (v, tmp)
              end) (v, tmp) ;;
          rmap Some (if is_tol tol den then zVecCopyC c0 v else zVecDivDRC tol v den)
      end.
  Definition zNURBSVecDiff (n : nurbs) (t : T) (diff : nat) (v : vec) := nurbs_diff diff n t diff v.
  (** zm_nurbs.c:406-418 *)
  Definition zBSplineVec (n : nurbs) (t : T) (v : vec) : res vec :=
    let p := nb_param n in
    s <- zBSplineParamSeg p t ;;
    for_ (s - bp_order p) (S s) (fun i v =>
        b <- zBSplineParamBasis p t i (bp_order p) s ;; c <- ctrl n i ;; zVecCatNCDRC v b c) (zVecZero v).
  (** zm_nurbs.c:421-437 *)
  Definition zBSplineVecDiff (n : nurbs) (t : T) (diff : nat) (v : vec) : res vec :=
    let p := nb_param n in
    if (diff =? 0)%nat then zBSplineVec n t v
    else
      let v := zVecZero v in
      if (bp_order p + 1 <? diff)%nat then Ok v
      else
        s <- zBSplineParamSeg p t ;;
        for_ (s - bp_order p) (S s) (fun i v =>
          b <- zBSplineParamBasisDiff p t i (bp_order p) s diff ;; c <- ctrl n i ;; zVecCatNCDRC v b c) v.
End Nurbs.
Arguments BP {T}. Arguments NB {T}.
