(** Model of src/zm_nle_se.c (single nonlinear equations) and src/zm_opt_line.c (line search).
    The user's function is a function of T; [ztol] is zTOL.  [rnd k lo hi] is the k-th number
    that zRandF( lo, hi ) draws.  Warnings are not modelled. *)
From Verif Require Import Prelude Scalar.
From Verif Require Complex_Model.

(** ZITERINIT, include/zm/zm_misc.h:95-97 *)
Definition ziter (iter : Z) : nat := if (iter <=? 0)%Z then Z.to_nat 10000 else Z.to_nat iter.

Section Root.
  Context {T : Type} {ST : Scalar T}.
  Local Open Scope S_scope.
  Local Notation half := (1 / sofZ 2%Z).
  Local Notation nz z := (sofZ z%Z).
  Variable ztol : T.
  Variable rnd : nat -> T -> T -> T.
  Variable f : T -> T.

  (** the answers 0 (with the bracket and the values there), 1, 2 and -1 of _zNLE_Bracket *)
  Inductive bracket := Bracketed (x1 x2 f1 f2 : T) | Hit1 | Hit2 | NoBracket.
  (** zm_nle_se.c:25-36: [n] rounds left, [k] numbers drawn *)
  Fixpoint bracket_loop (n k : nat) (x1 x2 _x1 _x2 tol : T) : bracket :=
    match n with
    | O => NoBracket
    | S n =>
        let f1 := f _x1 in
        if is_tol tol f1 then Hit1 else
        let f2 := f _x2 in
        if is_tol tol f2 then Hit2 else
        if slt (f1 * f2) 0 then Bracketed _x1 _x2 f1 f2
        else bracket_loop n (S (S k)) x1 x2 (rnd k x1 x2) (rnd (S k) x1 x2) tol
    end.
  (** zm_nle_se.c:19-37 *)
  Definition _zNLE_Bracket (x1 x2 tol : T) (iter : nat) : bracket := bracket_loop iter 0 x1 x2 x1 x2 tol.

  (** zm_nle_se.c:54-64: [n] further iterations after this one; f2 is not used any more *)
  Fixpoint bisec_loop (n : nat) (x1 x2 f1 tol : T) : T :=
    let xm := half * (x1 + x2) in
    let fm := f xm in
    if is_tol tol fm then xm else
    match n with
    | O => xm
    | S n => if slt (f1 * fm) 0 then bisec_loop n x1 xm f1 tol else bisec_loop n xm x2 fm tol
    end.
  (** zm_nle_se.c:40-65 *)
  Definition zNLE_Bisec (x1 x2 tol : T) (iter : Z) : T :=
    match _zNLE_Bracket x1 x2 tol (ziter iter) with
    | NoBracket => 0
    | Hit1 => x1
    | Hit2 => x2
    | Bracketed x1 x2 f1 f2 => bisec_loop (ziter iter) x1 x2 f1 tol
    end.

  (** zm_nle_se.c:84-90: [n] iterations left *)
  Fixpoint secant_loop (n : nat) (x1 x2 f1 f2 xc tol : T) : T :=
    match n with
    | O => xc
    | S n =>
        let xc := (f2 * x1 - f1 * x2) / (f2 - f1) in
        let fc := f xc in
        if is_tol tol fc then xc else secant_loop n x2 xc f2 fc xc tol
    end.
  (** zm_nle_se.c:76-83 and on: [n] = iter - count rounds left after this one *)
  Fixpoint secant_start (n k : nat) (x1 x2 tol : T) : T :=
    let f1 := f x1 in
    if is_tol tol f1 then x1 else
    let f2 := f x2 in
    if is_tol tol f2 then x2 else
    if negb (is_tol tol (f1 - f2)) then secant_loop n x1 x2 f1 f2 0 tol else
    match n with
    | O => 0
    | S n => secant_start n (S k) (x1 + rnd k (- (1 / nz 10)) (1 / nz 10)) x2 tol
    end.
  (** zm_nle_se.c:69-93 *)
  Definition zNLE_Secant (x1 x2 tol : T) (iter : Z) : T := secant_start (ziter iter) 0 x1 x2 tol.

  (** zm_nle_se.c:107-116 *)
  Fixpoint rf_loop (n : nat) (x1 x2 f1 f2 xc tol : T) : T :=
    match n with
    | O => xc
    | S n =>
        let xc := (f2 * x1 - f1 * x2) / (f2 - f1) in
        let fc := f xc in
        if is_tol tol fc then xc else
        if slt (f1 * fc) 0 then rf_loop n x1 xc f1 fc xc tol else rf_loop n xc x2 fc f2 xc tol
    end.
  (** zm_nle_se.c:96-119 *)
  Definition zNLE_RF (x1 x2 tol : T) (iter : Z) : T :=
    match _zNLE_Bracket x1 x2 tol (ziter iter) with
    | NoBracket => 0
    | Hit1 => x1
    | Hit2 => x2
    | Bracketed x1 x2 f1 f2 => rf_loop (ziter iter) x1 x2 f1 f2 0 tol
    end.

  (** x1, x2, x3, f1, f2, f3; dx1 and dx2 are set in every round before they are read *)
  Record vdb := VDB { vx1 : T; vx2 : T; vx3 : T; vf1 : T; vf2 : T; vf3 : T }.
  (** zm_nle_se.c:139-147 *)
  Definition vdb_order (s : vdb) : vdb :=
    let s := if slt 0 (vf2 s * vf3 s) then VDB (vx1 s) (vx2 s) (vx1 s) (vf1 s) (vf2 s) (vf1 s) else s in
    if slt (sabs (vf3 s)) (sabs (vf2 s)) then VDB (vx2 s) (vx3 s) (vx2 s) (vf2 s) (vf3 s) (vf2 s) else s.
  Definition vdb_tol (s : vdb) : T := nz 2 * ztol * sabs (vx2 s) + half * ztol.
  Definition vdb_xm (s : vdb) : T := half * (vx3 s - vx2 s).
  (** zm_nle_se.c:149-176: the displacement dx1 *)
  Definition vdb_dx (s : vdb) : T :=
    let tol2 := vdb_tol s in
    let xm := vdb_xm s in
    let dx2 := xm in
    if negb (slt (sabs dx2) tol2) && slt (sabs (vf2 s)) (sabs (vf1 s)) then
      let s' := vf2 s / vf1 s in
      let '(p, q) :=
        if seq (vx1 s) (vx3 s) then (nz 2 * xm * s', 1 - s')
        else
          let q := vf1 s / vf3 s in
          let r := vf2 s / vf3 s in
          (s' * (s' * xm * q * (q - r) - (vx2 s - vx1 s) * (r - 1)), (q - 1) * (r - 1) * (s' - 1)) in
      let '(p, q) := if slt 0 p then (p, - q) else (- p, q) in
      let min1 := nz 3 * xm * q - sabs (tol2 * q) in
      let min2 := sabs (dx2 * q) in
      if slt (nz 2 * p) (if slt min2 min1 then min2 else min1) then p / q else xm
    else xm.
  (** zm_nle_se.c:177-183 *)
  Definition vdb_move (s : vdb) : vdb :=
    let tol2 := vdb_tol s in
    let dx1 := vdb_dx s in
    let x2 := if slt tol2 (sabs dx1) then vx2 s + dx1
              else vx2 s + (if sle 0 tol2 then 1 else sopp 1) * vdb_xm s in
    VDB (vx2 s) x2 (vx3 s) (vf2 s) (f x2) (vf3 s).
  (** zm_nle_se.c:138-184: [n] iterations left *)
  Fixpoint vdb_loop (n : nat) (s : vdb) (tol : T) : T :=
    match n with
    | O => vx3 s
    | S n =>
        let s := vdb_order s in
        if sle (sabs (vdb_xm s)) (vdb_tol s) || is_tol tol (vf2 s) then vx2 s
        else vdb_loop n (vdb_move s) tol
    end.
  (** zm_nle_se.c:122-187 *)
  Definition zNLE_VDB (x1 x2 tol : T) (iter : Z) : T :=
    match _zNLE_Bracket x1 x2 tol (ziter iter) with
    | NoBracket => 0
    | Hit1 => x1
    | Hit2 => x2
    | Bracketed x1 x2 f1 f2 => vdb_loop (ziter iter) (VDB x1 x2 x2 f1 f2 f2) tol
    end.

  (** ** src/zm_opt_line.c; [f] is eval *)
  (** zGOLDENRATIO2 = 0.381966011250105, include/zm/zm_opt_line.h:17 *)
  Definition zGOLDENRATIO2 : T := nz 381966011250105 / nz 1000000000000000.
  Variable gr : T.
  Record gold := GS { gmin : T; gmax : T; gx1 : T; gx2 : T; ge1 : T; ge2 : T }.
  (** zm_opt_line.c:9-14 *)
  Definition gold1 (xmin xmax : T) : T := xmin + gr * (xmax - xmin).
  Definition gold2 (xmin xmax : T) : T := xmax - gr * (xmax - xmin).
  (** zm_opt_line.c:28-41 *)
  Definition gold_step (s : gold) : gold :=
    if slt (ge2 s) (ge1 s) then
      let xmin := gx1 s in
      let x2 := gold2 xmin (gmax s) in
      GS xmin (gmax s) (gx2 s) x2 (ge2 s) (f x2)
    else if slt (ge1 s) (ge2 s) then
      let xmax := gx2 s in
      let x1 := gold1 (gmin s) xmax in
      GS (gmin s) xmax x1 (gx1 s) (f x1) (ge1 s)
    else
      let xmin := gx1 s in
      let xmax := gx2 s in
      let x1 := gold1 xmin xmax in
      let x2 := gold2 xmin xmax in
      GS xmin xmax x1 x2 (f x1) (f x2).
  (** zm_opt_line.c:26-42: [n] iterations left *)
  Fixpoint gold_loop (n : nat) (s : gold) : gold :=
    match n with
    | O => s
    | S n => if Complex_Model.zEqual (gmin s) (gmax s) ztol then s else gold_loop n (gold_step s)
    end.
  Definition gold_init (xmin xmax : T) : gold :=
    let x1 := gold1 xmin xmax in
    let x2 := gold2 xmin xmax in
    GS xmin xmax x1 x2 (f x1) (f x2).
  (** zm_opt_line.c:17-46 *)
  Definition golden (xmin xmax : T) (iter : Z) : T :=
    let s := gold_loop (ziter iter) (gold_init xmin xmax) in
    half * (gmin s + gmax s).

  (** zm_opt_line.c:55-68: [n] iterations left; the interval at the end *)
  Fixpoint tri_loop (n : nat) (xmin xmax : T) : T * T :=
    match n with
    | O => (xmin, xmax)
    | S n =>
        if Complex_Model.zEqual xmin xmax ztol then (xmin, xmax) else
        let x1 := (nz 2 * xmin + xmax) / nz 3 in
        let x2 := (xmin + nz 2 * xmax) / nz 3 in
        let e1 := f x1 in
        let e2 := f x2 in
        if slt e2 e1 then tri_loop n x1 xmax
        else if slt e1 e2 then tri_loop n xmin x2
        else tri_loop n x1 x2
    end.
  (** zm_opt_line.c:49-72 *)
  Definition zOptLineTrisection (xmin xmax : T) (iter : Z) : T :=
    let '(xmin, xmax) := tri_loop (ziter iter) xmin xmax in half * (xmin + xmax).

  Variable eps : T.                     (** Z_OPT_EPS *)
  Record brent := BR { ba : T; bb : T; bv : T; bw : T; bx : T; bev : T; bew : T; bex : T; bd : T; bs : T }.
  (** zm_opt_line.c:86-88: tol1, dm and the test *)
  Definition brent_tol1 (s : brent) : T := eps * sabs (bx s) + ztol.
  Definition brent_dm (s : brent) : T := bx s - half * (ba s + bb s).
  Definition brent_done (s : brent) : bool :=
    is_tol (nz 2 * brent_tol1 s - half * (bb s - ba s)) (brent_dm s).
  (** zm_opt_line.c:89-108: the new d and s *)
  Definition brent_ds (s : brent) : T * T :=
    let tol1 := brent_tol1 s in
    let tol2 := nz 2 * tol1 in
    let dm := brent_dm s in
    let da := ba s - bx s in
    let db := bb s - bx s in
    let gs := if sle 0 dm then da else db in
    if is_tol tol1 (bs s) then (gr * gs, gs)
    else
      let r := (bx s - bw s) * (bex s - bev s) in
      let q := (bx s - bv s) * (bex s - bew s) in
      let p := (bx s - bv s) * q - (bx s - bw s) * r in
      let q := nz 2 * (q - r) in
      let p := if slt 0 q then - p else p in
      let q := sabs q in
      if negb (is_tol (sabs (half * q * bs s)) p) || sle p (q * da) || sle (q * db) p then (gr * gs, gs)
      else
        let d := p / q in
        let u := bx s + d in
        ((if slt (u - ba s) tol2 || slt (bb s - u) tol2 then (if sle dm 0 then tol1 else - tol1) else d), bd s).
  (** zm_opt_line.c:109-124 *)
  Definition brent_step (s : brent) : brent :=
    let '(d, s') := brent_ds s in
    let u := bx s + d in
    let eu := f u in
    if sle eu (bex s) then
      let a := if sle 0 d then bx s else ba s in
      let b := if sle 0 d then bb s else bx s in
      BR a b (bw s) (bx s) u (bew s) (bex s) eu d s'
    else
      let a := if slt d 0 then u else ba s in
      let b := if slt d 0 then bb s else u in
      if sle eu (bew s) || seq (bw s) (bx s) then BR a b (bw s) u (bx s) (bew s) eu (bex s) d s'
      else if sle eu (bev s) || seq (bv s) (bx s) || seq (bv s) (bw s) then BR a b u (bw s) (bx s) eu (bew s) (bex s) d s'
      else BR a b (bv s) (bw s) (bx s) (bev s) (bew s) (bex s) d s'.
  (** zm_opt_line.c:85-125: [n] iterations left *)
  Fixpoint brent_loop (n : nat) (s : brent) : brent :=
    match n with
    | O => s
    | S n => if brent_done s then s else brent_loop n (brent_step s)
    end.
  (** zm_opt_line.c:75-128; the loop is run up to iter+1 times *)
  Definition zOptLineBrent (a b : T) (iter : Z) : T :=
    let x := half * (a + b) in
    let e := f x in
    bx (brent_loop (S (ziter iter)) (BR a b x x x e e e 0 0)).
End Root.
(** zm_opt_line.c:17-46 *)
Definition zOptLineGoldenSection {T} `{Scalar T} (ztol : T) (f : T -> T) := golden ztol f zGOLDENRATIO2.
