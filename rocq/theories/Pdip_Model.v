(** Model of src/zm_opt_lp_pdip.c (linear programming, primal-dual interior-point method with Mehrotra's
    predictor-corrector).  [ztol] is zTOL in this file, [stol] zTOL
    in the search for the step length, [gtol] zTOL in the functions of the linear equations, [lqtol] that
    of the LQ decomposition.  Vectors and matrices are at the value level (Fmat).  Allocation is assumed to succeed,
    except that of a vector of size 0, and so zLESolveMP succeeds. *)
From Verif Require Import Prelude Scalar Fmat LE_Model IP_Model Vop Root_Model Stat_Model Asm_Model Gen_Model Lcpip_Model.

Section Pdip.
  Context {T : Type} {ST : Scalar T}.
  Local Open Scope S_scope.
  Local Notation vec := (fvec T).
  Local Notation mat := (fmat T).
  Variable ztol stol gtol lqtol : T.
  Variable idx2 : nat -> list nat.

  (** zm_raw_vec.c:47-50 by zVecShiftDRC *)
  Definition zVecShiftDRC (v : vec) (k : T) : vec := FV (vlen v) (fun i => vel v i + k).
  (** zm_opt_lp_pdip.c:78-81: an interior point by shifting *)
  Definition lift (v : vec) : res vec :=
    '(m, _) <- zDataMin (to_list v) (vlen v) ;;
    Ok (if sle m ztol then zVecShiftDRC v (- m + ztol) else v).
  (** zm_opt_lp_pdip.c:67-83: x, y and z *)
  Definition _zLP_PDIPInit (a : mat) (b c x : vec) : res (vec * vec * vec) :=
    x <- zLESolveMP_LQ gtol lqtol idx2 a b None None x ;;
    let y := FV (vlen b) (fun _ => 1) in
    z <- zMulMatTVecNC a y (vzero (vlen c)) ;;
    z <- zVecSubNC c z z ;;
    x <- lift (store x) ;;
    z <- lift (store z) ;;
    Ok (store x, y, store z).
  (** zm_vec.h zVecDemNC *)
  Definition zVecDemNC (v1 v2 v : vec) : res vec := vop2 sdiv v1 v2 v.
  (** zm_opt_lp_pdip.c:86-91 *)
  Definition _zLP_PDIPEqLUDecomp (a : mat) (x z : vec) : res (option (mat * mat * list nat * nat)) :=
    xz <- zVecDemNC x z (vzero (vlen z)) ;;
    q <- zMatQuadNC a (Some (store xz)) (zmat (nr a) (nr a)) ;;
    zMatDecompLU gtol (mstore q) (zmat (nr a) (nr a)) (zmat (nr a) (nr a)) (List.seq 0 (nr a)).
  (** zm_opt_lp_pdip.c:94-107; the answers of the two solvers are not tested.  The sizes of l and u are restored. *)
  Definition _zLESolveLUDeg (l u : mat) (rank : nat) (b ans : vec) : res vec :=
    if (rank =? 0)%nat then Ok ans
    else
      c <- zLESolveErrorMin gtol (FM (nr l) rank (el l)) b None (zvec rank) ;;
      ans' <- zLESolveNormMin gtol (FM rank (nc u) (el u)) (match c with Some c => c | None => zvec rank end) None ans ;;
      Ok (match ans' with Some v => v | None => ans end).
  (** zm_opt_lp_pdip.c:109-132: the directions dx, dy, dz; dy is what the vector held before *)
  Definition _zLP_PDIPEqLU (a : mat) (x z : vec) (lu : mat * mat * list nat * nat) (v1 v2 : option vec) (v3 dy : vec) : res (vec * vec * vec) :=
    let '(l, u, idx, rank) := lu in
    dz <- match v2 with Some v2 => zVecAmpNC v2 x (vzero (vlen z)) | None => Ok (vzero (vlen z)) end ;;
    dz <- zVecSubNC dz v3 dz ;;
    dz <- zVecDemNC dz z dz ;;
    tmp <- zMulMatVecNC a dz (vzero (vlen dy)) ;;
    tmp <- match v1 with Some v1 => zVecAddNC tmp v1 tmp | None => Ok tmp end ;;
    tmp <- zVecRevDRC tmp ;;
    let tmp := store tmp in
    dy <- (if (rank =? nr a)%nat then o <- zLESolveLU l u tmp dy idx ;; Ok (match o with Some v => v | None => dy end)
           else _zLESolveLUDeg l u rank tmp dy) ;;
    let dy := store dy in
    dz <- zMulMatTVecNC a dy dz ;;
    dz <- match v2 with Some v2 => zVecAddNC dz v2 dz | None => Ok dz end ;;
    dz <- zVecRevDRC dz ;;
    let dz := store dz in
    dx <- zVecAmpNC x dz (vzero (vlen z)) ;;
    dx <- zVecAddNC dx v3 dx ;;
    dx <- zVecDemNC dx z dx ;;
    dx <- zVecRevDRC dx ;;
    Ok (store dx, dy, dz).
  (** zm_opt_lp_pdip.c:167-177: v1, v2, v3 and the product of x and z *)
  Definition _zLP_PDIP_PCErr (a : mat) (b c x y z : vec) : res (vec * vec * vec * T) :=
    v1 <- zMulMatVecNC a x (vzero (vlen b)) ;;
    v1 <- zVecSubNC v1 b v1 ;;
    v2 <- zMulMatTVecNC a y (vzero (vlen c)) ;;
    v2 <- zVecAddNC v2 z v2 ;;
    v2 <- zVecSubNC v2 c v2 ;;
    v3 <- zVecAmpNC x z (vzero (vlen c)) ;;
    e <- zDataSum (to_list v3) (vlen v3) ;;
    Ok (store v1, store v2, store v3, e).
  (** zm_opt_lp_pdip.c:180-212; the bound from above and the bound from below, none at first *)
  Definition step_scan (x dx : vec) (i : nat) (s : option T * option T) : res ((option T * option T) + unit) :=
    d <- vget dx i ;;
    xi <- vget x i ;;
    if is_tol stol d && slt xi (- stol) then Ok (inr tt)
    else
      let val := - xi / d in
      let '(max, min) := s in
      Ok (inl (if slt d (- stol) then (match max with None => Some val | Some m => if slt val m then Some val else max end, min)
               else if slt stol d then (max, match min with None => Some val | Some m => if slt m val then Some val else min end)
               else s)).
  Definition _zLP_PDIP_PCStep (x dx : vec) : res T :=
    r <- forb 0 (vlen dx) (step_scan x dx) (None, None) ;;
    match r with
    | inr _ => Ok 0
    | inl (max, min) =>
        let max := match max with Some m => m | None => 0 end in
        let min := match min with Some m => m | None => 0 end in
        if slt max min then Ok 0 else Ok max
    end.
  (** zm_opt_lp_pdip.c:215-224: the new v3 *)
  Definition _zLP_PDIP_PCCorrect (x z dx dz : vec) (ap ad e : T) : res vec :=
    v3 <- zVecAmpNC dx dz (vzero (vlen z)) ;;
    dx2 <- zVecCatNC x ap dx (vzero (vlen z)) ;;
    dz2 <- zVecCatNC z ad dz (vzero (vlen z)) ;;
    let g := zVecInnerProd dx2 dz2 / e in
    Ok (store (zVecShiftDRC v3 (- (g * g * g) * e / sofZ (Z.of_nat (vlen x))))).
  (** zm_opt_lp_pdip.c:228: 0.99 *)
  Definition PCSTEP_MUL : T := sofZ 99 / sofZ 100.
  (** zm_opt_lp_pdip.c:257-258 *)
  Definition step_len (x dx : vec) : res T :=
    m <- _zLP_PDIP_PCStep x dx ;;
    let a := PCSTEP_MUL * m in Ok (if slt 1 a then 1 else a).

  (** how the loop is left: the test of convergence, one of the two tests of the step lengths, the iteration limit *)
  Inductive ending := Converged | Stalled | RanOut.
  (** the end, x, y, z and the step lengths, the last ones first (these are kept for the statements only) *)
  Record pdip := Pdip { pend : ending; px : vec; py : vec; pz : vec; psteps : list (T * T) }.
  (** zm_opt_lp_pdip.c:251-256: the two directions, to be added; None = the step lengths are tiny *)
  Definition directions (a : mat) (v1 v2 v3 x z dy dy2 : vec) (e : T) : res (option (vec * vec * vec * vec * vec)) :=
    o <- _zLP_PDIPEqLUDecomp a x z ;;
    match o with
    | None => UB (* rank -1: cannot occur as the factors have the sizes required *)
    | Some lu =>
        '(dx, dy, dz) <- _zLP_PDIPEqLU a x z lu (Some v1) (Some v2) v3 dy ;;
        ap <- _zLP_PDIP_PCStep x dx ;;
        ad <- _zLP_PDIP_PCStep z dz ;;
        if is_tol ztol ap && is_tol ztol ad then Ok None
        else
          v3 <- _zLP_PDIP_PCCorrect x z dx dz ap ad e ;;
          '(dx2, dy2, dz2) <- _zLP_PDIPEqLU a x z lu None None v3 dy2 ;;
          dx <- zVecAddNC dx dx2 dx ;;
          dy <- zVecAddNC dy dy2 dy ;;
          dz <- zVecAddNC dz dz2 dz ;;
          Ok (Some (store dx, store dy, store dz, dy2, v3))
    end.
  (** zm_opt_lp_pdip.c:244-263 *)
  Fixpoint pdip_loop (k : nat) (a : mat) (b c x y z dy dy2 : vec) (st : list (T * T)) : res pdip :=
    match k with
    | O => Ok (Pdip RanOut x y z st)
    | S k =>
        '(v1, v2, v3, e) <- _zLP_PDIP_PCErr a b c x y z ;;
        if zVecIsTol ztol v1 && zVecIsTol ztol v2 && is_tol ztol e then Ok (Pdip Converged x y z st)
        else
          o <- directions a v1 v2 v3 x z dy dy2 e ;;
          match o with
          | None => Ok (Pdip Stalled x y z st)
          | Some (dx, dy, dz, dy2, _) =>
              ap <- step_len x dx ;;
              ad <- step_len z dz ;;
              if is_tol ztol ap && is_tol ztol ad then Ok (Pdip Stalled x y z st)
              else
                x <- zVecCatNC x ap dx x ;;
                y <- zVecCatNC y ad dy y ;;
                z <- zVecCatNC z ad dz z ;;
                pdip_loop k a b c (store x) (store y) (store z) dy dy2 ((ap, ad) :: st)
          end
    end.
  (** zm_opt_lp_pdip.c:229-275: the answer is true in every case; x and the cost are left. *)
  Definition zLPSolvePDIP_PC (a : mat) (b c x : vec) : res (bool * vec * T * pdip) :=
    '(x, y, z) <- _zLP_PDIPInit a b c x ;;
    o <- pdip_loop (ziter 0) a b c x y z (vzero (vlen b)) (vzero (vlen b)) [] ;;
    let x := zVecTouchup ztol (px o) in
    Ok (true, x, zVecInnerProd x c, o).
End Pdip.
Arguments Pdip {T}. Arguments pend {T}. Arguments px {T}. Arguments py {T}. Arguments pz {T}. Arguments psteps {T}.
