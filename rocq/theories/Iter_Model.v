(** Model of the iterative solvers of linear equations: zLEResidual, zLESolveLURI and zLESolveGaussSeidel
    (src/zm_le.c), zMatInvHotelling and zMulInvMatMatAndVec (src/zm_le_mat_inv.c); value level, see Fmat.
    [tol] is zTOL, [maxit] is Z_MAX_ITER_NUM (include/zm/zm_misc.h:95), [huge] is HUGE_VAL.  The boolean of an
    answer is false when the warning about the number of iterations is given (ZITERWARN). *)
From Verif Require Import Prelude Scalar Fmat LE_Model IP_Model Vop Gen_Model.

Section Iter.
  Context {T : Type} {ST : Scalar T}.
  Local Open Scope S_scope.
  Variable tol : T.
  Variable maxit : nat.
  Local Notation vec := (fvec T).
  Local Notation mat := (fmat T).
  Local Notation index := (list nat).

  (** ** Gauss-Seidel *)
  (** zm_le.c:313-319: row [j] of a sweep *)
  Definition gs_row (a : mat) (b : vec) (idx : index) (j : nat) (st : vec * nat) : res (vec * nat) :=
    let '(ans, count) := st in
    p <- get idx j ;; x <- vget b p ;;
    x <- for_ 0 (vlen ans) (fun k x => if negb (k =? j)%nat then y <- mget a p k ;; z <- vget ans k ;; Ok (x - y * z) else Ok x) x ;;
    d <- mget a p j ;;
    let x := x / d in
    old <- vget ans j ;;
    let count := if is_tol tol (x - old) then S count else count in
    ans <- vset ans j x ;; Ok (ans, count).
  (** zm_le.c:312-320 *)
  Definition gs_sweep (a : mat) (b : vec) (idx : index) (ans : vec) : res (vec * nat) :=
    for_ 0 (vlen b) (gs_row a b idx) (ans, 0%nat).
  (** zm_le.c:308-309: the order of the rows; the matrix itself is not changed *)
  Definition gs_order (a : mat) (n : nat) : res index :=
    for_ 0 n (fun i idx => zMatPivoting a idx i i) (List.seq 0 n).
  (** zm_le.c:292-329; the test of the number of iterations follows the sweep, so there are at most [maxit]+1 sweeps *)
  Definition zLESolveGaussSeidel (a : mat) (b ans : vec) : res (option (vec * bool)) :=
    if negb (nr a =? nc a)%nat then Ok None
    else if negb (nc a =? vlen ans)%nat || negb (nr a =? vlen b)%nat then Ok None
    else
      idx <- gs_order a (vlen ans) ;;
      o <- forb 0 (S maxit) (fun _ ans =>
             '(ans, count) <- gs_sweep a b idx ans ;;
             if (count =? vlen ans)%nat then Ok (inr ans) else Ok (inl ans)) ans ;;
      Ok (Some (match o with inr x => (x, true) | inl x => (x, false) end)).

  (** ** LU decomposition and iteration of the residual *)
  (** zm_vec.c:320-331 with zm_raw_vec.c: the size of the destination decides *)
  Definition vzip (f : T -> T -> T) (v1 v2 v : vec) : res vec :=
    if (vlen v <=? vlen v1)%nat && (vlen v <=? vlen v2)%nat then Ok (FV (vlen v) (fun i => f (vel v1 i) (vel v2 i))) else UB.
  (** zm_le.c:119-123 *)
  Definition zLEResidual (a : mat) (b x r : vec) : res vec :=
    r <- zMulMatVecNC a x r ;; vzip ssub b r r.
  (** zm_le.c:251-289; the answer of zLESolveLU is ignored: on failure its destination keeps its value *)
  Definition solve_lu_into (l u : mat) (b ans : vec) (idx : index) : res vec :=
    o <- zLESolveLU l u b ans idx ;; Ok (match o with Some x => x | None => ans end).
  Definition zLESolveLURI (huge : T) (a : mat) (b ans : vec) : res (option (vec * bool)) :=
    let n := vlen b in
    o <- zMatDecompLU tol a (zmat n n) (zmat n n) (List.seq 0 n) ;;
    match o with
    | None => Ok None
    | Some (l, u, idx, rank) =>
        if (rank <? nr a)%nat then Ok None
        else
          ans <- solve_lu_into l u b ans idx ;;
          o <- forb 0 maxit (fun _ st =>
                 let '(ans, r, err, old) := st in
                 r <- zLEResidual a b ans r ;;
                 let err_norm := ssqrt (zVecSqrNorm r) in
                 if sle old err_norm then Ok (inr ans)
                 else
                   err <- solve_lu_into l u r err idx ;;
                   ans <- vzip sadd ans err ans ;;
                   Ok (inl (ans, r, err, err_norm))) (ans, zvec n, zvec n, huge) ;;
          Ok (Some (match o with inr x => (x, true) | inl (x, _, _, _) => (x, false) end))
    end.

  (** ** Hotelling *)
  (** zm_mat.c:617-620 with zm_raw_mat.c:315-322 *)
  Fixpoint zMatSqrNorm_rows (m : mat) (k : nat) : T :=
    match k with O => 0 | S k => zMatSqrNorm_rows m k + ksum (nc m) (fun j => el m k j * el m k j) end.
  Definition zMatSqrNorm (m : mat) : T := zMatSqrNorm_rows m (nr m).
  (** zm_mat.c:593-604 in place: a tiny divisor leaves the matrix alone *)
  Definition zMatDivDRC (m : mat) (k : T) : mat :=
    if is_tol tol k then m else FM (nr m) (nc m) (fun i j => el m i j * (1 / k)).
  (** zm_mat.c:444-447 *)
  Definition zMatIsTol (t : T) (m : mat) : bool :=
    forallb (fun i => forallb (fun j => is_tol t (el m i j)) (List.seq 0 (nc m))) (List.seq 0 (nr m)).
  (** zm_le_mat_inv.c:367-371: the next matrix; and 372-375: M X - I *)
  Definition hot_next (m x : mat) : mat :=
    let t := mulmm x (mulmm m x) in
    FM (nr x) (nc x) (fun i j => el x i j * sofZ 2 - el t i j).
  Definition hot_error (m x : mat) : mat :=
    let t := mulmm m x in
    FM (nr t) (nc t) (fun i j => if (i =? j)%nat then el t i j - 1 else el t i j).
  (** zm_le_mat_inv.c:342-391.  The state is (mc, mn, mc == im).  When the error of mn is within the tolerance, im gets
      mc, the matrix before.  When the iterations run out, im holds the last or the last but one matrix *)
  Definition zMatInvHotelling (m im : mat) (t : T) (iter : Z) : res (option (mat * bool)) :=
    if negb (nr m =? nc m)%nat then Ok None
    else if negb ((nr m =? nr im)%nat && (nc m =? nc im)%nat) then Ok None
    else
      let im := zMatDivDRC (transpose m) (zMatSqrNorm m) in
      let n := if (iter <=? 0)%Z then maxit else Z.to_nat iter in
      o <- forb 0 n (fun _ st =>
             let '(mc, mn, isim) := st in
             let mn := hot_next m mc in
             if zMatIsTol t (hot_error m mn) then Ok (inr mc)
             else Ok (inl (mn, mc, negb isim))) (im, zmat (nr m) (nr m), true) ;;
      Ok (Some (match o with inr x => (x, true) | inl (mc, mn, isim) => (if isim : bool then mc else mn, false) end)).

  (** ** zm_le_mat_inv.c:243-339: the matrix and the vector are reduced in the same run.  The text is that of _zMulInvMat
      with the vector as one more column of the right-hand side, so the model works on that matrix; the answers are taken
      apart again.  The C code returns NULL without an answer when m1 is singular. *)
  Definition augment (m : mat) (v : vec) : mat := FM (nr m) (S (nc m)) (fun i j => if (j <? nc m)%nat then el m i j else vel v i).
  Definition zMulInvMatMatAndVecNC (m1 m2 : mat) (v : vec) (ma : mat) (va : vec) : res (option (mat * vec)) :=
    o <- mul_inv_mat tol m1 (augment m2 v) (augment ma va) (List.seq 0 (nr m1)) (Some (zvec (nr m1))) ;;
    Ok (option_map (fun x => (FM (nr ma) (nc ma) (el x), FV (vlen va) (fun i => el x i (nc ma)))) o).
  Definition zMulInvMatMatAndVec (m1 m2 : mat) (v : vec) (ma : mat) (va : vec) : res (option (mat * vec)) :=
    if negb (nr m1 =? nc m1)%nat then Ok None
    else if negb (nc m1 =? nr m2)%nat || negb ((nr m2 =? nr ma)%nat && (nc m2 =? nc ma)%nat) then Ok None
    else if negb (nc m1 =? vlen v)%nat || negb (vlen v =? vlen va)%nat then Ok None
    else zMulInvMatMatAndVecNC m1 m2 v ma va.
End Iter.
