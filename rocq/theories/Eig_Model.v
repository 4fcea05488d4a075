(** Model of src/zm_mat_eig.c (Jacobi's method for symmetric matrices, singular value decomposition) and
    src/zm_le_lq.c.  [ztol] is zTOL.  Matrices and vectors are at the value level; the raw loops behind products,
    norms and sums are those of Vop.  Allocation is assumed to succeed. *)
From Verif Require Import Prelude Scalar Fmat LE_Model IP_Model Vop Stat_Model.
From Verif Require Complex_Model.

Section Eig.
  Context {T : Type} {ST : Scalar T}.
  Local Open Scope S_scope.
  Local Notation vec := (fvec T).
  Local Notation mat := (fmat T).
  Local Notation half := (sofZ 1%Z / sofZ 2%Z).
  Variable ztol : T.

  (** zm_mat.c:391-397 *)
  Definition zMatShift (m : mat) (shift : T) : res mat :=
    for_ 0 (nr m) (fun i m => mmod m i i (fun x => x + shift)) m.
  (** zm_mat_eig.c:488-501: the shifted matrix and the shift; zQESolve with a = 1 does not fail *)
  Definition _zMatSymEigJacobiShift (m : mat) : res (mat * T) :=
    m00 <- mget m 0 0 ;; m11 <- mget m 1 1 ;; m10 <- mget m 1 0 ;; m01 <- mget m 0 1 ;;
    let b := (- m00) - m11 in
    let c := m00 * m11 - m10 * m01 in
    match Complex_Model.zQESolve half (sofZ 4%Z) 1 b c with
    | None => UB
    | Some (c0, c1) =>
        let c := if slt (sabs (fst c0 - m00)) (sabs (fst c1 - m00)) then fst c0 else fst c1 in
        m <- zMatShift m (- c) ;; Ok (m, c)
    end.
  (** zm_mat_eig.c:504-540: the matrix and the transformation *)
  Definition _zMatSymEigJacobiRot (m v : mat) (i j : nat) : res (mat * mat) :=
    mii <- mget m i i ;; mjj <- mget m j j ;; mij <- mget m i j ;;
    let as_ := half * (mii + mjj) in
    let ad := half * (mii - mjj) in
    let ti := ssqrt (ad * ad + mij * mij) in
    let ti := if slt ad 0 then - ti else ti in
    let c := ssqrt (half + half * ad / ti) in
    let s := half * mij / (ti * c) in
    m <- mset m i i (as_ + ti) ;;
    m <- mset m j j (as_ - ti) ;;
    m <- mset m i j 0 ;;
    m <- mset m j i 0 ;;
    for_ 0 (nr m) (fun k '(m, v) =>
      tmp1 <- mget v k i ;; tmp2 <- mget v k j ;;
      v <- mset v k i (c * tmp1 + s * tmp2) ;;
      v <- mset v k j ((- s) * tmp1 + c * tmp2) ;;
      if (k =? i)%nat || (k =? j)%nat then Ok (m, v)
      else
        tmp1 <- mget m i k ;; tmp2 <- mget m j k ;;
        m <- mset m i k (c * tmp1 + s * tmp2) ;;
        m <- mset m j k ((- s) * tmp1 + c * tmp2) ;;
        x <- mget m i k ;; m <- mset m k i x ;;
        x <- mget m j k ;; m <- mset m k j x ;;
        Ok (m, v)) (m, v).
  (** zm_mat_eig.c:558-566: one sweep; the flag is is_complete *)
  Definition jacobi_sweep (d v : mat) : res (mat * mat * bool) :=
    for_ 1 (Nat.max 1 (nr d)) (fun i s =>
      for_ 0 i (fun j '(d, v, ok) =>
        x <- mget d i j ;;
        if is_tol ztol x then Ok (d, v, ok)
        else '(d, v) <- _zMatSymEigJacobiRot d v i j ;; Ok (d, v, false)) s) (d, v, true).
  (** zm_mat_eig.c:557-571, [rest] sweeps may follow this one; the flag tells that ZITERWARN was reached *)
  Fixpoint jacobi_loop (rest : nat) (d v : mat) : res (mat * mat * bool) :=
    '(d, v, ok) <- jacobi_sweep d v ;;
    match rest with
    | O => Ok (d, v, true)
    | S rest => if (ok : bool) then Ok (d, v, false) else jacobi_loop rest d v
    end.
  (** zm_mat_eig.c:543-577, the size check of 360-373; [maxiter] is Z_MAX_ITER_NUM; None is false *)
  Definition zMatSymEigJacobi (maxiter : nat) (m : mat) (eigval : vec) (eigbase : mat) : res (option (vec * mat * bool)) :=
    if negb (nr m =? nc m)%nat then Ok None
    else if negb ((nr m =? nr eigbase) && (nc m =? nc eigbase))%nat then Ok None
    else if negb (nr m =? vlen eigval)%nat then Ok None
    else
      let v := FM (nr m) (nr m) (fun i j => if (i =? j)%nat then 1 else 0) in
      '(d, shift) <- _zMatSymEigJacobiShift m ;;
      '(d, v, warned) <- jacobi_loop (S maxiter) d v ;;
      eigval <- for_ 0 (nr m) (fun j e => x <- mget d j j ;; vset e j (x + shift)) eigval ;;
      Ok (Some (eigval, v, warned)).

  (** zm_mat.c zMatSwapColNC, zm_vec.c zVecSwapNC *)
  Definition mat_swap_col (m : mat) (a b : nat) : res mat :=
    if (a <? nc m)%nat && (b <? nc m)%nat
    then Ok (FM (nr m) (nc m) (fun i j => if (j =? a)%nat then el m i b else if (j =? b)%nat then el m i a else el m i j)) else UB.
  Definition vec_swap (v : vec) (a b : nat) : res vec :=
    if (a <? vlen v)%nat && (b <? vlen v)%nat
    then Ok (FV (vlen v) (fun j => if (j =? a)%nat then vel v b else if (j =? b)%nat then vel v a else vel v j)) else UB.
  (** zm_mat_eig.c:580-596; [svdtol] is ZM_MAT_SVD_TOL *)
  Definition _zMatSVDSort (svdtol : T) (m : mat) (sv : vec) (u : mat) : res (vec * mat * nat) :=
    r <- forb 0 (Nat.min (nr m) (nc m)) (fun i '(sv, u) =>
           '(mx, im) <- zDataMax (skipn i (to_list sv)) (vlen sv - i) ;;
           if is_tol svdtol mx then Ok (inr (sv, u, i))
           else
             let im := (im + i)%nat in
             sv <- vec_swap sv i im ;;
             x <- vget sv i ;;
             sv <- vset sv i (ssqrt x) ;;
             u <- mat_swap_col u i im ;;
             Ok (inl (sv, u))) (sv, u) ;;
    let '(sv, u, rank) := match r with inl (sv, u) => (sv, u, Nat.min (nr m) (nc m)) | inr x => x end in
    sv <- for_ rank (Nat.max rank (vlen sv)) (fun i sv => vset sv i 0) sv ;;
    Ok (sv, u, rank).
  (** zm_mat.c zMulMatMatTNC, zMulMatTMatNC into matrices of the right size *)
  Definition mul_mat_matT (a b : mat) : mat := FM (nr a) (nr b) (fun i j => ksum (nc a) (fun k => el a i k * el b j k)).
  Definition mul_matT_mat (a b : mat) : mat := FM (nc a) (nc b) (fun i j => ksum (nr a) (fun k => el a k i * el b k j)).
  (** zm_mat_eig.c:599-629: the rank with u, sv and v.  The answer of zMatSymEigJacobi is ignored.  The row size
      of [v] is set to the rank, for which it must have the capacity (nr v); its columns must be those of m.
      zMatAlloc with no column fails, which leaves v as it is. *)
  Definition zMatSVD (maxiter : nat) (svdtol : T) (m : mat) (u : mat) (sv : vec) (v : mat) : res (nat * mat * vec * mat) :=
    let c := mul_mat_matT m m in
    r <- zMatSymEigJacobi maxiter c sv u ;;
    let '(sv, u) := match r with Some (sv, u, _) => (sv, u) | None => (sv, u) end in
    '(sv, u, rank) <- _zMatSVDSort svdtol m sv u ;;
    if (rank =? 0)%nat then Ok (rank, u, sv, v)
    else if negb ((rank <=? nc u) && (nr m <=? nr u) && (rank <=? nr v) && (nc v =? nc m))%nat then UB
    else
      let w := FM (nr u) rank (el u) in
      v <- for_ 0 rank (fun i v =>
             x <- vget sv i ;;
             let s := 1 / x in
             for_ 0 (nc m) (fun j v => mmod v i j (fun x => x * s)) v) (mul_matT_mat w m) ;;
      Ok (rank, u, sv, v).

  (** ** zm_le_lq.c *)
  (** a row of a matrix *)
  Definition row (m : mat) (i : nat) : nat -> T := el m i.
  (** zm_le_lq.c:10-29; [lqtol] is ZM_LQ_DECOMP_GRAMSCHMIDT_TOL.  The rows have the column size of [m], which those
      of [q] must have. *)
  Definition zMatDecompLQ_GramSchmidt_DST (lqtol : T) (m l q : mat) : res (mat * mat * mat * nat) :=
    if negb (nc q =? nc m)%nat then UB
    else
    for_ 0 (nr m) (fun i '(m, l, q, rank) =>
      '(m, l) <- for_ 0 rank (fun j '(m, l) =>
         _ <- mget q j 0 ;;
         let r := ksum (nc m) (fun k => el m i k * el q j k) in
         let m := FM (nr m) (nc m) (fun a b => if (a =? i)%nat then el m i b + (- r) * el q j b else el m a b) in
         l <- mset l i j r ;;
         Ok (m, l)) (m, l) ;;
      let r := ssqrt (ksum (nc m) (fun k => el m i k * el m i k)) in
      if is_tol lqtol r then Ok (m, l, q, rank)
      else if negb (rank <? nr q)%nat then UB
      else
        let q := FM (nr q) (nc q) (fun a b => if (a =? rank)%nat then el m i b * (1 / r) else el q a b) in
        l <- mset l i rank r ;;
        Ok (m, l, q, if (rank <? nc m)%nat then S rank else rank))
      (m, FM (nr l) (nc l) (fun _ _ => 0), q, O).
  (** zm_le_lq.c:32-44: the factors and the rank *)
  Definition zMatDecompLQ (lqtol : T) (m l q : mat) : res (mat * mat * nat) :=
    '(_, l, q, rank) <- zMatDecompLQ_GramSchmidt_DST lqtol m l q ;; Ok (l, q, rank).

  (** zSgn (zm_misc.h:102) *)
  Definition sgn (x : T) : T := if sle 0 x then 1 else - (1).
  (** zm_le_lq.c:47-77: the lower triangular factor in m, the orthogonal one in q, the number of reflections *)
  Definition _zMatDecompLQ_Householder_DST (m q : mat) : res (mat * mat * nat) :=
    let q := FM (nr q) (nc q) (fun i j => if (i =? j)%nat then 1 else 0) in
    if negb ((nr q =? nc m) && (nc q =? nc m))%nat then UB
    else
    for_ 0 (Nat.min (nr m) (nc m)) (fun i '(m, q, rank) =>
      x <- mget m i i ;;
      let colsize := (nc m - i)%nat in
      let s := (- sgn x) * ssqrt (ksum colsize (fun k => el m i (i + k) * el m i (i + k))) in
      let ds := s - x in
      if is_tol ztol s then Ok (m, q, rank)
      else if is_tol ztol ds then Ok (m, q, rank)
      else
        let norm_inv := 1 / (s * ds) in
        m <- mset m i i (- ds) ;;
        let u := el m i in
        q <- for_ 0 (nc q) (fun j q =>
               let refl := (- norm_inv) * ksum (nr q - i) (fun k => el q (i + k) j * u (i + k)%nat) in
               Ok (FM (nr q) (nc q) (fun a b => if (b =? j)%nat && (i <=? a)%nat then el q a b + refl * u a else el q a b))) q ;;
        m <- for_downto (S i) (nr m) (fun j m =>
               let refl := (- norm_inv) * ksum colsize (fun k => el m j (i + k) * u (i + k)%nat) in
               Ok (FM (nr m) (nc m) (fun a b => if (a =? j)%nat && (i <=? b)%nat then el m a b + refl * u b else el m a b))) m ;;
        let m := FM (nr m) (nc m) (fun a b => if (a =? i)%nat && (i <=? b)%nat then (if (b =? i)%nat then s else 0) else el m a b) in
        Ok (m, q, S rank)) (m, q, O).
  (** zm_le_lq.c:80-98, 101-117: the leading columns of L, the leading rows of Q and the rank; None is -1.
      The destinations have the capacity for it. *)
  Definition zMatDecompLQ_Householder (m : mat) : res (option (mat * mat * nat)) :=
    '(lf, qf, rank) <- _zMatDecompLQ_Householder_DST m (mzero (nc m) (nc m)) ;;
    if (rank =? 0)%nat then Ok None
    else Ok (Some (FM (nr lf) rank (el lf), FM rank (nc qf) (el qf), rank)).
  (** zm_le_lq.c:120-141: also the transposed rest of the rows of Q *)
  Definition zMatDecompLQNull (m : mat) : res (option (mat * mat * mat * nat)) :=
    '(lf, qf, rank) <- _zMatDecompLQ_Householder_DST m (mzero (nc m) (nc m)) ;;
    if (rank =? 0)%nat then Ok None
    else Ok (Some (FM (nr lf) rank (el lf), FM rank (nc qf) (el qf),
                   FM (nc m) (nc m - rank) (fun i j => el qf (rank + j) i), rank)).
  (** zm_le_lq.c:144-154: the resized factors; resizing keeps the elements *)
  Definition zMatDecompLQAndResize (lqtol : T) (m l q : mat) : res (mat * mat * nat) :=
    '(l, q, rank) <- zMatDecompLQ lqtol m l q ;;
    if (rank <? nr m)%nat then Ok (FM (nr l) rank (el l), FM rank (nc q) (el q), rank) else Ok (l, q, rank).
  (** zm_le_lq.c:163-184; without r the null pointer is dereferenced by zMatZero *)
  Definition zMatDecompQR (lqtol : T) (m q : mat) (r : option mat) : res (mat * mat * nat) :=
    match r with
    | None => UB
    | Some r =>
        let tr (a : mat) := FM (nc a) (nr a) (fun i j => el a j i) in
        '(l, q, rank) <- zMatDecompLQ lqtol (tr m) (mzero (nc r) (nr r)) (mzero (nc q) (nr q)) ;;
        Ok (tr q, tr l, rank)
    end.
End Eig.
