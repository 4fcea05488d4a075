(** Model of the generalized linear equation solvers: src/zm_le_gen.c, src/zm_le_lyapnov.c, src/zm_le_mat_mpinv.c
    (value level, see Fmat).

    [tol] is zTOL, [lqtol] ZM_LQ_DECOMP_GRAMSCHMIDT_TOL.  [None] is a NULL answer after an error message, or a weight that
    is the null pointer.  Allocation is assumed to succeed, unless a size is zero.  The workspace (zLEWorkspace) is
    represented by the sizes of its objects and by the order left in its index array: all its other contents are
    written before they are read. *)
From Verif Require Import Prelude Scalar Fmat LE_Model IP_Model Vop Eig_Model.

Section Gen.
  Context {T : Type} {ST : Scalar T}.
  Local Open Scope S_scope.
  Variables tol lqtol : T.
  Local Notation vec := (fvec T).
  Local Notation mat := (fmat T).
  Local Notation index := (list nat).

  (** zm_vec.h:102 *)
  Definition zVecElem (w : vec) (k : nat) : T := if (k <? vlen w)%nat then vel w k else 0.
  (** the product with an optional weight: zm_mat.c:888, 925 *)
  Definition weigh (w : option vec) (k : nat) (x : T) : T := match w with Some w => zVecElem w k * x | None => x end.
  (** zm_mat.c:880-896: q = a diag(w) a^T, [n] being the number of rows, [c] that of columns and [a i k] the access to
      an element *)
  Definition quad (n c : nat) (a : nat -> nat -> res T) (w : option vec) (q : mat) : res mat :=
    q <- for_ 0 c (fun k q => for_ 0 n (fun i q =>
           x <- a i k ;;
           let wa := weigh w k x in
           for_ i n (fun j q => y <- a j k ;; mmod q i j (fun z => z + wa * y)) q) q)
         (FM (nr q) (nc q) (fun _ _ => 0)) ;;
    for_ 0 n (fun i q => for_ i n (fun j q => x <- mget q i j ;; mset q j i x) q) q.
  Definition zMatQuadNC (a : mat) (w : option vec) (q : mat) : res mat := quad (nr a) (nc a) (fun i k => mget a i k) w q.
  (** zm_mat.c:917-933 is the same text with the indices of [a] exchanged: q = a^T diag(w) a *)
  Definition zMatTQuadNC (a : mat) (w : option vec) (q : mat) : res mat := quad (nc a) (nr a) (fun i k => mget a k i) w q.
  (** zm_mat.c zMulMatMatTNC (a, a), the size being that of the destination *)
  Definition zMulMatMatTNC (a b q : mat) : res mat :=
    if ((nr q <=? nr a) && (nc q <=? nr b) && (nc a <=? nc b))%nat
    then Ok (FM (nr q) (nc q) (fun i j => ksum (nc a) (fun k => el a i k * el b j k))) else UB.
  (** zm_vec.c zVecAmpNCDRC, zVecDemNCDRC, zVecAddNCDRC *)
  Definition zVecAmpNCDRC (v w : vec) : res vec := vop2 smul v w v.
  Definition zVecDemNCDRC (v w : vec) : res vec := vop2 sdiv v w v.
  Definition zVecAddNCDRC (v w : vec) : res vec := vop2 sadd v w v.
  (** zm_le.c:119-123 *)
  Definition zLEResidual (a : mat) (b x r : vec) : res vec := r <- zMulMatVecNC a x r ;; zVecSubNC b r r.
  (** a call of zLESolveGaussDST with the objects of a workspace for [nv] variables, the answer being stored in a vector
      of size [na] *)
  Definition gauss (nv na : nat) (m : mat) (b : vec) (idx : index) : res (option vec) :=
    if ((vlen b <=? na) && (vlen b <=? nv))%nat then zLESolveGaussDST tol m b (zvec (vlen b)) idx (Some (zvec nv)) else UB.

  (** ** zm_le_gen.c:164-190.  The weighted norm is minimised.  [nv] is the number of variables the workspace is
      allocated for and [idx] the order in its index array. *)
  Definition zLESolveNormMinDST (nv : nat) (idx : index) (a : mat) (b : vec) (w : option vec) (ans : vec) : res (option vec) :=
    m <- match w with Some _ => zMatQuadNC a w (zmat nv nv) | None => zMulMatMatTNC a a (zmat nv nv) end ;;
    o <- gauss nv nv m b idx ;;
    match o with
    | None => Ok None
    | Some y => ans <- zMulMatTVecNC a y ans ;; match w with Some w => rmap Some (zVecAmpNCDRC ans w) | None => Ok (Some ans) end
    end.
  Definition zLESolveNormMin (a : mat) (b : vec) (w : option vec) (ans : vec) : res (option vec) :=
    if negb (nr a =? vlen b)%nat || negb (nc a =? vlen ans)%nat then Ok None
    else if match w with Some w => negb (vlen ans =? vlen w)%nat | None => false end then Ok None
    else zLESolveNormMinDST (nr a) (List.seq 0 (nr a)) a b w ans.
  (** zm_le_gen.c:192-219: [b] is the copy of the right-hand side *)
  Definition weigh_vec (b : vec) (w : option vec) : res vec := match w with Some w => zVecAmpNCDRC b w | None => Ok b end.
  Definition zLESolveErrorMinDST (nv : nat) (idx : index) (a : mat) (b : vec) (w : option vec) (ans : vec) : res (option vec) :=
    b <- weigh_vec b w ;;
    v <- zMulMatTVecNC a b (zvec nv) ;;
    m <- zMatTQuadNC a w (zmat nv nv) ;;
    gauss nv (vlen ans) m v idx.
  Definition zLESolveErrorMin (a : mat) (b : vec) (w : option vec) (ans : vec) : res (option vec) :=
    if negb (nr a =? vlen b)%nat || negb (nc a =? vlen ans)%nat then Ok None
    else if match w with Some w => negb (vlen b =? vlen w)%nat | None => false end then Ok None
    else zLESolveErrorMinDST (nc a) (List.seq 0 (nc a)) a b w ans.
  (** zm_le_gen.c:221-249 *)
  Definition zLESolveRefNormMinDST (nv : nat) (idx : index) (a : mat) (b : vec) (w : option vec) (ref ans : vec) : res (option vec) :=
    m <- match w with Some _ => zMatQuadNC a w (zmat nv nv) | None => zMulMatMatTNC a a (zmat nv nv) end ;;
    v <- zLEResidual a b ref (zvec nv) ;;
    o <- gauss nv nv m v idx ;;
    match o with
    | None => Ok None
    | Some y => ans <- zMulMatTVecNC a y ans ;; ans <- weigh_vec ans w ;; rmap Some (zVecAddNCDRC ans ref)
    end.
  Definition zLESolveRefNormMin (a : mat) (b : vec) (w : option vec) (ref ans : vec) : res (option vec) :=
    if negb (nr a =? vlen b)%nat || negb (nc a =? vlen ans)%nat then Ok None
    else if negb (vlen ref =? vlen ans)%nat || match w with Some w => negb (vlen ans =? vlen w)%nat | None => false end then Ok None
    else zLESolveRefNormMinDST (nr a) (List.seq 0 (nr a)) a b w ref ans.

  (** ** zm_le_gen.c:391-480.  Singularity-robust solvers. *)
  (** zm_le_gen.c:391-403; the weights are dereferenced without a test *)
  Definition _zLESolveSRSizeEqual (a : mat) (b : vec) (wn we : option vec) (ans : vec) : res bool :=
    if negb (nr a =? vlen b)%nat || negb (nc a =? vlen ans)%nat then Ok false
    else match we with
         | None => UB
         | Some we => if negb (vlen we =? vlen b)%nat then Ok false
                      else match wn with None => UB | Some wn => Ok (vlen wn =? vlen ans)%nat end
         end.
  (** zm_le_gen.c:413-414 *)
  Definition add_diag (m : mat) (wn : vec) (bias : T) : res mat :=
    for_ 0 (nr m) (fun i m => x <- vget wn i ;; mmod m i i (fun y => y + (x + bias))) m.
  Definition zLESolveSRBiasDST (nv : nat) (idx : index) (a : mat) (b : vec) (wn : vec) (we : option vec) (bias : T) (ans : vec) : res (option vec) :=
    b <- weigh_vec b we ;;
    v <- zMulMatTVecNC a b (zvec nv) ;;
    m <- zMatTQuadNC a we (zmat nv nv) ;;
    m <- add_diag m wn bias ;;
    gauss nv (vlen ans) m v idx.
  Definition zLESolveSRBias (a : mat) (b : vec) (wn we : option vec) (bias : T) (ans : vec) : res (option vec) :=
    ok <- _zLESolveSRSizeEqual a b wn we ans ;;
    match wn with
    | Some wn => if ok then zLESolveSRBiasDST (vlen ans) (List.seq 0 (vlen ans)) a b wn we bias ans else Ok None
    | None => Ok None
    end.
  Definition zLESolveSR (a : mat) (b : vec) (wn we : option vec) (ans : vec) : res (option vec) := zLESolveSRBias a b wn we 0 ans.
  (** zm_le_gen.c:438-451: the answer of zLESolveSR is not tested, and [ans] keeps its elements when there is none *)
  Definition zLESolveSRAux (a : mat) (b : vec) (wn we : option vec) (ans aux : vec) : res vec :=
    bb <- zLEResidual a b aux (zvec (vlen b)) ;;
    o <- zLESolveSR a bb wn we ans ;;
    zVecAddNCDRC (match o with Some x => x | None => ans end) aux.
  (** zm_le_gen.c:453-480 *)
  Definition zLESolveSRRefDST (nv : nat) (idx : index) (a : mat) (b : vec) (wn : vec) (we : option vec) (ref ans : vec) : res (option vec) :=
    b <- weigh_vec b we ;;
    v <- zMulMatTVecNC a b (zvec nv) ;;
    v <- for_ 0 (vlen ref) (fun i v => x <- vget wn i ;; y <- vget ref i ;; vmod v i (fun z => z + x * y)) v ;;
    m <- zMatTQuadNC a we (zmat nv nv) ;;
    m <- for_ 0 (nr m) (fun i m => x <- vget wn i ;; mmod m i i (fun y => y + x)) m ;;
    gauss nv (vlen ans) m v idx.
  Definition zLESolveSRRef (a : mat) (b : vec) (wn we : option vec) (ref ans : vec) : res (option vec) :=
    ok <- _zLESolveSRSizeEqual a b wn we ans ;;
    match wn with
    | Some wn => if ok then zLESolveSRRefDST (vlen ans) (List.seq 0 (vlen ans)) a b wn we ref ans else Ok None
    | None => Ok None
    end.

  (** ** zm_le_gen.c:251-389.  Solvers with the inverse matrix of Moore and Penrose. *)
  (** what zLEWorkspaceResizeMP (zm_le_gen.c:152-161) leaves: the factors cut to the rank; the index array of the
      factors keeps its size *)
  Record mpws := MPWS { w_l : mat; w_r : mat; w_b : vec; w_lu : index }.
  Definition issqr (m : mat) : bool := (nr m =? nc m)%nat.
  (** zm_le_gen.c:251-258: the intermediate vector; the answer of zLESolveErrorMinDST is not tested, and the vector
      keeps the zeros of its allocation when there is none *)
  Definition _zLESolveMP_L (ws : mpws) (we : option vec) (rank : nat) : res vec :=
    if issqr (w_l ws) then zLESolveL (w_l ws) (w_b ws) (zvec rank) (w_lu ws)
    else o <- zLESolveErrorMinDST rank (List.seq 0 rank) (w_l ws) (w_b ws) we (zvec rank) ;;
         Ok (match o with Some v => v | None => zvec rank end).
  (** the call of zLESolveNormMinDST in zm_le_gen.c:266, 276, 290: its answer is not tested.  [idx2 rank] is the order
      that the elimination in _zLESolveMP_L left in the index array (a permutation, C22), or the initial one. *)
  Definition mp_norm_min (idx2 : nat -> index) (ws : mpws) (wn : option vec) (rank : nat) (v ans : vec) : res vec :=
    o <- zLESolveNormMinDST rank (idx2 rank) (w_r ws) v wn ans ;; Ok (match o with Some x => x | None => ans end).
  (** zm_mat.c zMulMatTVec: the destination is left alone when the sizes do not fit *)
  Definition zMulMatTVec (m : mat) (x v : vec) : res vec :=
    if ((nr m =? vlen x) && (nc m =? vlen v))%nat then zMulMatTVecNC m x v else Ok v.
  (** zm_le_gen.c:260-278 *)
  Definition zLESolveMP_LQ_DST (idx2 : nat -> index) (ws : mpws) (we wn : option vec) (rank : nat) (ans : vec) : res vec :=
    v <- _zLESolveMP_L ws we rank ;;
    if issqr (w_r ws) then zMulMatTVec (w_r ws) v ans else mp_norm_min idx2 ws wn rank v ans.
  Definition zLESolveMP_LU_DST (idx2 : nat -> index) (ws : mpws) (we wn : option vec) (rank : nat) (ans : vec) : res vec :=
    v <- _zLESolveMP_L ws we rank ;;
    if issqr (w_r ws) then zLESolveU (w_r ws) v ans else mp_norm_min idx2 ws wn rank v ans.
  (** zm_mat.c zMulMatTMat: m1^T m2; the destination is left alone when the sizes do not fit *)
  Definition zMulMatTMat (m1 m2 m : mat) : mat :=
    if ((nr m1 =? nr m2) && (nc m1 =? nr m) && (nc m2 =? nc m))%nat then mul_matT_mat m1 m2 else m.
  Definition sub_ident (m : mat) : res mat := for_ 0 (nr m) (fun i m => mmod m i i (fun x => x - 1)) m.
  (** zm_le_gen.c:280-296: the answer and the null-space matrix *)
  Definition zLESolveMPNullDST (idx2 : nat -> index) (ws : mpws) (we wn : option vec) (rank : nat) (ans : vec) (mn : mat) : res (vec * mat) :=
    v <- _zLESolveMP_L ws we rank ;;
    if issqr (w_r ws) then ans <- zMulMatTVec (w_r ws) v ans ;; Ok (ans, FM (nr mn) (nc mn) (fun _ _ => 0))
    else ans <- mp_norm_min idx2 ws wn rank v ans ;;
         mn <- sub_ident (zMulMatTMat (w_r ws) (w_r ws) mn) ;;
         Ok (ans, mn).
  (** zm_le_gen.c:138-143: zVecCopy leaves the zeros of the allocation when the sizes differ *)
  Definition copy_b (n : nat) (b : vec) : vec := if (vlen b =? n)%nat then b else zvec n.
  (** zm_le_gen.c:298-312 *)
  Definition zLESolveMP_LQ (idx2 : nat -> index) (a : mat) (b : vec) (wn we : option vec) (ans : vec) : res vec :=
    '(l, q, rank) <- zMatDecompLQ lqtol a (zmat (nr a) (nr a)) (zmat (nr a) (nc a)) ;;
    if (0 <? rank)%nat
    then zLESolveMP_LQ_DST idx2 (MPWS (FM (nr l) rank (el l)) (FM rank (nc q) (el q)) (copy_b (nr a) b) (List.seq 0 (nr a))) we wn rank ans
    else Ok ans.
  (** zm_le_gen.c:314-328; a rank of -1 (None) cannot occur as the factors have the sizes required *)
  Definition zLESolveMP_LU (idx2 : nat -> index) (a : mat) (b : vec) (wn we : option vec) (ans : vec) : res vec :=
    o <- zMatDecompLU tol a (zmat (nr a) (nr a)) (zmat (nr a) (nc a)) (List.seq 0 (nr a)) ;;
    match o with
    | Some (l, u, idx, rank) =>
        if (0 <? rank)%nat
        then zLESolveMP_LU_DST idx2 (MPWS (FM (nr l) rank (el l)) (FM rank (nc u) (el u)) (copy_b (nr a) b) idx) we wn rank ans
        else Ok ans
    | None => Ok ans
    end.
  (** zm_le_gen.c:330-358; zMatSVD is a parameter: it gives the rank, u, sv and v.  The sizes of sv and of the
      intermediate vector are set to the rank. *)
  Definition zLESolveMP_SVD (svd : mat -> res (nat * mat * vec * mat)) (a : mat) (b ans : vec) : res vec :=
    '(rank, u, sv, v) <- svd a ;;
    t <- zMulMatTVecNC (FM (nr u) rank (el u)) b (zvec rank) ;;
    t <- zVecDemNCDRC t (FV rank (vel sv)) ;;
    zMulMatTVecNC (FM rank (nc v) (el v)) t ans.
  (** zm_le_gen.c:360-374 *)
  Definition zLESolveMPNull (idx2 : nat -> index) (a : mat) (b : vec) (wn we : option vec) (ans : vec) (mn : mat) : res (vec * mat) :=
    '(l, q, rank) <- zMatDecompLQ lqtol a (zmat (nr a) (nr a)) (zmat (nr a) (nc a)) ;;
    if (0 <? rank)%nat
    then zLESolveMPNullDST idx2 (MPWS (FM (nr l) rank (el l)) (FM rank (nc q) (el q)) (copy_b (nr a) b) (List.seq 0 (nr a))) we wn rank ans mn
    else Ok (ans, mn).
  (** zm_le_gen.c:376-389 *)
  Definition zLESolveMPAux (idx2 : nat -> index) (a : mat) (b : vec) (wn we : option vec) (ans aux : vec) : res vec :=
    bb <- zLEResidual a b aux (zvec (vlen b)) ;;
    ans <- zLESolveMP_LQ idx2 a bb wn we ans ;;
    zVecAddNCDRC ans aux.

  (** ** zm_le_lyapnov.c:10-52.  The matrices have no spare capacity: their buffers are taken as vectors. *)
  Definition lyap_mat (n : nat) (a : mat) : res mat :=
    for_ 0 n (fun i w => for_ 0 n (fun j w => for_ 0 n (fun k w =>
      x <- mget a j i ;;
      w <- mmod w (n * i + k) (n * k + j) (fun y => y + x) ;;
      mmod w (n * k + i) (n * j + k) (fun y => y + x)) w) w) (zmat (n * n) (n * n)).
  Definition zLELyapnovSolve (a b ans : mat) : res (option mat) :=
    if negb (issqr a) || negb (issqr b) || negb (issqr ans) then Ok None
    else if negb (nr a =? nr ans)%nat || negb (nr b =? nr ans)%nat then Ok None
    else
      let n := nr ans in
      let bvec := FV (n * n) (fun p => el b (p mod n) (p / n)) in
      aw <- lyap_mat n a ;;
      o <- zLESolveGaussDST tol aw bvec (FV (n * n) (fun p => el ans (p / n) (p mod n))) (List.seq 0 (n * n)) (Some (zvec (n * n))) ;;
      Ok (option_map (fun x => FM n n (fun i j => vel x (n * i + j)%nat)) o).

  (** ** zm_le_mat_mpinv.c:9-100.  The rank, or None for -1, with the matrices. *)
  (** zm_le_mat_mpinv.c:42-48, 63-69: the left part; the outcomes of zMatInv and zMulInvMatMat are not tested *)
  Definition mp_left (l : mat) : res mat :=
    let tmp3 := zmat (nc l) (nr l) in
    o <- (if issqr l then zMatInv tol l tmp3 else zMulInvMatMat tol (zMulMatTMat l l (zmat (nc l) (nc l))) (transpose l) tmp3) ;;
    Ok (match o with Some x => x | None => tmp3 end).
  (** zMatDecompLQAlloc (zm_le_lq.c:151-161) gives factors cut to the rank; a rank of 0 makes the allocation
      of the workspace fail *)
  Definition zMatMPInv (m mp : mat) : res (option (nat * mat)) :=
    '(l, q, rank) <- zMatDecompLQAndResize lqtol m (zmat (nr m) (nr m)) (zmat (nr m) (nc m)) ;;
    if (rank =? 0)%nat then Ok None
    else t <- mp_left l ;; Ok (Some (rank, zMulMatTMat q t mp)).
  Definition zMatMPInvNull (m mp mn : mat) : res (option (nat * mat * mat)) :=
    '(l, q, rank) <- zMatDecompLQAndResize lqtol m (zmat (nr m) (nr m)) (zmat (nr m) (nc m)) ;;
    if (rank =? 0)%nat then Ok None
    else t <- mp_left l ;;
         n <- sub_ident (zMulMatTMat q q mn) ;;
         Ok (Some (rank, zMulMatTMat q t mp, n)).
  (** zm_le_mat_mpinv.c:79-99; None is NULL *)
  Definition zMulMPInvMatMat (m1 m2 m : mat) : res (option mat) :=
    '(l, q, rank) <- zMatDecompLQAndResize lqtol m1 (zmat (nr m1) (nr m1)) (zmat (nr m1) (nc m1)) ;;
    if (rank =? 0)%nat then Ok None
    else
      let tmp3 := zmat rank (nc m2) in
      o <- (if issqr l then zMulInvMatMat tol l m2 tmp3
            else zMulInvMatMat tol (zMulMatTMat l l (zmat rank rank)) (zMulMatTMat l m2 (zmat rank (nc m2))) tmp3) ;;
      Ok (Some (zMulMatTMat q (match o with Some x => x | None => tmp3 end) m)).

  (** ** zm_le_mat_mpinv.c:102-155: the iteration of Penrose; products of matrices of the same sizes are taken as
      values.  [None]: [fuel] iterations are not enough. *)
  Definition mtiny (m : mat) : bool := forallb (fun i => forallb (fun j => is_tol tol (el m i j)) (List.seq 0 (nc m))) (List.seq 0 (nr m)).
  Definition mtrace (m : mat) : T := ksum (nr m) (fun i => el m i i).
  Definition mulmm (a b : mat) : mat := FM (nr a) (nc b) (fun i j => ksum (nc a) (fun k => el a i k * el b k j)).
  Fixpoint penrose_loop (fuel rank : nat) (b c c2 cb : mat) (trace : T) : option (mat * T * nat) :=
    if mtiny cb then Some (c, trace, rank)
    else match fuel with
    | O => None
    | S fuel =>
        let t := mtrace cb in
        let c2' := FM (nr c2) (nc c2) (fun i j => (if (i =? j)%nat then 1 else 0) * (t / sofZ (Z.of_nat rank)) - el cb i j) in
        penrose_loop fuel (S rank) b c2 c2' (mulmm c2' b) t
    end.
  (** the answer is written with the sizes of mp, which are not tested *)
  Definition _zMatMPInvPenrose (fuel : nat) (m mp : mat) : res (option (nat * mat)) :=
    let p := nc m in
    let b := mul_matT_mat m m in
    match penrose_loop fuel 1 b (zmat p p) (FM p p (fun i j => if (i =? j)%nat then 1 else 0)) b 0 with
    | None => Ok None
    | Some (c, trace, rank) =>
        let c := FM p p (fun i j => el c i j * (sofZ (Z.of_nat (rank - 1)) / trace)) in
        x <- zMulMatMatTNC c m mp ;; Ok (Some ((rank - 1)%nat, x))
    end.
  (** zMatTDRC transposes in place, for every shape (C06, C11) *)
  Definition zMatMPInvPenrose (fuel : nat) (m mp : mat) : res (option (nat * mat)) :=
    if (nr m <? nc m)%nat then
      o <- _zMatMPInvPenrose fuel (transpose m) (transpose mp) ;; Ok (option_map (fun x => (fst x, transpose (snd x))) o)
    else _zMatMPInvPenrose fuel m mp.
End Gen.
