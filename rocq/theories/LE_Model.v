(** Model of the linear-equation family: src/zm_le_pivot.c, src/zm_le.c,
    src/zm_le_tridiag.c, src/zm_le_mat_inv.c, src/zm_le_lu.c (value level, see Fmat).

    [tol] is zTOL.  [None] is a NULL answer (or -1), as in the C code, after an error
    message.  The index array of ZEDA (zIndex) is a list of row numbers; zIndexCreate(n)
    and zIndexOrder(idx,0) give 0..n-1.  Allocation is assumed to succeed. *)
From Verif Require Import Prelude Scalar Fmat.

Section LE.
  Context {T : Type} {ST : Scalar T}.
  Local Open Scope S_scope.
  Variable tol : T.
  Local Notation vec := (fvec T).
  Local Notation mat := (fmat T).
  Local Notation index := (list nat).
  Implicit Types (a b m l u : mat) (idx : index).

  (** ZEDA zIndexSwapNC *)
  Definition swap_idx idx (i j : nat) : res index :=
    x <- get idx i ;; y <- get idx j ;; idx1 <- set idx i y ;; set idx1 j x.

  (** zm_le_pivot.c:10-26; answers the index array after the exchange (the returned row
      number is its r-th entry) *)
  Definition zMatPivoting m idx (r c : nat) : res index :=
    q <- get idx r ;; x <- mget m q c ;;
    st <- for_ (S r) (length idx) (fun i st =>
            q <- get idx i ;; x <- mget m q c ;;
            if slt (snd st) (sabs x) then Ok (i, sabs x) else Ok st) (r, sabs x) ;;
    swap_idx idx (fst st) r.
  (** zm_le_pivot.c:29-45 *)
  Definition zMatPivotingDiag m idx (i : nat) : res index :=
    q <- get idx i ;; x <- mget m q q ;;
    st <- for_ (S i) (length idx) (fun j st =>
            q <- get idx j ;; x <- mget m q q ;;
            if slt (snd st) (sabs x) then Ok (j, sabs x) else Ok st) (i, sabs x) ;;
    swap_idx idx (fst st) i.

  (** zm_le_pivot.c:48-77; zMatVecSweepOut (80-107) is the same text with the vector as a
      matrix of one column *)
  Definition sweep_row (m2 : mat) r c ratio i m1 : res (mat * mat) :=
    m1 <- for_ 0 (nc m1) (fun j m1 => if negb (j =? c)%nat then y <- mget m1 r j ;; mmod m1 i j (fun x => x - y * ratio) else Ok m1) m1 ;;
    m2 <- for_ 0 (nc m2) (fun j m2 => y <- mget m2 r j ;; mmod m2 i j (fun x => x - y * ratio)) m2 ;;
    Ok (m1, m2).
  Definition zMatMatSweepOut (m1 m2 : mat) (r c : nat) : res (T * mat * mat) :=
    value <- mget m1 r c ;;
    if seq value 0 then Ok (0, m1, m2)
    else
      let d := 1 / value in
      m1 <- for_ 0 (nc m1) (fun j m1 => if negb (j =? c)%nat then mmod m1 r j (fun x => x * d) else mset m1 r c 1) m1 ;;
      m2 <- for_ 0 (nc m2) (fun j m2 => mmod m2 r j (fun x => x * d)) m2 ;;
      mm <- for_ 0 (nr m1) (fun i mm =>
              if (i =? r)%nat then Ok mm
              else ratio <- mget (fst mm) i c ;;
                   mm <- (if is_tol tol ratio then Ok mm else sweep_row (snd mm) r c ratio i (fst mm)) ;;
                   m1 <- mset (fst mm) i c 0 ;; Ok (m1, snd mm)) (m1, m2) ;;
      Ok (value, fst mm, snd mm).
  Definition zMatVecSweepOut (m : mat) (v : vec) (r c : nat) : res (T * mat * vec) :=
    rmap (fun o => (fst (fst o), snd (fst o), of_col (snd o))) (zMatMatSweepOut m (col_of v) r c).

  (** zm_le.c:10-27 *)
  Definition col_absmax m (i : nat) : res T :=
    x <- mget m 0 i ;;
    for_ 1 (nr m) (fun j s => y <- mget m j i ;; if slt s (sabs y) then Ok (sabs y) else Ok s) (sabs x).
  Definition zMatColBalancingDST m (s : vec) : res (mat * vec) :=
    for_ 0 (nc m) (fun i ms =>
      let '(m, s) := ms in
      mx <- col_absmax m i ;; s <- vset s i mx ;;
      if seq mx 0 then Ok (m, s)
      else s <- vset s i (1 / mx) ;;
           k <- vget s i ;;
           m <- for_ 0 (nr m) (fun j m => mmod m j i (fun x => x * k)) m ;;
           Ok (m, s)) (m, s).
  (** zm_stat.c:131-143, as used below (only the value) *)
  Definition row_absmax m (i : nat) : res T :=
    x <- mget m i 0 ;;
    for_ 1 (nc m) (fun j s => y <- mget m i j ;; if slt s (sabs y) then Ok (sabs y) else Ok s) (sabs x).
  (** zm_le.c:74-85; zMatVecRowBalancingDST (30-41) and zMatMatVecRowBalancingDST (96-108)
      are the same text with the right-hand side a vector, resp. a matrix and a vector *)
  Definition zMatMatRowBalancingDST (m1 m2 : mat) : res (mat * mat) :=
    for_ 0 (nr m1) (fun i mm =>
      tmp <- row_absmax (fst mm) i ;;
      if seq tmp 0 then Ok mm
      else m1 <- for_ 0 (nc m1) (fun j m => mmod m i j (fun x => x * (1 / tmp))) (fst mm) ;;
           m2 <- for_ 0 (nc m2) (fun j m => mmod m i j (fun x => x * (1 / tmp))) (snd mm) ;;
           Ok (m1, m2)) (m1, m2).
  (** zm_le.c:88-93, 44-49, 111-116; the scale vector is optional *)
  Definition zMatMatBalancingDST (m1 m2 : mat) (s : option vec) : res (mat * mat * option vec) :=
    ms <- match s with Some s => rmap (fun p => (fst p, Some (snd p))) (zMatColBalancingDST m1 s) | None => Ok (m1, None) end ;;
    mm <- zMatMatRowBalancingDST (fst ms) m2 ;;
    Ok (fst mm, snd mm, snd ms).
  (** zm_le.c:52-71; the four objects are the sizes that the caller passes *)
  Definition zMatVecBalancing (morg : mat) (vorg : vec) (m : mat) (v : vec) (s : option vec) : res (option (mat * vec * option vec)) :=
    if negb ((nr morg =? nr m)%nat && (nc morg =? nc m)%nat) then Ok None
    else if negb (vlen vorg =? vlen v)%nat || match s with Some s => negb (vlen vorg =? vlen s)%nat | None => false end then Ok None
    else if negb (nr m =? vlen v)%nat then Ok None
    else rmap (fun o => Some (fst (fst o), of_col (snd (fst o)), snd o)) (zMatMatBalancingDST morg (col_of vorg) s).

  (** forward elimination: zm_le.c:135-155, zm_le_mat_inv.c:108-130, 253-277; [b] has one
      column per right-hand side *)
  Definition elim_row n (p q i : nat) (ahead : T) a b : res (mat * mat) :=
    a <- for_ (S i) n (fun k a => y <- mget a p k ;; mmod a q k (fun x => x - y * ahead)) a ;;
    b <- for_ 0 (nc b) (fun k b => y <- mget b p k ;; mmod b q k (fun x => x - y * ahead)) b ;;
    Ok (a, b).
  Definition gauss_forward (n : nat) a b idx : res ((mat * mat * index) + unit) :=
    forb 0 n (fun i st =>
      let '(a, b, idx) := st in
      idx <- zMatPivoting a idx i i ;;
      p <- get idx i ;;
      ahead <- mget a p i ;;
      if seq ahead 0 then Ok (inr tt)
      else
        let ahead := 1 / ahead in
        a <- mset a p i 1 ;;
        a <- for_ (S i) n (fun j a => mmod a p j (fun x => x * ahead)) a ;;
        b <- for_ 0 (nc b) (fun j b => mmod b p j (fun x => x * ahead)) b ;;
        ab <- for_ (S i) n (fun j ab =>
                q <- get idx j ;;
                ahead <- mget (fst ab) q i ;;
                ab <- (if is_tol tol ahead then Ok ab else elim_row n p q i ahead (fst ab) (snd ab)) ;;
                a <- mset (fst ab) q i 0 ;; Ok (a, snd ab)) (a, b) ;;
        Ok (inl (fst ab, snd ab, idx))) (a, b, idx).
  (** backward elimination: zm_le.c:157-162, zm_le_mat_inv.c:132-140, 279-291 *)
  Definition gauss_backward (n : nat) a b idx (ans : mat) : res mat :=
    for_down n (fun i ans =>
      p <- get idx i ;;
      for_ 0 (nc b) (fun j ans =>
        x <- mget b p j ;;
        x <- for_downto (S i) n (fun k x => y <- mget a p k ;; z <- mget ans k j ;; Ok (x - y * z)) x ;;
        mset ans i j x) ans) ans.
  (** zm_le.c:163 (zVecAmpDRC) and zm_le_mat_inv.c:141-143, 292-296 *)
  Definition rescale (n : nat) (s : vec) (ans : mat) : res mat :=
    for_ 0 n (fun i ans => k <- vget s i ;; for_ 0 (nc ans) (fun j ans => mmod ans i j (fun x => x * k)) ans) ans.
  (** zm_le_mat_inv.c:98-145; [Ok None] = singular *)
  Definition mul_inv_mat (m1 m2 ans : mat) idx (s : option vec) : res (option mat) :=
    let n := nr ans in
    mms <- zMatMatBalancingDST m1 m2 s ;;
    let '(m1, m2, s) := mms in
    st <- gauss_forward n m1 m2 idx ;;
    match st with
    | inr _ => Ok None
    | inl (m1, m2, idx) =>
        ans <- gauss_backward n m1 m2 idx ans ;;
        match s with Some s => rmap Some (rescale n s ans) | None => Ok (Some ans) end
    end.
  (** zm_le.c:126-165: the same steps, the right-hand side and the answer being vectors *)
  Definition zLESolveGaussDST a (b : vec) (ans : vec) idx (s : option vec) : res (option vec) :=
    rmap (option_map of_col) (mul_inv_mat a (col_of b) (col_of (FV (vlen b) (vel ans))) idx s).
  (** zm_le.c:168-195 *)
  Definition zvec (n : nat) : vec := FV n (fun _ => 0).
  Definition zmat (r c : nat) : mat := FM r c (fun _ _ => 0).
  Definition zLESolveGauss a (b ans : vec) : res (option vec) :=
    if negb (nr a =? nc a)%nat then Ok None
    else if negb (nc a =? vlen b)%nat || negb (vlen ans =? vlen b)%nat then Ok None
    else zLESolveGaussDST a b ans (List.seq 0 (vlen b)) (Some (zvec (vlen b))).

  (** zm_le_mat_inv.c:148-182 *)
  Definition zMulInvMatMatNC (m1 m2 m : mat) : res (option mat) :=
    mul_inv_mat m1 m2 m (List.seq 0 (nr m1)) (Some (zvec (nr m1))).
  Definition zMulInvMatMat (m1 m2 m : mat) : res (option mat) :=
    if negb (nr m1 =? nc m1)%nat then Ok None
    else if negb (nc m1 =? nr m2)%nat || negb ((nr m2 =? nr m)%nat && (nc m2 =? nc m)%nat) then Ok None
    else zMulInvMatMatNC m1 m2 m.
  (** zm_le_mat_inv.c:185-220 *)
  Definition transpose (m : mat) : mat := FM (nc m) (nr m) (fun i j => el m j i).
  Definition zMulMatInvMat (m1 m2 m : mat) : res (option mat) :=
    if negb (nr m2 =? nc m2)%nat then Ok None
    else if negb (nr m1 =? nc m2)%nat || negb ((nr m1 =? nr m)%nat && (nc m1 =? nc m)%nat) then Ok None
    else rmap (option_map transpose)
           (mul_inv_mat (transpose m2) (transpose m1) (zmat (nc m) (nr m)) (List.seq 0 (nr m2)) (Some (zvec (nr m2)))).
  (** zm_le_mat_inv.c:223-240; the outcome of _zMulInvMatMatNC is dropped, and on failure
      im keeps the identity stored just before *)
  Definition ident (n : nat) : mat := FM n n (fun i j => if (i =? j)%nat then 1 else 0).
  Definition zMatInv (m im : mat) : res (option mat) :=
    if negb (nr m =? nc m)%nat then Ok None
    else if negb (nc m =? nr im)%nat then Ok None
    else if (nc m =? 1)%nat then
      x <- mget m 0 0 ;; rmap Some (mset im 0 0 (1 / x))
    else
      let im := FM (nr im) (nc im) (fun i j => if (i =? j)%nat then 1 else 0) in
      o <- zMulInvMatMatNC m im im ;;
      Ok (Some (match o with Some x => x | None => im end)).

  (** zm_le.c:198-225 *)
  Definition zLESolveL l (b ans : vec) idx : res vec :=
    for_ 0 (length idx) (fun i ans =>
      p <- get idx i ;; x <- vget b p ;;
      x <- for_ 0 i (fun j x => y <- mget l p j ;; z <- vget ans j ;; Ok (x - y * z)) x ;;
      d <- mget l p i ;;
      vset ans i (x / d)) ans.
  Definition zLESolveU u (b ans : vec) : res vec :=
    for_down (vlen b) (fun i ans =>
      x <- vget b i ;;
      x <- for_downto (S i) (vlen b) (fun j x => y <- mget u i j ;; z <- vget ans j ;; Ok (x - y * z)) x ;;
      vset ans i x) ans.
  (** zm_le.c:228-248 *)
  Definition zLESolveLU l u (b ans : vec) idx : res (option vec) :=
    if negb (nr l =? nc l)%nat || negb (nr u =? nc u)%nat then Ok None
    else if negb (nr l =? length idx)%nat || negb (nr u =? length idx)%nat ||
            negb (vlen b =? length idx)%nat || negb (vlen ans =? length idx)%nat then Ok None
    else c <- zLESolveL l b (zvec (length idx)) idx ;; rmap Some (zLESolveU u c ans).

  (** zm_le_tridiag.c:10-30; all vectors have the size of [a]; [None]: zero pivot *)
  Definition zLETridiagSolveDST (a b c d ans : vec) : res (option vec) :=
    let n := vlen a in
    st <- forb 1 n (fun i st =>
            let '(a, b, d) := st in
            b0 <- vget b (i - 1) ;;
            if seq b0 0 then Ok (inr tt)
            else c0 <- vget c (i - 1) ;; d0 <- vget d (i - 1) ;; a1 <- vget a i ;;
                 b <- vmod b i (fun x => x - c0 / b0 * a1) ;;
                 d <- vmod d i (fun x => x - d0 / b0 * a1) ;;
                 a <- vset a i 0 ;;
                 Ok (inl (a, b, d))) (a, b, d) ;;
    match st with
    | inr _ => Ok None
    | inl (a, b, d) =>
        d1 <- vget d (n - 1) ;; b1 <- vget b (n - 1) ;;
        ans <- vset ans (n - 1) (d1 / b1) ;;
        rmap Some (for_down (n - 1) (fun i ans =>
          d0 <- vget d i ;; c0 <- vget c i ;; x1 <- vget ans (S i) ;; b0 <- vget b i ;;
          vset ans i ((d0 - c0 * x1) / b0)) ans)
    end.
  (** zm_le_tridiag.c:33-49 *)
  Definition zLETridiagSolve (a b c d ans : vec) : res (option vec) :=
    if negb ((vlen a =? vlen b)%nat && (vlen b =? vlen c)%nat && (vlen c =? vlen d)%nat && (vlen d =? vlen ans)%nat) then Ok None
    else zLETridiagSolveDST a b c d ans.

  (** zm_le_lu.c:10-36; loop over c with state (m, l, u, idx, r), left when r reaches the
      number of rows; answers (l, u, idx, rank) *)
  Definition lu_step (rows cols c : nat) (st : mat * mat * mat * index * nat) : res (mat * mat * mat * index * nat) :=
    let '(m, l, u, idx, r) := st in
    if negb (r <? rows)%nat then Ok st
    else
      idx <- zMatPivoting m idx r c ;;
      p <- get idx r ;;
      ahead <- mget m p c ;;
      if is_tol tol ahead then Ok (m, l, u, idx, r)
      else
        l <- mset l p r ahead ;;
        u <- mset u r c 1 ;;
        l <- for_ (S r) (nr l) (fun i l => q <- get idx i ;; x <- mget m q c ;; mset l q c x) l ;;
        u <- for_ (S c) (nc u) (fun i u => x <- mget m p i ;; mset u r i (x / ahead)) u ;;
        m <- for_ (S c) cols (fun j m =>
               for_ (S r) rows (fun i m =>
                 q <- get idx i ;; x <- mget l q c ;; y <- mget u r j ;; mmod m q j (fun z => z - x * y)) m) m ;;
        Ok (m, l, u, idx, S r).
  Definition zMatDecompLUDST m l u idx : res (mat * mat * index * nat) :=
    st <- for_ 0 (nc m) (lu_step (nr m) (nc m)) (m, zmat (nr l) (nc l), zmat (nr u) (nc u), idx, 0%nat) ;;
    let '(_, l, u, idx, r) := st in Ok (l, u, idx, r).
  (** zm_le_lu.c:39-62 *)
  Definition zMatDecompLU m l u idx : res (option (mat * mat * index * nat)) :=
    if negb (nr l =? nc l)%nat then Ok None
    else if negb (nr m =? nr l)%nat || negb ((nr m =? nr u)%nat && (nc m =? nc u)%nat) then Ok None
    else if negb (nr m =? length idx)%nat then Ok None
    else rmap Some (zMatDecompLUDST m l u (List.seq 0 (length idx))).

  (** zm_le_lu.c:93-127; [None] = not positive semidefinite (-1) *)
  Definition zMatDecompCholeskyDST m l idx : res (option (mat * index * nat)) :=
    let n := length idx in
    st <- forb 0 n (fun i st =>
      let '(m, idx, rank) := st in
      idx <- zMatPivotingDiag m idx i ;;
      p <- get idx i ;;
      d <- mget m p p ;;
      let step := fun m (k : T) (rank : nat) =>
        m <- for_ (S i) n (fun j m => q <- get idx j ;; m <- mmod m p q (fun x => x * k) ;; mmod m q p (fun x => x * k)) m ;;
        m <- for_ (S i) n (fun j m => for_ (S i) n (fun k m =>
               qj <- get idx j ;; qk <- get idx k ;;
               x <- mget m qj p ;; y <- mget m p qk ;; mmod m qj qk (fun z => z - x * y)) m) m ;;
        Ok (inl (m, idx, rank)) in
      if is_tol tol d then step m 0 rank
      else if slt d 0 then Ok (inr tt)
      else m <- mset m p p (ssqrt d) ;; step m (1 / ssqrt d) (S rank)) (m, idx, 0%nat) ;;
    match st with
    | inr _ => Ok None
    | inl (m, idx, rank) =>
        l <- for_ 0 n (fun i l => for_ 0 (S i) (fun j l =>
               qi <- get idx i ;; qj <- get idx j ;; x <- mget m qi qj ;; mset l qi j x) l) (zmat (nr l) (nc l)) ;;
        Ok (Some (l, idx, rank))
    end.
  (** zm_le_lu.c:130-148 *)
  Definition zMatDecompCholesky m l idx : res (option (mat * index * nat)) :=
    if negb (nr m =? nc m)%nat || negb (nr l =? nc l)%nat then Ok None
    else if negb (nr m =? length idx)%nat || negb (nr l =? length idx)%nat then Ok None
    else zMatDecompCholeskyDST m l (List.seq 0 (length idx)).

  (** zm_le_mat_inv.c:10-31; the index array is reordered first *)
  Definition zMatDetDST m (size : nat) : res T :=
    st <- forb 0 (nr m) (fun i st =>
      let '(m, idx, det) := st in
      p <- get idx i ;;
      idx <- zMatPivoting m idx i i ;;
      p' <- get idx i ;;
      let det := if negb (p =? p')%nat then - det else det in
      x <- mget m p' i ;;
      let det := det * x in
      if is_tol tol det then Ok (inr tt)
      else
        m <- for_ (S i) (nr m) (fun j m =>
               q <- get idx j ;;
               for_ (S i) (nr m) (fun k m =>
                 x <- mget m p' k ;; y <- mget m p' i ;; z <- mget m q i ;;
                 mmod m q k (fun w => w - x / y * z)) m) m ;;
        Ok (inl (m, idx, det))) (m, List.seq 0 size, 1) ;;
    match st with inr _ => Ok 0 | inl (_, _, det) => Ok det end.
  (** zm_le_mat_inv.c:34-52 *)
  Definition zMatDet m : res T :=
    if negb (nr m =? nc m)%nat then Ok 0 else zMatDetDST m (nr m).
  (** zm_le_mat_inv.c:55-95; with a 1x1 matrix the allocation of the 0x0 work matrix
      answers NULL (zm_mat.c:29-46, ZEDA zArray2Alloc), whose row size line 70 reads *)
  Definition minor_into m (smat : mat) (i j : nat) : res mat :=
    su <- for_ 0 (nr m) (fun k su =>
      if (k =? i)%nat then Ok su
      else sv <- for_ 0 (nc m) (fun k2 sv =>
                if (k2 =? j)%nat then Ok sv
                else x <- mget m k k2 ;; s <- mset (fst sv) (snd su) (snd sv) x ;; Ok (s, S (snd sv))) (fst su, 0%nat) ;;
           Ok (fst sv, S (snd su))) (smat, 0%nat) ;;
    Ok (fst su).
  Definition zMatAdj m (adj : mat) : res (option mat) :=
    if negb (nr m =? nc m)%nat || negb (nr adj =? nc adj)%nat then Ok None
    else if negb ((nr m =? nr adj)%nat && (nc m =? nc adj)%nat) then Ok None
    else if (nr m =? 1)%nat then UB
    else
      let n1 := (nr m - 1)%nat in
      rmap (fun p => Some (fst p)) (for_ 0 (nr m) (fun i st => for_ 0 (nc m) (fun j st =>
        smat <- minor_into m (snd st) i j ;;
        d <- zMatDetDST smat n1 ;;
        adj <- mset (fst st) j i (if Nat.odd (i + j) then - d else d) ;;
        (** the C code destroys smat; every element of it is overwritten next time *)
        Ok (adj, smat)) st) (adj, zmat n1 n1)).
End LE.
