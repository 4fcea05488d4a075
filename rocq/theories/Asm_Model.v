(** Model of src/zm_opt_qp_asm.c (active set method for quadratic programming).  [ztol] is zTOL.  Matrices and vectors
    are at the value level (Fmat); a zIndex is the list of its elements.  Allocation is assumed to succeed.
    [ins] is ZEDA's zIndexInsertVal, of which the proofs only use that it adds the value somewhere in the list.
    zIndexRemoveVal of ZEDA takes the value out of the list. *)
From Verif Require Import Prelude Scalar Fmat LE_Model IP_Model Vop Qp_Model Lp_Model.

Section Asm.
  Context {T : Type} {ST : Scalar T}.
  Local Open Scope S_scope.
  Local Notation vec := (fvec T).
  Local Notation mat := (fmat T).
  Variable ztol : T.
  Variable ins : list nat -> nat -> list nat.

  Definition index_remove_val (l : list nat) (v : nat) : list nat := filter (fun k => negb (k =? v)%nat) l.
  (** the cells of a vector or a matrix, written down once; the values are those of the argument *)
  Definition store (v : vec) : vec := vec_of 0 (to_list v).
  Definition mstore (m : mat) : mat := let l := to_lists m in FM (nr m) (nc m) (fun i j => nth j (nth i l []) 0).

  (** zm_opt_qp_asm.c:9-23; the workspace is local to the functions that use it, except [_lambda], whose buffer has a
      cell per constraint and keeps what it holds when a system is not solved, and [_s], which has [ncell] cells *)
  Record work := Work { qinv : mat; aqinvat : mat; qinvc : vec; aqinvc_plus_b : vec; ncell : nat }.
  Record asm := Asm { xtmp : vec; ia : list nat; inn : list nat; lam : vec }.

  (** zm_mat.c:954-968: the destination is m; rows of q and a *)
  Definition zMulMatMatMatTNC (a q m : mat) : res mat :=
    for_ 0 (nr q) (fun i m =>
      for_ 0 (nr a) (fun j m =>
        y <- for_ 0 (nc q) (fun k y => x <- mget q i k ;; z <- mget a j k ;; Ok (y + x * z)) 0 ;;
        for_ 0 (nr a) (fun k m => x <- mget a k i ;; mmod m k j (fun v => v + x * y)) m) m) (zmat (nr m) (nc m)).

  (** 26-51; the outcome of zMatInv is ignored.  zMatInv fails on sizes only, which the check before excludes *)
  Definition _zQPASMInit (q : mat) (c : vec) (a : mat) (b : vec) : res work :=
    qi <- zMatInv ztol q (zmat (vlen c) (vlen c)) ;;
    let qi := mstore (match qi with Some m => m | None => zmat (vlen c) (vlen c) end) in
    aq <- zMulMatMatMatTNC a qi (zmat (nr a) (nr a)) ;;
    qc <- zMulMatVecNC qi c (vzero (vlen c)) ;;
    let qc := store qc in
    ac <- zMulMatVecNC a qc (vzero (vlen b)) ;;
    acb <- for_ 0 (vlen ac) (fun i v => x <- vget b i ;; vmod v i (fun y => y + x)) ac ;;
    Ok (Work qi (mstore aq) qc (store acb) (nr a)).

  (** 87-103, 82: the rows [a,-a,-1] of the tableau; zLPTableauCreate writes them into the tableau, with the sign of b_i,
      the artificial variables, the cost and the indices, as 87-110 do *)
  Definition slack_form (a : mat) : mat :=
    FM (nr a) (2 * nc a + nr a) (fun i j =>
      if (j <? nc a)%nat then el a i j
      else if (j <? 2 * nc a)%nat then - el a i (j - nc a)
      else if (j =? 2 * nc a + i)%nat then - (1) else 0).

  (** 120-137, the i-th element of the base; [None] is the fatal error *)
  Definition init_step (a : mat) (tab : tableau) (i : nat) (s : asm) : res (option asm) :=
    ibi <- get (tib tab) i ;;
    if (ibi <? nc a)%nat then
      bi <- vget (tb tab) i ;; x <- vset (xtmp s) ibi bi ;; Ok (Some (Asm x (ia s) (inn s) (lam s)))
    else if (ibi <? 2 * nc a)%nat then
      bi <- vget (tb tab) i ;; x <- vset (xtmp s) (ibi - nc a) (- bi) ;; Ok (Some (Asm x (ia s) (inn s) (lam s)))
    else
      let k := (ibi - 2 * nc a)%nat in
      if (k <? nr a)%nat then Ok (Some (Asm (xtmp s) (index_remove_val (ia s) k) (ins (inn s) k) (lam s)))
      else Ok None.
  (** 72-141; [None] is false *)
  Definition _zQPASMInitBase (n : nat) (a : mat) (b : vec) : res (option asm) :=
    '(tab, ok) <- zLPTableauSimplex ztol (zLPTableauCreate (slack_form a) b) ;;
    if negb ok || negb (is_tol ztol (td tab)) then Ok None
    else
      tab <- zLPTableauFindBase ztol tab ;;
      r <- forb 0 (length (tib tab)) (fun i s =>
             o <- init_step a tab i s ;;
             Ok (match o with Some s => inl s | None => inr tt end))
           (Asm (vzero n) (tir tab) [] (vzero (nr a))) ;;
      Ok (match r with inl s => Some (Asm (store (xtmp s)) (ia s) (inn s) (lam s)) | inr _ => None end).

  (** 144-173: the answer and the adjoint variables.  The vector _s has [ncell] cells and gets the size of the answer *)
  Definition _zQPASMSolveEq (w : work) (s : asm) (a : mat) (x : vec) : res (vec * asm) :=
    let k := length (ia s) in
    m <- for_ 0 k (fun i m => for_ 0 k (fun j m =>
           p <- get (ia s) i ;; q <- get (ia s) j ;; y <- mget (aqinvat w) p q ;; mset m i j y) m) (zmat k k) ;;
    v <- for_ 0 k (fun i v => p <- get (ia s) i ;; y <- vget (aqinvc_plus_b w) p ;; vset v i y) (zvec k) ;;
    r <- zLESolveGaussDST ztol m v (FV k (vel (lam s))) (List.seq 0 k) (Some (zvec k)) ;;
    let l := store (match r with Some l => FV (vlen (lam s)) (fun i => if (i <? k)%nat then vel l i else vel (lam s) i)
                               | None => lam s end) in
    sv <- for_ 0 (vlen x) (fun i sv =>
            if (i <? ncell w)%nat then
              sv <- vset sv i 0 ;;
              for_ 0 k (fun j sv =>
                p <- get (ia s) j ;; y <- mget a p i ;; z <- vget l j ;; vmod sv i (fun u => u + y * z)) sv
            else UB) (zvec (vlen x)) ;;
    x <- zMulMatVecNC (qinv w) sv x ;;
    x <- for_ 0 (vlen x) (fun i x => y <- vget (qinvc w) i ;; vmod x i (fun z => z - y)) x ;;
    Ok (store x, Asm (xtmp s) (ia s) (inn s) l).

  (** zm_raw_vec.c zRawVecInnerProd of the row of a and a vector *)
  Definition row_prod (a : mat) (i : nat) (x : vec) : res T :=
    if (i <? nr a)%nat && (vlen x <=? nc a)%nat then Ok (ksum (vlen x) (fun k => el a i k * vel x k)) else UB.
  (** 183-194: the least ratio and its constraint; dmin of None is HUGE_VAL, so that no constraint is violated *)
  Definition addeq_search (s : asm) (a : mat) (b x : vec) : res (option (T * nat)) :=
    for_ 0 (length (inn s)) (fun i r =>
      p <- get (inn s) i ;;
      ax <- row_prod a p x ;;
      bp <- vget b p ;;
      if sle bp ax then Ok r
      else
        axt <- row_prod a p (xtmp s) ;;
        let ax := ax - axt in
        if is_tol ztol ax then Ok r
        else
          let d := (bp - axt) / ax in
          match r with
          | Some (dmin, _) => if slt d dmin then Ok (Some (d, p)) else Ok r
          | None => Ok (Some (d, p))
          end) None.
  (** 176-200; [None] is false *)
  Definition _zQPASMAddEq (s : asm) (a : mat) (b x : vec) : res (option asm) :=
    r <- addeq_search s a b x ;;
    match r with
    | None => Ok None
    | Some (dmin, imin) =>
        let t := FV (vlen (xtmp s)) (fun i => vel (xtmp s) i + dmin * (vel x i - vel (xtmp s) i)) in
        Ok (Some (Asm (store t) (ins (ia s) imin) (index_remove_val (inn s) imin) (lam s)))
    end.
  (** 203-219; the flag is the answer, [ic] the place in the active set.  _lambda has the size of the active set *)
  Definition _zQPASMDelEq (s : asm) : res (asm * bool) :=
    '(s, _, f) <- for_ 0 (length (ia s)) (fun i '(s, ic, f) =>
      l <- vget (lam s) i ;;
      if slt l 0 then
        k <- get (ia s) ic ;;
        Ok (Asm (xtmp s) (index_remove (ia s) ic) (ins (inn s) k) (lam s), ic, true)
      else Ok (s, S ic, f)) (s, O, false) ;;
    Ok (s, f).

  (** zm_mat.c:478-487 and zm_opt_qp_asm.c:222-244 *)
  Definition zMatIsSymmetric_ (q : mat) : bool :=
    (nr q =? nc q)%nat && forallb (fun i => forallb (fun j => seq (el q i j) (el q j i)) (List.seq (S i) (nr q - S i))) (List.seq 0 (nr q)).
  Definition _zQPASMCheck (q : mat) (c : vec) (a : mat) (b ans : vec) : res bool :=
    if negb (zMatIsSymmetric_ q) then Ok false
    else if negb ((nr q =? vlen c) && (vlen c =? vlen ans) && (nr a =? vlen b) && (nc a =? vlen ans))%nat then Ok false
    else
      r <- zMatDecompCholesky ztol q (zmat (nr q) (nr q)) (List.seq 0 (nr q)) ;;
      Ok (match r with Some (_, _, rank) => negb (rank <? nr q)%nat | None => false end).

  (** 255-259: the two loops, [fuel] systems at most; the loops of the code have no limit *)
  Fixpoint asm_loop (fuel : nat) (w : work) (a : mat) (b : vec) (s : asm) (x : vec) : res (ended vec) :=
    match fuel with
    | O => Ok Running
    | S fuel =>
        '(x, s) <- _zQPASMSolveEq w s a x ;;
        r <- _zQPASMAddEq s a b x ;;
        match r with
        | Some s => asm_loop fuel w a b s x
        | None =>
            '(s, f) <- _zQPASMDelEq s ;;
            if (f : bool) then asm_loop fuel w a b s x else Ok (Done x)
        end
    end.
  (** 247-266: the answer and the cost, which the code computes if it is asked for *)
  Definition zQPSolveASM (fuel : nat) (q : mat) (c : vec) (a : mat) (b ans : vec) : res (ended (vec * T)) :=
    ok <- _zQPASMCheck q c a b ans ;;
    if negb ok then Ok Failed
    else
      w <- _zQPASMInit q c a b ;;
      s <- _zQPASMInitBase (vlen c) a b ;;
      match s with
      | None => Ok Failed
      | Some s =>
          r <- asm_loop fuel w a b s ans ;;
          match r with
          | Failed => Ok Failed
          | Running => Ok Running
          | Done x => cost <- zQuadraticValue q c x ;; Ok (Done (x, cost))
          end
      end.
End Asm.
