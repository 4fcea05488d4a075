(** Model of src/zm_opt_lp_simplex.c (two-phase simplex method) and src/zm_opt_lcp_lemke.c (Lemke's complementary
    pivoting).  [ztol] is zTOL.  Matrices and vectors are at the value level (Fmat); a zIndex is the list of its
    elements and an access beyond its size is [UB].  Allocation is assumed to succeed. *)
From Verif Require Import Prelude Scalar Fmat LE_Model IP_Model Vop Stat_Model.

Section Lp.
  Context {T : Type} {ST : Scalar T}.
  Local Open Scope S_scope.
  Local Notation vec := (fvec T).
  Local Notation mat := (fmat T).
  Variable ztol : T.

  (** ZEDA zIndexRemove: the elements behind the removed one move forward *)
  Definition index_remove (l : list nat) (i : nat) : list nat := firstn i l ++ skipn (S i) l.

  (** ** zm_opt_lp_simplex.c *)
  (** zm_opt_lp.h:15-23 *)
  Record tableau := Tab { ta : mat; tb : vec; tc : vec; td : T; tib : list nat; tin : list nat; tir : list nat }.

  (** zm_opt_lp_simplex.c:26-56; the buffers are zero after allocation; b has the row size of a *)
  Definition zLPTableauCreate (a : mat) (b : vec) : tableau :=
    let m := nr a in let n := nc a in
    Tab (FM m (n + m) (fun i j =>
           if (j <? n)%nat then (if sle 0 (vel b i) then el a i j else - el a i j)
           else if (j =? n + i)%nat then 1 else 0))
        (FV m (fun i => if sle 0 (vel b i) then vel b i else - vel b i))
        (FV (n + m) (fun j => if (j <? n)%nat then 0 else 1))
        0 (List.seq n m) (List.seq 0 n) (List.seq 0 m).

  (** 70-82 *)
  Definition _zLPTableauSweepC1 (tab : tableau) (p : nat) : res tableau :=
    ibp <- get (tib tab) p ;;
    irp <- get (tir tab) p ;;
    cp <- vget (tc tab) ibp ;;
    c <- for_ 0 (length (tin tab)) (fun i c =>
           inj <- get (tin tab) i ;;
           x <- mget (ta tab) irp inj ;;
           vmod c inj (fun y => y - x * cp)) (tc tab) ;;
    x <- vget (tb tab) irp ;;
    c <- vset c ibp 0 ;;
    Ok (Tab (ta tab) (tb tab) c (td tab + x * cp) (tib tab) (tin tab) (tir tab)).
  (** 85-91 *)
  Definition _zLPTableauSweepC (tab : tableau) : res tableau :=
    for_ 0 (length (tib tab)) (fun i tab => _zLPTableauSweepC1 tab i) tab.
  (** 94-105; None is -1 *)
  Definition _zLPTableauFindNA (tab : tableau) : res (option nat) :=
    in0 <- get (tin tab) 0 ;;
    c0 <- vget (tc tab) in0 ;;
    '(c_min, na) <- for_ 1 (Nat.max 1 (length (tin tab))) (fun i '(c_min, na) =>
       ini <- get (tin tab) i ;;
       ci <- vget (tc tab) ini ;;
       if slt ci c_min then Ok (ci, i) else Ok (c_min, na)) (c0, O) ;;
    Ok (if slt c_min (- ztol) then Some na else None).
  (** 108-121; idx_min of None is INT_MAX *)
  Definition _zLPTableauFindNA_deg (tab : tableau) : res (option nat) :=
    r <- for_ 0 (length (tin tab)) (fun i s =>
       ini <- get (tin tab) i ;;
       ci <- vget (tc tab) ini ;;
       if slt ci (- ztol) then
         match s with
         | Some (_, idx_min) => if (ini <? idx_min)%nat then Ok (Some (i, ini)) else Ok s
         | None => Ok (Some (i, ini))
         end
       else Ok s) None ;;
    Ok (match r with Some (na, _) => Some na | None => None end).
  (** 130-147: the search from RETRY on; [inr] asks for the retry of the degenerate case.  The result is the pivot
      row, None for -1; p_min of None is HUGE_VAL *)
  Definition findnp (f_try : bool) (tab : tableau) (na : nat) : res (option (T * nat) + unit) :=
    ina <- get (tin tab) na ;;
    forb 0 (length (tir tab)) (fun i s =>
      iri <- get (tir tab) i ;;
      a <- mget (ta tab) iri ina ;;
      if slt a ztol then Ok (inl s)
      else
        bi <- vget (tb tab) iri ;;
        let p := bi / a in
        if is_tol ztol p && f_try then Ok (inr tt)
        else match s with
             | Some (p_min, _) => if slt p p_min then Ok (inl (Some (p, i))) else Ok (inl s)
             | None => Ok (inl (Some (p, i)))
             end) None.
  (** 124-148: the pivot row (None for -1) and the column, which the degenerate case replaces *)
  Definition _zLPTableauFindNP (tab : tableau) (na : nat) : res (option nat * nat) :=
    r <- findnp true tab na ;;
    match r with
    | inl s => Ok (option_map snd s, na)
    | inr _ =>
        na' <- _zLPTableauFindNA_deg tab ;;
        match na' with
        | None => UB
        | Some na =>
            r <- findnp false tab na ;;
            match r with inl s => Ok (option_map snd s, na) | inr _ => UB end
        end
    end.
  (** 151-175 *)
  Definition _zLPTableauSweepA (tab : tableau) (np na : nat) : res tableau :=
    irp <- get (tir tab) np ;; ina <- get (tin tab) na ;; ibp <- get (tib tab) np ;;
    ap <- mget (ta tab) irp ina ;;
    a <- for_ 0 (length (tin tab)) (fun j a => inj <- get (tin tab) j ;; mmod a irp inj (fun x => x / ap)) (ta tab) ;;
    a <- mmod a irp ibp (fun x => x / ap) ;;
    b <- vmod (tb tab) irp (fun x => x / ap) ;;
    '(a, b) <- for_ 0 (length (tir tab)) (fun i '(a, b) =>
       if (i =? np)%nat then Ok (a, b)
       else
         r <- get (tir tab) i ;;
         ap <- mget a r ina ;;
         a <- for_ 0 (length (tin tab)) (fun j a =>
                inj <- get (tin tab) j ;;
                y <- mget a irp inj ;;
                mmod a r inj (fun x => x - y * ap)) a ;;
         y <- mget a irp ibp ;;
         a <- mmod a r ibp (fun x => x - y * ap) ;;
         y <- vget b irp ;;
         b <- vmod b r (fun x => x - y * ap) ;;
         Ok (a, b)) (a, b) ;;
    Ok (Tab a b (tc tab) (td tab) (tib tab) (tin tab) (tir tab)).
  (** 178-185 *)
  Definition _zLPTableauSwapPivot (tab : tableau) (np na : nat) : res tableau :=
    tmp <- get (tin tab) na ;;
    ibp <- get (tib tab) np ;;
    in_ <- set (tin tab) na ibp ;;
    ib <- set (tib tab) np tmp ;;
    Ok (Tab (ta tab) (tb tab) (tc tab) (td tab) ib in_ (tir tab)).
  (** 201-211, [rest] pivots may follow; the flag is the answer *)
  Fixpoint simplex_loop (rest : nat) (tab : tableau) : res (tableau * bool) :=
    na <- _zLPTableauFindNA tab ;;
    match na with
    | None => Ok (tab, true)
    | Some na =>
        match rest with
        | O => Ok (tab, false)
        | S rest =>
            '(np, na) <- _zLPTableauFindNP tab na ;;
            match np with
            | None => Ok (tab, false)
            | Some np =>
                tab <- _zLPTableauSweepA tab np na ;;
                tab <- _zLPTableauSwapPivot tab np na ;;
                tab <- _zLPTableauSweepC1 tab np ;;
                simplex_loop rest tab
            end
        end
    end.
  (** 196-213 *)
  Definition zLPTableauSimplex (tab : tableau) : res (tableau * bool) :=
    tab <- _zLPTableauSweepC tab ;; simplex_loop (S (nc (ta tab))) tab.
  (** 223-229: the first non-base to be exchanged; the row is i, not the i-th relevant one *)
  Definition findbase_col (tab : tableau) (n i : nat) : res (option nat) :=
    r <- forb 0 (length (tin tab)) (fun j (_ : unit) =>
       inj <- get (tin tab) j ;;
       if (inj <? n)%nat then
         x <- mget (ta tab) i inj ;;
         if is_tol ztol x then Ok (inl tt) else Ok (inr j)
       else Ok (inl tt)) tt ;;
    Ok (match r with inl _ => None | inr j => Some j end).
  (** 221-234; [k] bases are left *)
  Fixpoint findbase (k i : nat) (n : nat) (tab : tableau) : res tableau :=
    match k with
    | O => Ok tab
    | S k =>
        ibi <- get (tib tab) i ;;
        if (ibi <? n)%nat then findbase k (S i) n tab
        else
          j <- findbase_col tab n i ;;
          match j with
          | Some j =>
              tab <- _zLPTableauSweepA tab i j ;;
              tab <- _zLPTableauSwapPivot tab i j ;;
              findbase k (S i) n tab
          | None => findbase k i n (Tab (ta tab) (tb tab) (tc tab) (td tab) (index_remove (tib tab) i) (tin tab) (index_remove (tir tab) i))
          end
    end.
  (** 216-242 *)
  Definition zLPTableauFindBase (tab : tableau) : res tableau :=
    let n := (vlen (tc tab) - vlen (tb tab))%nat in
    tab <- findbase (length (tib tab)) 0 n (Tab (ta tab) (tb tab) (tc tab) 0 (tib tab) (tin tab) (tir tab)) ;;
    Ok (Tab (ta tab) (tb tab) (tc tab) (td tab) (tib tab) (filter (fun j => (j <? n)%nat) (tin tab)) (tir tab)).
  (** 251-258 *)
  Definition _zLPTableauAns (tab : tableau) (ans : vec) : res vec :=
    for_ 0 (length (tib tab)) (fun i ans =>
      ibi <- get (tib tab) i ;; x <- vget (tb tab) i ;; vset ans ibi x) (FV (vlen ans) (fun _ => 0)).
  (** 261-298: the answer and the cost; None is false *)
  Definition zLPSolveSimplex (a : mat) (b c ans : vec) : res (option (vec * T)) :=
    if negb ((nc a =? vlen ans) && (nr a =? vlen b))%nat then Ok None
    else if negb (vlen c =? vlen ans)%nat then Ok None
    else
      '(tab, ok) <- zLPTableauSimplex (zLPTableauCreate a b) ;;
      if negb ok || negb (is_tol ztol (td tab)) then Ok None
      else
        tab <- zLPTableauFindBase tab ;;
        let tab := Tab (ta tab) (tb tab) (FV (vlen c) (vel c)) (td tab) (tib tab) (tin tab) (tir tab) in
        '(tab, ok) <- zLPTableauSimplex tab ;;
        if negb ok then Ok None
        else
          ans <- _zLPTableauAns tab ans ;;
          Ok (Some (ans, td tab)).
  (** 301-325 *)
  Definition zLPFeasibleBase (a : mat) (b base : vec) : res (option vec) :=
    if negb (nr a =? vlen b)%nat then Ok None
    else
      '(tab, ok) <- zLPTableauSimplex (zLPTableauCreate a b) ;;
      if negb ok || negb (is_tol ztol (td tab)) then Ok None
      else base <- _zLPTableauAns tab base ;; Ok (Some base).

  (** ** zm_opt_lcp_lemke.c *)
  (** 10-15 *)
  Record lemke := Lemke { ltab : mat; lp : vec; lib : list nat; lin : list nat; lact : nat }.
  (** 40-62 *)
  Definition _zLemkeCreate (m : mat) (q : vec) : lemke :=
    let n := nr m in
    Lemke (FM n (2 * n + 1) (fun i j =>
             if (j =? 2 * n)%nat then - (1) else if (j =? i + n)%nat then 1 else if (j <? n)%nat then - el m i j else 0))
          q (List.seq n n) (List.seq 0 n) (2 * n).
  (** 65-89; the elements of the leaving column of the other rows are set to minus a product ("=-" in 84), they are
      zero before *)
  Definition _zLemkeSweep (l : lemke) (p : nat) : res lemke :=
    ap <- mget (ltab l) p (lact l) ;;
    a <- for_ 0 (length (lin l)) (fun j a => inj <- get (lin l) j ;; mmod a p inj (fun x => x / ap)) (ltab l) ;;
    ibp <- get (lib l) p ;;
    a <- mmod a p ibp (fun x => x / ap) ;;
    a <- mset a p (lact l) 1 ;;
    b <- vmod (lp l) p (fun x => x / ap) ;;
    '(a, b) <- for_ 0 (vlen (lp l)) (fun i '(a, b) =>
       if (i =? p)%nat then Ok (a, b)
       else
         ap <- mget a i (lact l) ;;
         a <- for_ 0 (length (lin l)) (fun j a =>
                inj <- get (lin l) j ;;
                y <- mget a p inj ;;
                mmod a i inj (fun x => x - y * ap)) a ;;
         y <- mget a p ibp ;;
         a <- mset a i ibp (- (y * ap)) ;;
         a <- mset a i (lact l) 0 ;;
         y <- vget b p ;;
         b <- vmod b i (fun x => x - y * ap) ;;
         Ok (a, b)) (a, b) ;;
    Ok (Lemke a b (lib l) (lin l) (lact l)).
  (** 97-101 *)
  Definition lemke_enter (in_ : list nat) (act ib : nat) : res (list nat) :=
    r <- forb 0 (length in_) (fun i (_ : unit) =>
           ini <- get in_ i ;; if (ini =? act)%nat then Ok (inr i) else Ok (inl tt)) tt ;;
    match r with inl _ => Ok in_ | inr i => set in_ i ib end.
  (** 92-103: the flag tells that the artificial variable left *)
  Definition _zLemkeSwap (l : lemke) (p : nat) : res (lemke * bool) :=
    ib <- get (lib l) p ;;
    lib' <- set (lib l) p (lact l) ;;
    let n := length (lib l) in
    let act := ((ib + n) mod (2 * n))%nat in
    in_ <- lemke_enter (lin l) act ib ;;
    Ok (Lemke (ltab l) (lp l) lib' in_ act, (S ib =? nc (ltab l))%nat).
  (** 106-122 *)
  Definition _zLemkePivot (l : lemke) : res (option nat) :=
    s <- for_ 0 (vlen (lp l)) (fun i s =>
      a <- mget (ltab l) i (lact l) ;;
      if slt a ztol then Ok s
      else
        pi <- vget (lp l) i ;;
        let p := pi / a in
        match s with
        | Some (p_min, _) => if slt p p_min then Ok (Some (p, i)) else Ok s
        | None => Ok (Some (p, i))
        end) None ;;
    Ok (option_map snd s).
  (** how a run of at most a given number of pivots ends: it failed, it succeeded, or it has not ended yet *)
  Inductive ended (A : Type) := Failed | Done (a : A) | Running.
  Arguments Failed {A}. Arguments Done {A}. Arguments Running {A}.
  (** 125-137, the first [fuel] pivots; the loop of the code has no limit *)
  Fixpoint _zLemkeIter (fuel : nat) (l : lemke) : res (ended lemke) :=
    match fuel with
    | O => Ok Running
    | S fuel =>
        p <- _zLemkePivot l ;;
        match p with
        | None => Ok Failed
        | Some p =>
            l <- _zLemkeSweep l p ;;
            '(l, fin) <- _zLemkeSwap l p ;;
            if (fin : bool) then Ok (Done l) else _zLemkeIter fuel l
        end
    end.
  (** 140-157: w (if it is given) and z *)
  Definition _zLemkeAnswer (l : lemke) (w : option vec) (z : vec) : res (option vec * vec) :=
    w <- match w with
         | None => Ok None
         | Some w =>
             w <- for_ 0 (length (lib l)) (fun i w =>
                    ibi <- get (lib l) i ;;
                    if (vlen w <=? ibi)%nat && (ibi - vlen w <? vlen w)%nat then x <- vget (lp l) i ;; vset w (ibi - vlen w) x
                    else Ok w) (FV (vlen w) (fun _ => 0)) ;;
             Ok (Some w)
         end ;;
    z <- for_ 0 (length (lib l)) (fun i z =>
           ibi <- get (lib l) i ;;
           if (ibi <? vlen z)%nat then x <- vget (lp l) i ;; vset z ibi x else Ok z) (FV (vlen z) (fun _ => 0)) ;;
    Ok (w, z).
  (** 160-169: the flag is the answer; zVecElemMin is zDataMin *)
  Definition _zLemkeInit (l : lemke) : res (lemke * bool) :=
    '(qmin, p) <- zDataMin (to_list (lp l)) (vlen (lp l)) ;;
    if sle 0 qmin then Ok (l, true)
    else
      l <- _zLemkeSweep l p ;;
      '(l, _) <- _zLemkeSwap l p ;;
      Ok (l, false).
  (** 172-198 *)
  Definition zLCPSolveLemke (fuel : nat) (m : mat) (p : vec) (w : option vec) (z : vec) : res (ended (option vec * vec)) :=
    if negb (nr m =? nc m)%nat then Ok Failed
    else if negb (nr m =? vlen p)%nat then Ok Failed
    else if match w with Some w => negb ((vlen w =? vlen p) && (vlen w =? vlen z))%nat | None => false end then Ok Failed
    else
      '(l, ok) <- _zLemkeInit (_zLemkeCreate m p) ;;
      r <- (if (ok : bool) then Ok (Done l) else _zLemkeIter fuel l) ;;
      match r with
      | Failed => Ok Failed
      | Running => Ok Running
      | Done l => a <- _zLemkeAnswer l w z ;; Ok (Done a)
      end.
End Lp.
Arguments Failed {A}. Arguments Done {A}. Arguments Running {A}.
