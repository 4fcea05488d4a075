(** Model of src/zm_opt_qp.c (the value of a quadratic form, the translation into a linear
    complementarity problem, the conjugate gradient method) and src/zm_opt_lp_stdcnv.c.
    [ztol] is zTOL.  Allocation is assumed to succeed.  Whether a warning is printed is not modelled. *)
From Verif Require Import Prelude Scalar Fmat LE_Model IP_Model Vop Root_Model.

Section Qp.
  Context {T : Type} {ST : Scalar T}.
  Local Open Scope S_scope.
  Local Notation vec := (fvec T).
  Local Notation mat := (fmat T).
  Variable ztol : T.

  (** zm_opt_qp.c:10-34 *)
  Definition zQuadraticValue (q : mat) (c x : vec) : res T :=
    let n := vlen x in
    if negb (nr q =? nc q)%nat then Ok 0
    else if negb (nr q =? n)%nat then Ok 0
    else if negb (vlen c =? n)%nat then Ok 0
    else for_ 0 n (fun i val =>
           val <- for_ 0 n (fun j val => qij <- mget q i j ;; xi <- vget x i ;; xj <- vget x j ;;
                                         Ok (val + sofZ 1 / sofZ 2 * qij * xi * xj)) val ;;
           ci <- vget c i ;; xi <- vget x i ;; Ok (val + ci * xi)) 0.

  (** zm_opt_qp.c:37-61.  A null constraint matrix is dereferenced by zMatPut. *)
  Definition zQP2LCP (q : mat) (c : vec) (a : option mat) (b : option vec) : res (mat * vec * vec) :=
    let ra := match a with Some a => nr a | None => O end in
    let nb := match b with Some b => vlen b | None => O end in
    let lm := mzero (nr q + ra) (nr q + ra) in
    let lq := vzero (vlen c + nb) in
    let z := vzero (vlen c + nb) in
    let lm := zMatPut lm 0 0 q in
    match a with
    | None => UB
    | Some a =>
        let lm := zMatPut lm (nr q) 0 a in
        lm <- for_ 0 (nr a) (fun i lm => for_ 0 (nc a) (fun j lm =>
                aij <- mget a i j ;; mset lm j (i + nc q) (- aij)) lm) lm ;;
        let lq := zVecPut lq 0 c in
        lq <- match b with
              | None => Ok lq
              | Some b => for_ 0 (vlen b) (fun i lq => bi <- vget b i ;; vset lq (vlen c + i) (- bi)) lq
              end ;;
        Ok (lm, lq, z)
    end.
  (** zm_opt_qp.c:64-84: the solver of the complementarity problem is a parameter: it is given the matrix,
      the vector and the vector for the answer, and tells the answer if it succeeds *)
  Variable lcp : mat -> vec -> vec -> res (option vec).
  Definition zQPSolve (q : mat) (c : vec) (a : option mat) (b : option vec) (ans : vec) : res (option (vec * T)) :=
    p <- zQP2LCP q c a b ;;
    let '(lm, lq, z) := p in
    r <- lcp lm lq z ;;
    match r with
    | None => Ok None
    | Some z => let ans := zVecGet z 0 ans in
                cost <- zQuadraticValue q c ans ;; Ok (Some (ans, cost))
    end.

  (** zm_opt_qp.c:109-118: the iterations; the answer, gradient and direction.  The flag says that the loop
      was left through the jump. *)
  Fixpoint cg_loop (n : nat) (q : mat) (ans g d : vec) : res (bool * (vec * vec * vec)) :=
    match n with
    | O => Ok (false, (ans, g, d))
    | S n =>
        qd <- zMulMatVecNC q d (vzero (vlen ans)) ;;
        let s := zVecInnerProd d qd in
        let a := zVecInnerProd d g / s in
        ans <- zVecCatNCDRC ans (- a) d ;;
        g <- zVecCatNCDRC g (- a) qd ;;
        if zVecIsTol ztol g then Ok (true, (ans, g, d))
        else let b := zVecInnerProd g qd / s in
             d <- zVecCatC g b d d ;;
             cg_loop n q ans g d
    end.
  (** zm_opt_qp.c:93-126 *)
  Definition zCGSolve (q : mat) (c ans : vec) (iter : Z) : res (vec * T) :=
    let g := vzero (vlen ans) in
    let d := vzero (vlen ans) in
    g <- zMulMatVec q ans g ;;
    g <- zVecAddC g c g ;;
    r <- (if zVecIsTol ztol g then Ok ans
          else d <- zVecCopyC g d ;; rmap (fun r => fst (fst (snd r))) (cg_loop (ziter iter) q ans g d)) ;;
    val <- zQuadraticValue q c r ;;
    Ok (r, val).

  (** zm_opt_lp_stdcnv.c:11-29 *)
  Definition zLPIneq2Std (a : mat) (c x : vec) : res (mat * vec * vec) :=
    let as_ := mzero (nr a) (nc a + nr a) in
    let cs := vzero (vlen c + nr a) in
    let xs := vzero (vlen x + nr a) in
    let as_ := zMatPut as_ 0 0 a in
    as_ <- for_ 0 (nr a) (fun i m => mset m i (nc a + i) 1) as_ ;;
    let cs := zVecPut cs 0 c in
    Ok (as_, cs, xs).
  (** zm_opt_lp_stdcnv.c:34-59 *)
  Definition zLPUnb2Std (a : mat) (c x : vec) : res (mat * vec * vec) :=
    let as_ := mzero (nr a) (nc a * 2 + nr a) in
    let cs := vzero (vlen c * 2 + nr a) in
    let xs := vzero (vlen x * 2 + nr a) in
    as_ <- for_ 0 (nr a) (fun i m =>
      m <- for_ 0 (nc a) (fun j m =>
             aij <- mget a i j ;;
             m <- mset m i j aij ;;
             mset m i (nc a + j) (- aij)) m ;;
      mset m i (nc a * 2 + i) 1) as_ ;;
    cs <- for_ 0 (vlen c) (fun i cs =>
      ci <- vget c i ;;
      cs <- vset cs i ci ;;
      vset cs (vlen c + i) (- ci)) cs ;;
    Ok (as_, cs, xs).
End Qp.
