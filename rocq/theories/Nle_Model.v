(** Model of src/zm_nle_dm.c (simultaneous equations: the numerical Jacobian, the evaluation function, the
    methods of Newton-Raphson and Broyden) and src/zm_nle_ss.c.  The equations f are a pure function whose
    answer has ne elements; the user pointer is part of f.  [ztol] is zTOL, [nan] tells which numbers
    zRawVecIsNan (zm_raw_vec.c) finds.  The direction of the Newton-Raphson method (zLESolveSRDST, zm_le_gen.c)
    is a parameter.  Allocation is assumed to succeed.  Warnings are not modelled. *)
From Verif Require Import Prelude Scalar Fmat LE_Model IP_Model Vop Root_Model.

Section Nle.
  Context {T : Type} {ST : Scalar T}.
  Local Open Scope S_scope.
  Local Notation vec := (fvec T).
  Local Notation mat := (fmat T).
  Variable ztol : T.
  Variable nan : T -> bool.
  Variable f : vec -> vec.
  Variable we : vec.

  (** zm_nle_dm.c:13-30.  The buffer of the ne x nv matrix is written at nv*i, ne elements (zm_raw_mat.h stores
      rows).  [eps] is Z_OPT_EPS (zm_opt.h:19). *)
  Definition zNLEJacobiNG (eps : T) (ne nv : nat) (var : vec) (buf : vec) : res (vec * vec) :=
    s <- for_ 0 (vlen var) (fun i '(var, buf) =>
           org <- vget var i ;;
           var <- vset var i (org + eps) ;;
           let adg := f var in
           var <- vset var i (org - eps) ;;
           let prg := f var in
           buf <- for_ 0 ne (fun k buf => a <- vget adg k ;; p <- vget prg k ;; vset buf (nv * i + k) (a - p)) buf ;;
           var <- vset var i org ;;
           Ok (var, buf)) (var, buf) ;;
    let '(var, buf) := s in
    buf <- zVecMulDRC buf (sofZ 1 / sofZ 2 / eps) ;;
    Ok (var, buf).
  (** element (i,j) of a matrix with nv columns *)
  Definition buf_el (nv : nat) (buf : vec) (i j : nat) : T := vel buf (nv * i + j).

  (** zm_nle_dm.c:34-39 *)
  Definition zNLEEval (var : vec) : T :=
    let fv := f var in
    let fw := FV (vlen we) (fun i => vel fv i * vel we i) in
    sofZ 1 / sofZ 2 * zVecInnerProd fv fw.

  (** zm_raw_vec.c zRawVecIsNan *)
  Definition zVecIsNan (v : vec) : bool := existsb (fun i => nan (vel v i)) (List.seq 0 (vlen v)).
  (** zm_nle_dm.c:55-68: the new variables and the equations there.  The loop over a is given a fuel; its
      exhaustion is [UB]. *)
  Fixpoint step_loop (fuel : nat) (a : T) (var d : vec) : res (option (vec * vec)) :=
    match fuel with
    | O => UB
    | S fuel =>
        if slt ztol a then
          x <- zVecCatNC var (- a) d var ;;
          let fp := f x in
          if zVecIsNan fp then step_loop fuel (a * (sofZ 1 / sofZ 2)) var d else Ok (Some (x, fp))
        else Ok None
    end.
  Definition step_fuel : nat := Z.to_nat 2000.
  Definition zNLEStep (var d : vec) : res (option (vec * vec)) := step_loop step_fuel 1 var d.

  Variable jac : vec -> mat -> res mat.
  (** the answers: the returned count with the evaluation at the solution, or None for -1 *)
  Definition answer : Type := option (nat * T) * vec.

  (** zm_nle_dm.c:84-107 *)
  Variable direction : mat -> vec -> res vec.
  Fixpoint nr_loop (n i : nat) (j : mat) (var : vec) (tol : T) : res answer :=
    match n with
    | O => Ok (None, var)
    | S n =>
        let fv := f var in
        if zVecIsTol tol fv then Ok (Some (i, zNLEEval var), var)
        else j <- jac var j ;;
             d <- direction j fv ;;
             s <- zNLEStep var d ;;
             match s with
             | None => Ok (None, var)
             | Some (var, _) => nr_loop n (S i) j var tol
             end
    end.
  Definition zNLESolveNR (ne : nat) (var : vec) (tol : T) (iter : Z) : res answer :=
    nr_loop (ziter iter) 0 (mzero ne (vlen var)) var tol.

  (** zm_nle_dm.c:137: Broyden's rule *)
  Definition broyden_update (j : mat) (fv d : vec) : res mat := zMatCatDyadNC j (sopp 1 / zVecSqrNorm d) fv d.
  (** zm_nle_dm.c:110-140 *)
  Fixpoint broyden_loop (n i : nat) (j : mat) (fv var d : vec) (tol : T) : res answer :=
    match n with
    | O => Ok (None, var)
    | S n =>
        o <- zLESolveGauss ztol j fv d ;;
        jd <- match o with
              | Some d => Ok (Some (j, d))
              | None => j <- jac var j ;;
                        o <- zLESolveGauss ztol j fv d ;;
                        Ok (match o with Some d => Some (j, d) | None => None end)
              end ;;
        match jd with
        | None => Ok (None, var)
        | Some (j, d) =>
            s <- zNLEStep var d ;;
            match s with
            | None => Ok (None, var)
            | Some (var, fp) =>
                if zVecIsTol tol fp then Ok (Some (i, zNLEEval var), var)
                else j <- broyden_update j fp d ;; broyden_loop n (S i) j fp var d tol
            end
        end
    end.
  Definition zNLESolveBroyden (ne : nat) (var : vec) (tol : T) (iter : Z) : res answer :=
    let fv := f var in
    if zVecIsTol tol fv then Ok (Some (O, zNLEEval var), var)
    else j <- jac var (mzero ne (vlen var)) ;;
         broyden_loop (ziter iter) 0 j fv var (vzero (vlen var)) tol.

  (** zm_nle_ss.c:10-33.  The number of substitutions made is answered beside the result. *)
  Fixpoint ss_loop (n k : nat) (x : vec) : res (nat * vec) :=
    match n with
    | O => Ok (k, x)
    | S n => let y := f x in
             e <- zVecSubNC y x (vzero (vlen x)) ;;
             if zVecIsTol ztol e then Ok (k, x) else x <- zVecCopyNC y x ;; ss_loop n (S k) x
    end.
  Definition zSSSolve (x : vec) (iter : Z) : res (nat * vec) := ss_loop (ziter iter) 0 x.
End Nle.
