(** Model of the bisection for the eigenvalues of a symmetric tridiagonal matrix, src/zm_mat_eig.c:376-445.
    [ztol] is zTOL, [half] is 0.5.  The matrix is the tridiagonal one made by zMatToHessenberg (Hess_Model). *)
From Verif Require Import Prelude Scalar Fmat.

Section Sturm.
  Context {T : Type} {ST : Scalar T}.
  Local Open Scope S_scope.
  Local Notation mat := (fmat T).
  Variable ztol half : T.

  (** zm_mat_eig.c:376-388, except that the element right of the last one, which is read out of bounds (C111), is the
      argument [junk] *)
  Definition bisec_range_junk (junk : T) (m : mat) : res (T * T) :=
    r <- for_ 0 (nr m) (fun i '(emin, emax, ml) =>
           mr <- (if (i + 1 <? nr m)%nat then x <- mget m i (i + 1) ;; Ok (sabs x) else Ok (sabs junk)) ;;
           d <- mget m i i ;;
           let emax := if slt emax (d + (ml + mr)) then d + (ml + mr) else emax in
           let emin := if slt (d - (ml + mr)) emin then d - (ml + mr) else emin in
           Ok (emin, emax, mr)) (0, 0, 0) ;;
    Ok (fst r).

  (** zm_mat_eig.c:391-405 *)
  Definition sturm (m : mat) (e : T) : res nat :=
    x <- mget m 0 0 ;;
    let p1 := e - x in
    let n := if sle p1 0 then 1%nat else 0%nat in
    r <- for_ 1 (nr m) (fun i '(n, p1) =>
           r <- mget m i (i - 1) ;;
           d <- mget m i i ;;
           let p2 := e - d - r * r / (if seq p1 0 then ztol else p1) in
           Ok (if slt p2 0 then S n else n, p2)) (n, p1) ;;
    Ok (fst r).

  (** zm_mat_eig.c:408-422.  The loop ends when the width of the interval no longer changes, which for floating-point
      numbers takes about sixty steps; here it ends after [steps] steps at the latest, for numbers that can be halved
      for ever.  [d_old] is None for HUGE_VAL. *)
  Fixpoint bisec_one (steps : nat) (m : mat) (emin : T) (nmin : nat) (emax : T) (d_old : option T) : res T :=
    let d := emax - emin in
    let e := emin + half * d in
    match steps with
    | O => Ok e
    | S steps =>
        if match d_old with Some o => seq d o | None => false end then Ok e
        else
          n <- sturm m e ;;
          if (n =? nmin)%nat then bisec_one steps m e nmin emax (Some d) else bisec_one steps m emin nmin e (Some d)
    end.

  (** zm_mat_eig.c:425-438; [off] is the place of eig in the vector of the caller.  [None]: deeper than [depth] *)
  Fixpoint bisec_rec (depth steps : nat) (m : mat) (emin : T) (nmin : nat) (emax : T) (nmax : nat) (eig : list T) (off : Z) : res (option (list T)) :=
    match depth with
    | O => Ok None
    | S depth =>
        if (Z.of_nat nmin - Z.of_nat nmax =? 1)%Z then
          e <- bisec_one steps m emin nmin emax None ;;
          if (0 <=? off)%Z then rmap Some (set eig (Z.to_nat off) e) else UB
        else
          let e := half * (emax + emin) in
          n <- sturm m e ;;
          r <- (if (nmax <? n)%nat then bisec_rec depth steps m e n emax nmax eig off else Ok (Some eig)) ;;
          match r with
          | None => Ok None
          | Some eig =>
              if (n <? nmin)%nat then bisec_rec depth steps m emin nmin e n eig (off + (Z.of_nat n - Z.of_nat nmax))%Z else Ok (Some eig)
          end
    end.
  (** zm_mat_eig.c:484-487: the eigenvalues *)
  Definition bisec_eigenvalues (depth steps : nat) (junk : T) (m : mat) (eig : list T) : res (option (list T)) :=
    '(emin, emax) <- bisec_range_junk junk m ;;
    nmin <- sturm m emin ;;
    nmax <- sturm m emax ;;
    bisec_rec depth steps m emin nmin emax nmax eig 0.
End Sturm.
