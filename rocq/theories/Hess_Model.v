(** Model of the rest of src/zm_mat_eig.c: Hessenberg matrices, the double QR method, the range of the bisection method,
    the power method, singular values and condition numbers.  [ztol] is zTOL.  Matrices and vectors are at the value
    level; where a loop only computes each element once, it is written as the value of the element.  Allocation is
    assumed to succeed.  The random vector drawn by zVecRandUniform is an argument. *)
From Verif Require Import Prelude Scalar Fmat LE_Model IP_Model Vop Eig_Model.
From Verif Require Complex_Model.

Section Hess.
  Context {T : Type} {ST : Scalar T}.
  Local Open Scope S_scope.
  Local Notation vec := (fvec T).
  Local Notation mat := (fmat T).
  Local Notation half := (sofZ 1%Z / sofZ 2%Z).
  Variable ztol : T.

  (** [for( j=from; j<from+cnt; j++ ) acc += f(j)] *)
  Fixpoint acc_sum (from cnt : nat) (f : nat -> T) (acc : T) : T :=
    match cnt with O => acc | S c => acc_sum (S from) c f (acc + f from) end.

  (** zm_mat_eig.c:53-65, the elements of u; to is the size n.  Elements below [from] are not touched. *)
  Definition house_vec (m : mat) (col from : nat) (u : nat -> T) : nat -> T :=
    let n := nr m in
    let u := fun i => if (from <=? i)%nat then el m i col else u i in
    let s := acc_sum from (n - from) (fun i => u i * u i) 0 in
    if is_tol ztol s then u
    else
      let x := el m from col in
      let s := (- sgn x) * ssqrt s in
      let k := 1 / ssqrt (sofZ 2%Z * (s - x) * s) in
      fun i => if (from <=? i)%nat then (if (i =? from)%nat then u i - s else u i) * k else u i.
  (** zm_mat_eig.c:10-50: the matrix and the transformation.  The two subtractions from an element are in the order of the
      loops. *)
  Definition house (m : mat) (p : option mat) (from : nat) (u : nat -> T) : mat * option mat :=
    let n := nr m in
    let v := fun i => acc_sum from (n - from) (fun j => el m i j * u j) 0 * sofZ 2%Z in
    let w := fun i => acc_sum from (n - from) (fun j => el m j i * u j) 0 * sofZ 2%Z in
    let a := ksum (n - from) (fun k => v (from + k)%nat * u (from + k)%nat) in
    let v' := fun i => if (from <=? i)%nat then v i - a * u i else v i in
    let w' := fun i => if (from <=? i)%nat then w i - a * u i else w i in
    (FM (nr m) (nc m) (fun i j =>
       match (from <=? i)%nat, (from <=? j)%nat with
       | true, true => if (j <? i)%nat then el m i j - u i * w' j - v' i * u j else el m i j - v' i * u j - u i * w' j
       | true, false => el m i j - u i * w' j
       | false, true => el m i j - v' i * u j
       | false, false => el m i j
       end),
     option_map (fun p =>
       let v := fun i => acc_sum from (n - from) (fun j => el p i j * u j) 0 * sofZ 2%Z in
       FM (nr p) (nc p) (fun i j => if (from <=? j)%nat then el p i j - v i * u j else el p i j)) p).
  (** zm_mat_eig.c:99-105 for one n: [fuel] bounds the number of passes by RETRY, None is the fuel used up *)
  Fixpoint hess_col (fuel : nat) (n : nat) (h : mat) (p : option mat) (u : nat -> T) : option (mat * option mat * (nat -> T)) :=
    match fuel with
    | O => None
    | S fuel =>
        let u := house_vec h n (S n) u in
        let '(h, p) := house h p (S n) u in
        if forallb (fun i => is_tol ztol (el h i n)) (List.seq (n + 2) (nr h - (n + 2))) then Some (h, p, u)
        else hess_col fuel n h p u
    end.
  Fixpoint hess_cols (fuel : nat) (cnt n : nat) (h : mat) (p : option mat) (u : nat -> T) : option (mat * option mat) :=
    match cnt with
    | O => Some (h, p)
    | S c => match hess_col fuel n h p u with
             | None => None
             | Some (h, p, u) => hess_cols fuel c (S n) h p u
             end
    end.
  Inductive hess_out := HessError | HessEndless | Hess (h : mat) (p : option mat).
  (** zm_mat_eig.c:68-110; [hsize] is the size of the destination (None: the matrix itself is transformed), p the
      destination of the transformation.  HessEndless: more than [fuel] passes for a column. *)
  Definition zMatToHessenberg (fuel : nat) (m : mat) (h p : option mat) : hess_out :=
    if negb (nr m =? nc m)%nat then HessError
    else if match h with Some h => negb ((nr m =? nr h) && (nc m =? nc h))%nat | None => false end then HessError
    else if match p with Some p => negb ((nr m =? nr p) && (nc m =? nc p))%nat | None => false end then HessError
    else
      match hess_cols fuel (nr m - 2) 0 m (option_map (fun _ => ident (nr m)) p) (fun _ => 0) with
      | None => HessEndless
      | Some (h, p) => Hess h p
      end.

  (** zm_mat_eig.c:115-142: every element goes through the checked accesses *)
  Definition dqr_house (a : mat) (r c : nat) (g1 g2 g3 : T) : res mat :=
    let s := g1 * g1 + g2 * g2 + g3 * g3 in
    let s := if slt s 0 then 0 else ssqrt s in
    let den := g1 + (if slt 0 g1 then s else - s) in
    let g2 := g2 / den in
    let g3 := g3 / den in
    let alpha := sofZ 2%Z / (1 + g2 * g2 + g3 * g3) in
    let c1 := (c + 1)%nat in
    let c2 := (c + 2)%nat in
    a <- for_ (c - 1) (S r) (fun i a =>
           x0 <- mget a c i ;; x1 <- mget a c1 i ;; x2 <- mget a c2 i ;;
           let s := (x0 + g2 * x1 + g3 * x2) * alpha in
           a <- mset a c i (x0 - s) ;;
           a <- mset a c1 i (x1 - s * g2) ;;
           mset a c2 i (x2 - s * g3)) a ;;
    let n := Nat.min (Nat.max (c + 3) r) (nr a - 1) in
    for_ 0 (S n) (fun i a =>
      x0 <- mget a i c ;; x1 <- mget a i c1 ;; x2 <- mget a i c2 ;;
      let s := (x0 + g2 * x1 + g3 * x2) * alpha in
      a <- mset a i c (x0 - s) ;;
      a <- mset a i c1 (x1 - s * g2) ;;
      mset a i c2 (x2 - s * g3)) a.
  (** zm_mat_eig.c:184-195, one step of the iteration *)
  Definition dqr_step (a : mat) (r : nat) (b c : T) : res mat :=
    let r1 := (r - 1)%nat in
    a0 <- mget a 0 0 ;; a1 <- mget a 1 0 ;; a01 <- mget a 0 1 ;; a11 <- mget a 1 1 ;; a21 <- mget a 2 1 ;;
    let b := b + a0 in
    a <- dqr_house a r 0 (a01 * a1 + a0 * b + c) ((a11 + b) * a1) (a21 * a1) ;;
    a <- for_ 1 r1 (fun j a =>
           x0 <- mget a j (j - 1) ;; x1 <- mget a (j + 1) (j - 1) ;; x2 <- mget a (j + 2) (j - 1) ;;
           dqr_house a r j x0 x1 x2) a ;;
    y1 <- mget a r1 (r1 - 1) ;; y2 <- mget a r (r1 - 1) ;;
    dqr_house a r (Nat.max 1 r1) y1 y2 0.
  (** zm_mat_eig.c:168-198: eigenvalues from the index r down to 0; [total] bounds the number of rounds of the outer loop
      (rounds whose inner loop runs out of its [iter] steps start again) *)
  Inductive dqr_out := DqrEndless | Dqr (e : nat -> T * T).
  Definition set_e (e : nat -> T * T) (i : nat) (x : T * T) : nat -> T * T := fun k => if (k =? i)%nat then x else e k.
  Fixpoint dqr_inner (iter : nat) (a : mat) (r : nat) (e : nat -> T * T) : res (mat * option nat * bool * (nat -> T * T)) :=
    (** (a, the next r (None: below 0), progress, e) *)
    match iter with
    | O => Ok (a, Some r, false, e)
    | S iter' =>
        let r1 := (r - 1)%nat in
        x <- mget a r r1 ;;
        arr <- mget a r r ;;
        if is_tol ztol x then Ok (a, Some r1, true, set_e e r (arr, 0))
        else
          a11 <- mget a r1 r1 ;; a12 <- mget a r1 r ;;
          let b := (- a11) - arr in
          let c := a11 * arr - a12 * x in
          fin <- (if (r1 =? 0)%nat then Ok true else y <- mget a r1 (r1 - 1) ;; Ok (is_tol ztol y)) ;;
          if (fin : bool) then
            match Complex_Model.zQESolve half (sofZ 4%Z) 1 b c with
            | None => UB
            | Some (e0, e1) => Ok (a, (if (r <? 2)%nat then None else Some (r - 2)%nat), true, set_e (set_e e r1 e0) r e1)
            end
          else
            a <- dqr_step a r b c ;; dqr_inner iter' a r e
    end.
  Fixpoint dqr_outer (total iter : nat) (a : mat) (r : nat) (e : nat -> T * T) : res dqr_out :=
    match total with
    | O => Ok DqrEndless
    | S total =>
        if (r =? 0)%nat then x <- mget a 0 0 ;; Ok (Dqr (set_e e 0 (x, 0)))
        else
          q <- dqr_inner iter a r e ;;
          let '(a, r', _, e) := q in
          match r' with None => Ok (Dqr e) | Some r' => dqr_outer total iter a r' e end
    end.
  (** zm_mat_eig.c:145-200; Some (Dqr e) is the answer true with the eigenvalues e, None false.  [esize] is the size of eigval. *)
  Definition zMatEigDQR (fuel total iter : nat) (m : mat) (esize : nat) : res (option dqr_out) :=
    if negb (nr m =? nc m)%nat then Ok None
    else if negb (nr m =? esize)%nat then Ok None
    else
      match zMatToHessenberg fuel m None None with
      | Hess a _ => if (nr a =? 0)%nat then Ok (Some (Dqr (fun _ => (0, 0))))
                    else rmap Some (dqr_outer total iter a (nr a - 1) (fun _ => (0, 0)))
      | _ => Ok (Some DqrEndless)
      end.

  (** zm_mat_eig.c:376-388: (emin, emax) *)
  Definition bisec_range (m : mat) : res (T * T) :=
    r <- for_ 0 (nr m) (fun i '(emin, emax, ml) =>
           mr <- (if (i <? nr m)%nat then x <- mget m i (i + 1) ;; Ok (sabs x) else Ok 0) ;;
           d <- mget m i i ;;
           let emax := if slt emax (d + (ml + mr)) then d + (ml + mr) else emax in
           let emin := if slt (d - (ml + mr)) emin then d - (ml + mr) else emin in
           Ok (emin, emax, mr)) (0, 0, 0) ;;
    Ok (fst r).
  (** zm_mat_eig.c:470-485 up to the call of _zMatSymEigBisecRange; the rest [k] is not modelled.  None is false. *)
  Definition zMatSymEigBisec {X} (fuel : nat) (k : mat -> T -> T -> res X) (m : mat) (eigval : vec) (eigbase : mat) : res (option X) :=
    if negb (nr m =? nc m)%nat then Ok None
    else if negb ((nr m =? nr eigbase) && (nc m =? nc eigbase))%nat then Ok None
    else if negb (nr m =? vlen eigval)%nat then Ok None
    else
      match zMatToHessenberg fuel m None None with
      | Hess a _ => '(emin, emax) <- bisec_range a ;; rmap Some (k a emin emax)
      | _ => Ok None
      end.

  (** zm_vec.c zVecNormalize, zm_raw_vec.c:301-312; the destination is left alone when the norm is tiny *)
  Definition zVecNormalize (src dest : vec) : vec :=
    let l := ssqrt (zVecSqrNorm src) in
    if is_tol ztol l then dest else FV (vlen dest) (fun i => vel src i * (1 / l)).
  (** zm_mat_eig.c:217-223: (eigval, eigvec), whether the residual was tiny *)
  Fixpoint power_loop (iter : nat) (m : mat) (eigvec ev : vec) (eigval : T) : res (T * vec * bool) :=
    match iter with
    | O => Ok (eigval, eigvec, false)
    | S iter =>
        let ev := zVecNormalize eigvec ev in
        eigvec <- zMulMatVecNC m ev eigvec ;;
        let eigval := zVecInnerProd ev eigvec in
        err <- zVecCatNC eigvec (- eigval) ev (vzero (vlen eigvec)) ;;
        if zVecIsTol ztol err then Ok (eigval, eigvec, true) else power_loop iter m eigvec ev eigval
    end.
  (** zm_mat_eig.c:203-229; [iter] > 0 is the number after ZITERINIT, [rnd] the random vector *)
  Definition zMatEigPower (iter : nat) (m : mat) (rnd : vec) : res (T * vec * bool) :=
    '(eigval, eigvec, ok) <- power_loop iter m rnd (vzero (vlen rnd)) 1 ;;
    eigvec <- zVecDivDRC ztol eigvec eigval ;;
    Ok (eigval, eigvec, ok).
  (** zm_mat_eig.c:232-250; eigvec is left alone where it is not computed *)
  Definition zMatEigPowerInv (iter : nat) (m : mat) (rnd : vec) : res (T * vec * bool) :=
    if negb (nr m =? nc m)%nat then Ok (0, rnd, false)
    else
      o <- zMatInv ztol m (zmat (nr m) (nc m)) ;;
      match o with
      | Some mi => '(eigval, v, ok) <- zMatEigPower iter mi rnd ;; Ok (1 / eigval, v, ok)
      | None => Ok (1 / 0, rnd, false)
      end.
  (** zm_mat_eig.c:632-655; the vector drawn here is drawn again by zMatEigPower *)
  Definition singular_mat (m : mat) : mat := if (nc m <? nr m)%nat then mul_matT_mat m m else mul_mat_matT m m.
  (** zm_mat_eig.c:658-683: the value, whether the power method converged.  [rnd] has the smaller size of m. *)
  Definition zMatSingularValueMax (iter : nat) (m : mat) (rnd : vec) : res (T * bool) :=
    '(e, _, ok) <- zMatEigPower iter (singular_mat m) rnd ;; Ok (ssqrt e, ok).
  Definition zMatSingularValueMin (iter : nat) (m : mat) (rnd : vec) : res (T * bool) :=
    '(e, _, ok) <- zMatEigPowerInv iter (singular_mat m) rnd ;; Ok (ssqrt e, ok).
  (** zm_mat_eig.c:686-698; None is HUGE_VAL *)
  Definition zMatCondNum (iter : nat) (m : mat) (rnd1 rnd2 : vec) : res (option T) :=
    '(smax, _) <- zMatSingularValueMax iter m rnd1 ;;
    '(smin, _) <- zMatSingularValueMin iter m rnd2 ;;
    Ok (if slt ztol smin then Some (smax / smin) else None).
End Hess.
