(** Model of src/zm_opt_lcp_ip.c (linear complementarity problem, Potra's predictor-corrector infeasible-interior-point
    method).  [ztol] is zTOL in the test of convergence and in the touch-up, [gtol] is zTOL in Gauss's elimination.
    Vectors and matrices are at the value level (Fmat); elementwise operations are those of IP_Model and Vop.
    Allocation is assumed to succeed. *)
From Verif Require Import Prelude Scalar Fmat LE_Model IP_Model Vop Root_Model Asm_Model.

Section Lcpip.
  Context {T : Type} {ST : Scalar T}.
  Local Open Scope S_scope.
  Local Notation vec := (fvec T).
  Local Notation mat := (fmat T).
  Variable ztol gtol : T.

  (** zm_opt_lcp_ip.c:21-23 *)
  Definition PC_A : T := sofZ 1 / sofZ 4.
  Definition PC_B : T := sofZ 1 / sofZ 2.
  Definition PC_R : T := sofZ 100.

  (** zm_le.c:126-165 as in LE_Model, answering with the index, which the workspace keeps from call to call *)
  Definition gauss_idx (a : mat) (b ans : vec) (idx : list nat) (s : vec) : res (option (vec * list nat)) :=
    mms <- zMatMatBalancingDST a (col_of b) (Some s) ;;
    let '(a2, b2, _) := mms in
    st <- gauss_forward gtol (vlen b) a2 b2 idx ;;
    match st with
    | inr _ => Ok None
    | inl (_, _, idx2) => o <- zLESolveGaussDST gtol a b ans idx (Some s) ;; Ok (option_map (fun x => (x, idx2)) o)
    end.

  (** zm_opt_lcp_ip.c:54-62 *)
  Definition zLCPIP_PCIni (w z : vec) : vec * vec * T :=
    let z := FV (vlen z) (fun _ => PC_R / sofZ (Z.of_nat (vlen z))) in
    let w := FV (vlen w) (fun _ => PC_R / sofZ (Z.of_nat (vlen w))) in
    (w, z, zVecInnerProd w z / (sofZ (Z.of_nat (vlen z)) + PC_A * ssqrt (sofZ (Z.of_nat (vlen z))))).
  (** zm_opt_lcp_ip.c:65-73; n is the size of the vectors of the workspace *)
  Definition zLCPIP_PCErr (n : nat) (m : mat) (q w z : vec) : res (vec * T) :=
    r <- zMulMatVecNC m z (vzero n) ;;
    r <- zVecAddNC r q r ;;
    r <- zVecSubNC r w r ;;
    Ok (store r, zVecInnerProd w z).
  (** zm_opt_lcp_ip.c:76-85: the rows of the matrix are copied as a whole *)
  Definition zLCPIP_PCGrad (m : mat) (w z b : vec) (idx : list nat) : res (option (vec * list nat)) :=
    let n := vlen b in
    g <- for_ 0 (vlen w) (fun i g =>
           zi <- vget z i ;;
           g <- for_ 0 (nc m) (fun j g => x <- mget m i j ;; mset g i j (x * zi)) g ;;
           wi <- vget w i ;;
           mmod g i i (fun x => x + wi)) (zmat n n) ;;
    gauss_idx (mstore g) b (zvec n) idx (zvec n).
  (** zm_vec.h zVecAmpNC, zVecRevDRC *)
  Definition zVecAmpNC (v1 v2 v : vec) : res vec := vop2 smul v1 v2 v.
  Definition zVecRevDRC (v : vec) : res vec := vop1 sopp v v.
  (** zm_opt_lcp_ip.c:88-97: the directions of z and w *)
  Definition zLCPIP_PCPred (n : nat) (m : mat) (w z r : vec) (idx : list nat) : res (option (vec * vec * list nat)) :=
    b <- zVecAddNC w r (vzero n) ;;
    b <- zVecAmpNC b z b ;;
    b <- zVecRevDRC b ;;
    o <- zLCPIP_PCGrad m w z (store b) idx ;;
    match o with
    | None => Ok None
    | Some (dz, idx) =>
        dw <- zMulMatVecNC m dz (vzero n) ;;
        dw <- zVecAddNC dw r dw ;;
        Ok (Some (dz, store dw, idx))
    end.
  (** zm_opt_lcp_ip.c:100-110 *)
  Definition zLCPIP_PCCorr (n : nat) (m : mat) (w z : vec) (t : T) (idx : list nat) : res (option (vec * vec * list nat)) :=
    b <- zVecAmpNC w z (vzero n) ;;
    let b := FV (vlen b) (fun i => t - vel b i) in
    o <- zLCPIP_PCGrad m w z (store b) idx ;;
    match o with
    | None => Ok None
    | Some (dz, idx) => dw <- zMulMatVecNC m dz (vzero n) ;; Ok (Some (dz, store dw, idx))
    end.
  (** zm_opt_lcp_ip.c:113-133: the step length and the new t *)
  Definition zLCPIP_PCStep (n : nat) (w z dw dz : vec) (t : T) : res (option (T * T)) :=
    b <- zVecAmpNC w z (vzero n) ;;
    let b := FV (vlen b) (fun i => vel b i - t) in
    c <- zVecAmpNC dw dz (vzero n) ;;
    let k2 := zVecInnerProd b c in
    let k1 := ((PC_B * t) * (PC_B * t) - zVecSqrNorm b) / k2 in
    let a := k1 / (1 + ssqrt (1 + k1 / k2 * zVecSqrNorm c)) in
    if slt a 0 && slt (- sofZ 4) a then Ok None
    else let step := sofZ 2 / (1 + ssqrt (1 + sofZ 4 / a)) in Ok (Some (step, t * (1 - step))).

  (** what the loop leaves: whether all the iterations were used, w, z and the step lengths, the last one first (these are
      kept for the statements only) *)
  Record lcpip := Lcpip { ranout : bool; lw : vec; lz : vec; steps : list T }.
  (** zm_opt_lcp_ip.c:167-183; None = TERMINATE before ret is set *)
  Fixpoint lcpip_loop (k n : nat) (m : mat) (q w z : vec) (t : T) (idx : list nat) (st : list T) : res (option lcpip) :=
    match k with
    | O => Ok (Some (Lcpip true w z st))
    | S k =>
        re <- zLCPIP_PCErr n m q w z ;;
        let '(r, e) := re in
        if zVecIsTol ztol r && is_tol ztol e then Ok (Some (Lcpip false w z st))
        else
          o <- zLCPIP_PCPred n m w z r idx ;;
          match o with
          | None => Ok None
          | Some (dz, dw, idx) =>
              o <- zLCPIP_PCStep n w z dw dz t ;;
              match o with
              | None => Ok None
              | Some (a, t) =>
                  w <- zVecCatNC w a dw w ;;
                  z <- zVecCatNC z a dz z ;;
                  let w := store w in let z := store z in
                  o <- zLCPIP_PCCorr n m w z t idx ;;
                  match o with
                  | None => Ok None
                  | Some (dz, dw, idx) =>
                      w <- zVecAddNC w dw w ;;
                      z <- zVecAddNC z dz z ;;
                      lcpip_loop k n m q (store w) (store z) t idx (a :: st)
                  end
              end
          end
    end.
  (** zm_vec.c:91-95 *)
  Definition zVecTouchup (v : vec) : vec := FV (vlen v) (fun i => if is_tol ztol (vel v i) then 0 else vel v i).
  (** zm_opt_lcp_ip.c:137-190: None = false; otherwise w and z after the call, with the warning of the iteration limit and
      the step lengths.  The caller's w may be the null pointer. *)
  Definition zLCPSolveIP (m : mat) (q : vec) (w : option vec) (z : vec) : res (option lcpip) :=
    if negb (nr m =? nc m)%nat then Ok None
    else if negb (nr m =? vlen q)%nat then Ok None
    else if match w with Some w => negb (vlen w =? vlen q)%nat || negb (vlen w =? vlen z)%nat | None => false end then Ok None
    else
      let n := vlen q in
      let '(w, z, t) := zLCPIP_PCIni (match w with Some w => w | None => zvec n end) z in
      o <- lcpip_loop (ziter 0) n m q w z t (List.seq 0 n) [] ;;
      Ok (option_map (fun o => Lcpip (ranout o) (lw o) (zVecTouchup (lz o)) (steps o)) o).
End Lcpip.
Arguments Lcpip {T}. Arguments ranout {T}. Arguments lw {T}. Arguments lz {T}. Arguments steps {T}.
