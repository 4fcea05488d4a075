(** Model of the reading and printing of polynomials, src/zm_pex.c:341-369.  Files are the lists of numbers
    of [Scan_Model]; a polynomial is the vector of its coefficients, one more than its degree
    (zPexAlloc(dim) is zVecAlloc(dim+1), zPexDim(p) is the size less one). *)
From Verif Require Import Prelude Scalar Fmat Scan_Model.

Section Pexs.
  Context {T : Type} {ST : Scalar T}.
  Variable ftoi : T -> Z.
  Variable p10 : T -> T.

  (** 342-357: if there is no degree an error is reported and the uninitialized dim is used *)
  Definition zPexFScan (l : list (tok T)) : res (option (fvec T) * list (nat * nat) * list (tok T)) :=
    match zFInt ftoi l with
    | None => UB
    | Some (dim, l) =>
      if (dim + 1 <=? 0)%Z then Ok (None, [], l) else
      let n := Z.to_nat (dim + 1) in
      '(v, w, l) <- scan_vec 0 n (FV n (fun _ => s0)) l ;;
      Ok (Some v, match w with None => [] | Some i => [(i, n)] end, l)
    end.
  (** 360-369 *)
  Definition zPexFPrint (p : option (fvec T)) : list (tok T) :=
    match p with
    | None => []
    | Some p => TI (Z.of_nat (vlen p) - 1) :: map (fun i => TD (p10 (vel p i))) (List.seq 0 (vlen p))
    end.
End Pexs.
