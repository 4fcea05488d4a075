(** Model of the eigenvectors of the bisection method, src/zm_mat_eig.c:441-472.

    [inv] is zMatInv (None: singular to the tolerance), [power b v] the vector that zMatEigPower leaves
    in [v] (both modelled elsewhere: LE_Model, Hess_Model), [start i] the random vector of column [i],
    [ztol] zTOL.  Allocation is assumed to succeed. *)
From Verif Require Import Prelude Scalar Fmat.

Section BisV.
  Context {T : Type} {ST : Scalar T}.
  Local Open Scope S_scope.
  Local Notation mat := (fmat T).
  Local Notation vec := (fvec T).
  Variable ztol : T.
  Variable inv : mat -> option mat.
  Variable power : mat -> vec -> vec.
  Variable start : nat -> vec.

  (** zm_mat.c zMatShift: on the diagonal *)
  Definition zMatShift (m : mat) (k : T) : mat := FM (nr m) (nc m) (fun i j => if (i =? j)%nat then el m i j + k else el m i j).
  (** zm_mat_eig.c:461-462; [None]: no inverse after [fuel] further shifts *)
  Fixpoint inv_loop (fuel : nat) (ms : mat) (shift : T) : option (mat * T) :=
    match inv ms with
    | Some b => Some (b, shift)
    | None =>
        match fuel with
        | O => None
        | S fuel => let shift := shift * sofZ 10%Z in inv_loop fuel (zMatShift ms (- shift)) shift
        end
    end.
  (** zm_mat.c zMatPutCol; nothing done when sizes differ *)
  Definition zMatPutCol (m : mat) (j : nat) (v : vec) : mat :=
    if (nr m =? vlen v)%nat && (j <? nc m)%nat then FM (nr m) (nc m) (fun r c => if (c =? j)%nat then vel v r else el m r c) else m.
  (** zm_mat_eig.c:457-465: [shift] is not set back for the next eigenvalue *)
  Definition bisec_vectors (fuel : nat) (m : mat) (eigval : vec) (eigbase : mat) : res (option mat) :=
    r <- for_ 0 (vlen eigval) (fun i st =>
      match st with
      | None => Ok None
      | Some (shift, base) =>
          e <- vget eigval i ;;
          match inv_loop fuel (zMatShift m (- e - shift)) shift with
          | None => Ok None
          | Some (b, shift) => Ok (Some (shift, zMatPutCol base i (power b (start i))))
          end
      end) (Some (ztol * sofZ 10%Z, eigbase)) ;;
    Ok (match r with Some (_, base) => Some base | None => None end).
End BisV.
