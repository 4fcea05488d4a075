(** Operations on vectors and matrices at the value level, shared by the models of the
    optimisation tools and of the simultaneous equation solvers.  What the raw loops over the
    buffers do is modelled and proved in Raw_Model, VecMat_Model (C05, C08, C09). *)
From Verif Require Import Prelude Scalar Fmat LE_Model IP_Model.

Section Vop.
  Context {T : Type} {ST : Scalar T}.
  Local Open Scope S_scope.
  Local Notation vec := (fvec T).
  Local Notation mat := (fmat T).

  (** zm_raw_vec.c:267-278: the compensated sum of the products, f giving the n products *)
  Fixpoint ksum_loop (n : nat) (f : nat -> T) : T * T :=
    match n with
    | O => (0, 0)
    | S k => let '(sp, q) := ksum_loop k f in
             let v := f k in let s := sp + v in let r := s - sp in (s, q + (v - r))
    end.
  Definition ksum (n : nat) (f : nat -> T) : T := let '(s, q) := ksum_loop n f in s + q.
  (** zm_vec.c zVecInnerProd: the size of the first vector decides; sizes that differ give 0 *)
  Definition zVecInnerProd (v w : vec) : T :=
    if (vlen v =? vlen w)%nat then ksum (vlen v) (fun i => vel v i * vel w i) else 0.
  Definition zVecSqrNorm (v : vec) : T := ksum (vlen v) (fun i => vel v i * vel v i).
  (** zm_mat.c:764-768, 771-775 with zm_raw_mat.c:377-390 *)
  Definition zMulMatVecNC (m : mat) (x v : vec) : res vec :=
    if (nc m <=? vlen x)%nat && (nr m <=? vlen v)%nat
    then Ok (FV (vlen v) (fun i => if (i <? nr m)%nat then ksum (nc m) (fun k => el m i k * vel x k) else vel v i)) else UB.
  Definition zMulMatTVecNC (m : mat) (x v : vec) : res vec :=
    if (nr m <=? vlen x)%nat && (nc m <=? vlen v)%nat
    then Ok (FV (vlen v) (fun i => if (i <? nc m)%nat then ksum (nr m) (fun k => el m k i * vel x k) else vel v i)) else UB.
  (** zm_mat.c:802-809; the destination is left alone when the sizes do not fit *)
  Definition zMulMatVec (m : mat) (x v : vec) : res vec :=
    if (nc m =? vlen x)%nat && (nr m =? vlen v)%nat then zMulMatVecNC m x v else Ok v.
  (** zm_vec.c:443-447 *)
  Definition zVecCatC (v1 : vec) (k : T) (v2 v : vec) : res vec :=
    if (vlen v1 =? vlen v2)%nat && (vlen v2 =? vlen v)%nat then zVecCatNC v1 k v2 v else Ok v.
  (** zm_raw_vec.c zRawVecIsTol by zm_vec.c:301-304 *)
  Definition zVecIsTol (tol : T) (v : vec) : bool := forallb (fun i => is_tol tol (vel v i)) (List.seq 0 (vlen v)).
  (** zm_vec.c:147-171; the return value NULL of a failure is not used by any caller modelled here *)
  Definition zVecGet (src : vec) (pos : nat) (dest : vec) : vec :=
    if (pos + vlen dest <=? vlen src)%nat then FV (vlen dest) (fun i => vel src (pos + i)) else dest.
  Definition zVecPut (dest : vec) (pos : nat) (src : vec) : vec :=
    if (pos + vlen src <=? vlen dest)%nat
    then FV (vlen dest) (fun i => if (pos <=? i)%nat && (i <? pos + vlen src)%nat then vel src (i - pos) else vel dest i) else dest.
  (** zm_mat.c:244-252 *)
  Definition zMatPut (dest : mat) (r c : nat) (src : mat) : mat :=
    if (r + nr src <=? nr dest)%nat && (c + nc src <=? nc dest)%nat
    then FM (nr dest) (nc dest) (fun i j => if (r <=? i)%nat && (i <? r + nr src)%nat && ((c <=? j)%nat && (j <? c + nc src)%nat)
                                           then el src (i - r) (j - c) else el dest i j) else dest.
  (** zMatAlloc clears the elements *)
  Definition mzero (r c : nat) : mat := FM r c (fun _ _ => 0).
  (** zm_mat.c:731-735 with zRawMatCatDyad: m += k v1 v2^T *)
  Definition zMatCatDyadNC (m : mat) (k : T) (v1 v2 : vec) : res mat :=
    if (vlen v1 <=? nr m)%nat && (vlen v2 <=? nc m)%nat
    then Ok (FM (nr m) (nc m) (fun i j => if (i <? vlen v1)%nat && (j <? vlen v2)%nat then el m i j + k * vel v1 i * vel v2 j else el m i j)) else UB.
End Vop.
