(** Model of src/zm_mva_gmm.c: Gaussian mixture models by the EM algorithm.  A list is in the order of zListForEach.
    The functions of the method are the default ones (zVecClusterMethodSetDefault, zm_mva_cluster.c:67-124); exp, log,
    2 pi and HUGE_VAL are parameters.  [stol] is zTOL in the linear algebra, [ctol] zTOL in k-means,
    [ltol] zTOL in the test of convergence.  Allocation is assumed to succeed.  The work vectors method->error,
    method->_lerr and _ci_e are written before they are read, with the sizes given by zGMMInit, and are local here. *)
From Coq Require Import List.
From Verif Require Import Prelude Scalar Fmat LE_Model IP_Model Vop Misc_Model Stat_Model Cluster_Model.
Import ListNotations.

Section Gmm.
  Context {T : Type} {ST : Scalar T}.
  Local Open Scope S_scope.
  Local Notation vec := (fvec T).
  Local Notation mat := (fmat T).
  Local Notation nat_ n := (sofZ (Z.of_nat n)).
  Local Notation half := (sofZ 1%Z / sofZ 2%Z).
  Variable stol ctol ltol : T.
  Variable fexp flog : T -> T.
  Variable pi2 huge : T.

  (** zm_mva_gmm.h:19-28 *)
  Record unit_ := GU { ucore : vec; ucov : mat; uweight : T; uinv : mat; udet : T }.
  (** zm_mva_gmm.h:47-51; the method is fixed *)
  Record gmm := GM { glist : list unit_; loglik : T }.

  (** zm_mva_gmm.c:14-52, 129-158; zVecAlloc and zMatAlloc clear the memory *)
  Definition zGMMInit (k size : nat) : gmm := GM (repeat (GU (zvec size) (zmat size size) 0 (zmat size size) huge) k) (- huge).

  (** zm_mva_cluster.c:67-70; [n] is the size of method->error *)
  Definition error_ (n : nat) (p core : vec) : res vec := zVecSubC p core (zvec n).
  (** zm_mva_cluster.c:113-124; [load] is a row of the matrix *)
  Definition loaded_mean (pts : list vec) (load : mat) (j : nat) (nk : T) (mean : vec) : res vec :=
    '(m, _) <- foreach pts (fun p st => l <- mget load j (snd st) ;; m <- zVecCatDRC (fst st) l p ;; Ok (m, S (snd st))) (zVecZero mean, 0%nat) ;;
    zVecDivDRC stol m nk.
  (** zm_mat.c:539-543 by zMatDivNCDRC *)
  Definition mat_div_nc (m : mat) (k : T) : mat := FM (nr m) (nc m) (fun i j => el m i j * (1 / k)).
  Definition mat_zero (m : mat) : mat := zmat (nr m) (nc m).

  (** zm_mva_gmm.c:64-80; [n] is the size of method->error.  The result of zMatInv is dropped *)
  Definition _zGMMUnitEstim (n : nat) (u : unit_) (pts : list vec) : res unit_ :=
    core <- default_core ctol pts (ucore u) ;;
    c <- foreach pts (fun p c => e <- error_ n p core ;; add_dyad c e e) (mat_zero (ucov u)) ;;
    let c := mat_div_nc c (nat_ (length pts)) in
    d <- zMatDet stol c ;;
    i <- (if is_tol stol d then Ok (mat_zero (uinv u)) else o <- zMatInv stol c (uinv u) ;; Ok (match o with Some i => i | None => uinv u end)) ;;
    Ok (GU core c (uweight u) i d).
  (** 83-90 *)
  Definition _zGMMUnitPDF (n : nat) (u : unit_) (p : vec) : res T :=
    e <- error_ n p (ucore u) ;;
    c <- zMulMatVec (uinv u) e (zvec n) ;;
    Ok (if is_tol stol (udet u) then 1 else fexp (- half * zVecInnerProd e c) / ssqrt (spow pi2 n * udet u)).
  (** 93-108; the results of zMatDivDRC and zMatInv are dropped *)
  Definition _zGMMUnitLoadedCov (n : nat) (u : unit_) (pts : list vec) (load : mat) (j : nat) (nk : T) : res unit_ :=
    '(c, _) <- foreach pts (fun p st =>
      l <- mget load j (snd st) ;; e <- error_ n p (ucore u) ;;
      le <- zVecMulNC e l (zvec n) ;; c <- add_dyad (fst st) le e ;; Ok (c, S (snd st))) (mat_zero (ucov u), 0%nat) ;;
    let c := match mat_div stol c nk with Some c => c | None => c end in
    o <- zMatInv stol c (uinv u) ;;
    d <- zMatDet stol c ;;
    Ok (GU (ucore u) c (uweight u) (match o with Some i => i | None => uinv u end) d).

  (** 224-261: the densities, their sums with the weights; then the loads and their sums.  The result of the function
      (whether the loads changed) is not used by its caller *)
  Definition densities (n : nat) (us : list unit_) (pts : list vec) (pdf : mat) (det : vec) : res (mat * vec) :=
    '(pdf, det, _) <- foreach pts (fun p st =>
      let '(pdf, det, i) := st in
      '(pdf, det, _) <- foreach us (fun u st =>
        let '(pdf, det, j) := st in
        q <- _zGMMUnitPDF n u p ;; pdf <- mset pdf j i q ;; det <- vmod det i (fun s => s + uweight u * q) ;; Ok (pdf, det, S j)) (pdf, det, 0%nat) ;;
      Ok (pdf, det, S i)) (pdf, zVecZero det, 0%nat) ;;
    Ok (pdf, det).
  Definition loads (us : list unit_) (pts : list vec) (pdf load : mat) (det nk : vec) : res (mat * vec) :=
    '(load, nk, _) <- foreach pts (fun p st =>
      let '(load, nk, i) := st in
      '(load, nk, _) <- foreach us (fun u st =>
        let '(load, nk, j) := st in
        q <- mget pdf j i ;; s <- vget det i ;;
        let g := uweight u * q / s in
        load <- mset load j i g ;; nk <- vmod nk j (fun s => s + g) ;; Ok (load, nk, S j)) (load, nk, 0%nat) ;;
      Ok (load, nk, S i)) (load, zVecZero nk, 0%nat) ;;
    Ok (load, nk).
  Definition _zGMMCreateEMExpect (n : nat) (us : list unit_) (pts : list vec) (pdf load : mat) (det nk : vec) : res (mat * mat * vec * vec) :=
    '(pdf, det) <- densities n us pts pdf det ;;
    '(load, nk) <- loads us pts pdf load det nk ;;
    Ok (pdf, load, det, nk).

  (** 264-275 *)
  Definition _zGMMLogLikelihood (g : gmm) (det : vec) : bool * gmm :=
    let l := fold_left (fun s i => s + flog (vel det i)) (List.seq 0 (vlen det)) 0 in
    if is_tol ltol (loglik g - l) then (true, g) else (false, GM (glist g) l).

  (** 278-291 *)
  Definition _zGMMCreateEMMaximize (n : nat) (us : list unit_) (pts : list vec) (load : mat) (nk : vec) : res (list unit_) :=
    '(us, _) <- foreach us (fun u st =>
      let j := snd st in
      k <- vget nk j ;;
      core <- loaded_mean pts load j k (ucore u) ;;
      u <- _zGMMUnitLoadedCov n (GU core (ucov u) (uweight u) (uinv u) (udet u)) pts load j k ;;
      Ok (fst st ++ [GU (ucore u) (ucov u) (k / nat_ (length pts)) (uinv u) (udet u)], S j)) ([], 0%nat) ;;
    Ok us.

  (** 329-337; true when the convergence is reached, false when the iterations run out *)
  Fixpoint em_loop (iter n : nat) (g : gmm) (pts : list vec) (pdf load : mat) (det nk : vec) : res (gmm * bool) :=
    match iter with
    | O => Ok (g, false)
    | S iter =>
        '(pdf, load, det, nk) <- _zGMMCreateEMExpect n (glist g) pts pdf load det nk ;;
        let '(b, g) := _zGMMLogLikelihood g det in
        if b then Ok (g, true)
        else us <- _zGMMCreateEMMaximize n (glist g) pts load nk ;; em_loop iter n (GM us (loglik g)) pts pdf load det nk
    end.
  (** 322-327; the cell after the last one is the root of the list, not a unit *)
  Fixpoint estimates (n : nat) (us : list unit_) (cs : list (list vec)) (w : T) : res (list unit_) :=
    match cs, us with
    | [], us => Ok us
    | c :: cs, u :: us =>
        u <- _zGMMUnitEstim n u c ;; us <- estimates n us cs w ;; Ok (GU (ucore u) (ucov u) w (uinv u) (udet u) :: us)
    | _ :: _, [] => UB
    end.
  (** 294-344; an allocation of no element answers NULL, and so does the function then ([None]).  The clusters are those
      of zVecMultiClusterKMeans, whose failure (no cluster) is not looked at *)
  Definition zGMMCreateEM (pt : nat -> vec) (rndi : nat -> nat -> nat) (rndf : nat -> T) (kiter iter n : nat) (g : gmm) (points : list nat) (r : nat) : res (option (gmm * bool)) :=
    let k := length (glist g) in
    let pts := map pt points in
    if (k =? 0)%nat || (length points =? 0)%nat then Ok None else
    o <- zVecMultiClusterKMeans ctol (default_errsq n) default_dist (default_core ctol) pt rndi rndf kiter n points k r ;;
    let cs := match o with Some (cs, _, _) => cs | None => [] end in
    us <- estimates n (glist g) (map (fun c => map pt (sam c)) cs) (1 / nat_ (length cs)) ;;
    rmap Some (em_loop iter n (GM us (loglik g)) pts (zmat k (length pts)) (zmat k (length pts)) (zvec (length pts)) (zvec k)).

  (** 347-356; [n] is method.core_size *)
  Definition zGMMAIC (n : nat) (g : gmm) : T := sofZ 2 * (nat_ (n * length (glist g)) - loglik g).
  Definition zGMMBIC (n : nat) (g : gmm) (sample : nat) : T := nat_ (n * length (glist g)) * flog (nat_ sample) - sofZ 2 * loglik g.
End Gmm.
