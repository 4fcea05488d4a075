(** Model of src/zm_mva.c:110-178: principal component analysis and generation of vectors of a multivariate normal
    distribution.  [tol] is zTOL, [maxit] is Z_MAX_ITER_NUM.  Mean and covariance are those of Stat_Model, the
    eigenvalues those of Eig_Model, the Cholesky decomposition that of LE_Model.  Allocation is assumed to succeed,
    except that an array of size zero is NULL (ZEDA zArrayAlloc). *)
From Verif Require Import Prelude Scalar Fmat LE_Model IP_Model Vop Stat_Model Eig_Model.

Section Pca.
  Context {T : Type} {ST : Scalar T}.
  Local Open Scope S_scope.
  Local Notation vec := (fvec T).
  Local Notation mat := (fmat T).
  Variable tol : T.

  (** zm_mva.c:129-133: the index at which the scores exceed the threshold, [vlen score] when they do not *)
  Definition pca_count (cr : T) (score : vec) (s : nat) : res nat :=
    sum <- zDataSum (to_list score) (vlen score) ;;
    let score_th := cr * sum in
    r <- forb 0 s (fun n score_sum =>
           x <- vget score n ;;
           let score_sum := score_sum + x in
           if slt score_th score_sum then Ok (inr n) else Ok (inl score_sum)) 0 ;;
    Ok match r with inl _ => s | inr n => n end.
  (** zm_mva.c:111-138: the mean, and [None] for the answer -1 or the scores, the loadings, the flag of the warning of
      Jacobi's method and the answer.  An empty list has no head cell: [UB] as in Stat_Model.  The covariance matrix
      is allocated clear. *)
  Definition zVecListPCA (maxit : nat) (points : list vec) (cr : T) (mean score : vec) (loading : mat)
      : res (vec * option (vec * mat * bool * nat)) :=
    match rev points with
    | [] => UB
    | hd :: _ =>
        let s := vlen hd in
        if (s =? 0)%nat then Ok (mean, None)
        else
          '(mean, c) <- zVecListMeanCov tol points mean (zmat s s) ;;
          match c with
          | None => Ok (mean, None)
          | Some cov =>
              r <- zMatSymEigJacobi tol maxit cov score loading ;;
              match r with
              | None => Ok (mean, None)
              | Some (score, loading, warned) =>
                  n <- pca_count cr score s ;; Ok (mean, Some (score, loading, warned, n))
              end
          end
    end.

  (** zm_mat.c:497-501, ZEDA zArray2ColResize to fewer columns: the columns kept are not changed *)
  Definition col_resize (m : mat) (size : nat) : mat := FM (nr m) size (el m).
  (** zm_le_lu.c:150-158, 161-171 on matrices just allocated: the rank, or [None] for -1; the factor is left clear
      when the decomposition fails *)
  Definition zMatDecompCholeskyAlloc (m : mat) : res (option nat * mat) :=
    let n := nr m in
    r <- zMatDecompCholesky tol m (zmat n n) (List.seq 0 n) ;;
    match r with
    | None => Ok (None, zmat n n)
    | Some (l, _, rank) => Ok (Some rank, if (rank <? n)%nat then col_resize l rank else l)
    end.
  (** zm_mva.c:158-169: one vector; [z] gives the normal random numbers *)
  Definition gen_one (b : mat) (mean : vec) (z : nat -> T) : res vec :=
    let s := vlen mean in
    vo <- for_ 0 s (fun j vo => vset vo j (z j)) (zvec s) ;;
    v <- zMulMatVecNC b vo (zvec s) ;;
    Ok (FV s (fun i => vel v i + vel mean i)).
  (** zm_mva.c:141-178: the list (head first; the cell inserted last is the head) and the count; [None] when the list
      given is not touched.  The decomposition counts as failed when it answers 0 (line 159): a matrix which is not
      positive semidefinite (answer -1) is not refused.  [z i j] is the answer of the call of zRandND0 for element j
      of vector i. *)
  Definition zVecListGenRandND (n : nat) (mean : vec) (cov : mat) (z : nat -> nat -> T) : res (option (list vec) * nat) :=
    if negb (nr cov =? nc cov)%nat then Ok (None, 0%nat)
    else if negb (nc cov =? vlen mean)%nat then Ok (None, 0%nat)
    else if (vlen mean =? 0)%nat then Ok (None, 0%nat)
    else
      '(rank, b) <- zMatDecompCholeskyAlloc cov ;;
      match rank with
      | Some O => Ok (None, 0%nat)
      | _ => l <- for_ 0 n (fun i l => v <- gen_one b mean (z i) ;; Ok (v :: l)) [] ;; Ok (Some l, n)
      end.
End Pca.
