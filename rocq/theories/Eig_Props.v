(** C58 (eigenvalues of symmetric matrices by Jacobi's method), C60 (LQ and QR decompositions), C81 (singular value
    decomposition). *)
From Coq Require Import Reals Lra Lia Psatz QArith PrimFloat.
From Verif Require Import Prelude Prelude_Proofs Scalar RealLib Fmat Fmat_Proofs LE_Model IP_Model Vop Qp_Spec Qp_Proofs
  Stat_Model Stat_Proofs Eig_Model Eig_Spec Eig_Proofs Eig2_Proofs Eig3_Proofs Eig4_Proofs Eig5_Proofs Eig6_Proofs Eig7_Proofs.
Local Open Scope R_scope.

(** V^T A V *)
Definition vtav (n : nat) (A V : nat -> nat -> R) (i j : nat) : R := rsum n (fun r => V r i * rsum n (fun k => A r k * V k j)).
(** the square of the norm of A v_j - e v_j, for the column v_j of V *)
Definition res2 (n : nat) (A V : nat -> nat -> R) (e : R) (j : nat) : R :=
  rsum n (fun r => (rsum n (fun k => A r k * V k j) - e * V r j) ^ 2).

(** ** C58.  Jacobi's method for every symmetric matrix of size 2 or more.  The leading 2x2 block must not be
    zero: the shift divides by zero otherwise (C58_zero_refuted), a case where the division of the reals and that of
    binary64 numbers differ.  The flag tells whether the warning of ZITERWARN was issued.
    - the transformation V is orthogonal and the values are the diagonal of V^T M V;
    - without the warning, the rest of V^T M V is within the tolerance, and m V = V diag(e) up to it;
    - each sweep that does not end the iteration takes at least 2 tol^2 off the sum of squares off the diagonal,
      so that the warning is not issued if there is not more of it than the sweeps remove. *)
Theorem C58_jacobi_partial (n maxit : nat) (tol : R) (m V0 : fmat R) (e0 : fvec R) :
  0 <= tol -> (2 <= n)%nat -> nr m = n -> nc m = n -> vlen e0 = n -> nr V0 = n -> nc V0 = n -> symm n (el m) ->
  el m 0 0 <> 0 \/ el m 0 1 <> 0 \/ el m 1 1 <> 0 ->
  exists e V warned, zMatSymEigJacobi tol maxit m e0 V0 = Ok (Some (e, V, warned)) /\
    vlen e = n /\ nr V = n /\ nc V = n /\ orthogonal n (el V) /\
    (forall j, (j < n)%nat -> vel e j = vtav n (el m) (el V) j j) /\
    rsum n (vel e) = trace n (el m) /\
    (forall j, (j < n)%nat -> res2 n (el m) (el V) (vel e j) j <= off2 n (el m)) /\
    (warned = false -> forall i j, (i < n)%nat -> (j < n)%nat -> i <> j -> Rabs (vtav n (el m) (el V) i j) <= tol) /\
    (warned = false -> forall j, (j < n)%nat -> res2 n (el m) (el V) (vel e j) j <= INR (n - 1) * tol ^ 2) /\
    (off2 n (el m) <= 2 * tol ^ 2 * INR (S maxit) -> warned = false).
Proof.
  intros Ht Hn R1 C1 L1 R2 C2 SY _.
  destruct (jacobi_ok n tol maxit m V0 e0 Ht Hn R1 C1 SY L1 R2 C2) as (e & V & w & D & E & J1 & J2 & J3 & J4 & J5 & J6 & J7 & J8 & J9 & J10 & J11).
  exists e, V, w. split; [exact E|].
  assert (VD : forall i j, (i < n)%nat -> (j < n)%nat -> vtav n (el m) (el V) i j = D i j).
  { intros i j Hi Hj. unfold vtav. rewrite (rsum_ext n _ (fun r => rsum n (fun l => D l j * (el V r i * el V r l)))).
    - rewrite rsum_swap. rewrite (rsum_ext n _ (fun l => D l j * delta i l)); [apply (delta_sum n i (fun l => D l j)); auto|].
      intros l Hl. rewrite rsum_scal. f_equal. apply J4; auto.
    - intros r Hr. change (rsum n (fun k => el m r k * el V k j)) with (mmul n (el m) (el V) r j). rewrite J6 by auto. unfold mmul.
      rewrite <- rsum_scal. apply rsum_ext. intros; ring. }
  assert (RS : forall j, (j < n)%nat -> res2 n (el m) (el V) (vel e j) j = rsum n (fun i => if (i =? j)%nat then 0 else D i j ^ 2)).
  { intros j Hj. apply (residual n (el m) (el V) D j); auto. }
  conjs; auto.
  - intros j Hj. rewrite J7, VD by auto. reflexivity.
  - rewrite <- J8. apply rsum_ext. auto.
  - intros j Hj. rewrite RS by auto. apply Rle_trans with (off2 n D); [|exact J9].
    unfold off2. rewrite rsum_swap. rewrite (rsum_pick n j (fun j0 => rsum n (fun i => if (i =? j0)%nat then 0 else D i j0 ^ 2))) by auto.
    assert (0 <= rsum n (fun a => if (a =? j)%nat then 0 else rsum n (fun i => if (i =? a)%nat then 0 else D i a ^ 2))); [|lra].
    apply rsum_nonneg. intros a Ha. destruct (_ =? _)%nat; [lra|]. apply rsum_nonneg. intros i Hi. destruct (_ =? _)%nat; [lra|apply pow2_ge_0].
  - intros W i j Hi Hj Nij. rewrite VD by auto. auto.
  - intros W j Hj. rewrite RS by auto.
    pose proof (rsum_pick n j (fun _ => tol ^ 2) Hj) as Q. rewrite rsum_const in Q.
    apply Rle_trans with (rsum n (fun a => if (a =? j)%nat then 0 else tol ^ 2)).
    + apply rsum_le. intros i Hi. destruct (Nat.eqb_spec i j) as [|Nij]; [lra|]. specialize (J10 W i j Hi Hj Nij).
      rewrite <- (Rabs_right (D i j ^ 2)) by (apply Rle_ge, pow2_ge_0). rewrite <- RPow_abs. apply pow_incr. split; [apply Rabs_pos|auto].
    + rewrite minus_INR by lia. cbn [INR]. lra.
Qed.
(** matrices that are not square and destinations of other sizes are refused *)
Theorem C58_sizes (maxit : nat) (tol : R) (m V0 : fmat R) (e0 : fvec R) :
  nr m <> nc m \/ nr m <> nr V0 \/ nc m <> nc V0 \/ nr m <> vlen e0 -> zMatSymEigJacobi tol maxit m e0 V0 = Ok None.
Proof.
  intros H. unfold zMatSymEigJacobi. destruct (Nat.eqb_spec (nr m) (nc m)); cbn [negb]; auto.
  destruct (Nat.eqb_spec (nr m) (nr V0)); destruct (Nat.eqb_spec (nc m) (nc V0)); cbn [negb andb]; auto.
  destruct (Nat.eqb_spec (nr m) (vlen e0)); cbn [negb]; auto. exfalso. lia.
Qed.
Definition sym3 : nat -> nat -> Q := fun i j =>
  match i, j with O, O => 4%Q | 1%nat, 1%nat => 3%Q | 2%nat, 2%nat => 1%Q | O, 1%nat | 1%nat, O => 1%Q | 1%nat, 2%nat | 2%nat, 1%nat => (1 # 2)%Q | _, _ => 0%Q end.
(** a 3x3 matrix that meets the hypotheses, for the tolerance 1/10 *)
Example C58_case : let m := FM 3 3 (fun i j => Q2R (sym3 i j)) in
  symm 3 (el m) /\ el m 0 0 <> 0 /\ off2 3 (el m) <= 2 * (1 / 10) ^ 2 * INR (S (Z.to_nat 125)).
Proof.
  cbv zeta. cbn [el]. split; [|split].
  - intros i j Hi Hj. destruct i as [|[|[|]]], j as [|[|[|]]]; try lia; reflexivity.
  - unfold sym3, Q2R; cbn. lra.
  - rewrite S_INR, INR_IZR_INZ, Z2Nat.id by lia. unfold off2. cbn. unfold Q2R; cbn. lra.
Qed.
(** the values of [[2,1],[1,2]] in binary64, without the warning *)
Definition feig (m : fmat float) : option (list float * bool) :=
  match zMatSymEigJacobi 1e-12%float (Z.to_nat 1000) m (FV (nr m) (fun _ => 0%float)) (FM (nr m) (nr m) (fun _ _ => 0%float)) with
  | Ok (Some (e, _, w)) => Some (map (vel e) (List.seq 0 (nr m)), w) | _ => None end.
Example C58_binary64 : exists a b, feig (FM 2 2 (fun i j => if (i =? j)%nat then 2%float else 1%float)) = Some ([a; b], false) /\
  (a =? 1)%float = true /\ (b =? 3)%float = true.
Proof. eexists _, _. split; [vm_compute; reflexivity|]. split; vm_compute; reflexivity. Qed.
(** a matrix of one element is read out of its bounds *)
Theorem C58_one_refuted : ~ (forall (maxit : nat) (tol : R) (m V0 : fmat R) (e0 : fvec R),
  0 <= tol -> (1 <= nr m)%nat -> nc m = nr m -> vlen e0 = nr m -> nr V0 = nr m -> nc V0 = nr m -> symm (nr m) (el m) ->
  exists o, zMatSymEigJacobi tol maxit m e0 V0 = Ok o).
Proof.
  intros H. destruct (H 1%nat 0 (FM 1 1 (fun _ _ => 1)) (FM 1 1 (fun _ _ => 0)) (FV 1 (fun _ => 0))) as (o & E); cbn; auto; try lra.
  - intros i j Hi Hj. reflexivity.
  - discriminate E.
Qed.
(** the zero matrix has values that are not a number: x <> x *)
Theorem C58_zero_refuted : ~ (forall m : fmat float, (2 <= nr m)%nat -> nc m = nr m ->
  (forall i j, el m i j = el m j i) -> exists l w, feig m = Some (l, w) /\ forallb (fun x => (x =? x)%float) l = true).
Proof.
  intros H. destruct (H (FM 2 2 (fun _ _ => 0%float))) as (l & w & E & F); auto. vm_compute in E. injection E as <- <-. vm_compute in F. discriminate F.
Qed.

(** ** C81.  The singular value decomposition of an n x p matrix, n at least 2 and the first two rows not both
    zero (see C58).
    - U is orthogonal; the rank is at most the smaller size; the singular values are positive, above the tolerance
      and in descending order up to the rank, zero after it;
    - s_a v_a = (U^T m)_a for every row v_a of v, each a unit vector;
    - the error of m = U S V is the part of m along the discarded columns of U: none if the rank is n, within the
      tolerance if the rank is below both sizes;
    - if Jacobi's method ended without its warning, the rows of v are orthogonal up to tol/(s_a s_b), and the error is
      within p (n - p) tol if the rank is p. *)
Definition svd_err (n p r : nat) (m U V : nat -> nat -> R) (s : nat -> R) : R :=
  rsum n (fun i => rsum p (fun k => (m i k - rsum r (fun a => U i a * (s a * V a k))) ^ 2)).
Theorem C81_svd_partial (n p maxit : nat) (tol svdtol : R) (m u : fmat R) (sv : fvec R) (v : fmat R) :
  0 <= tol -> 0 <= svdtol -> nr m = n -> nc m = p -> (2 <= n)%nat -> nr u = n -> nc u = n -> vlen sv = n ->
  (Nat.min n p <= nr v)%nat -> nc v = p -> (exists k, (k < p)%nat /\ (el m 0 k <> 0 \/ el m 1 k <> 0)) ->
  exists r u' sv' v', zMatSVD tol maxit svdtol m u sv v = Ok (r, u', sv', v') /\
    (r <= Nat.min n p)%nat /\ orthogonal n (el u') /\ vlen sv' = n /\
    (forall k, (k < r)%nat -> 0 < vel sv' k /\ svdtol < vel sv' k ^ 2) /\
    (forall k l, (k < l)%nat -> (l < n)%nat -> vel sv' l <= vel sv' k) /\
    (forall k, (r <= k < n)%nat -> vel sv' k = 0) /\
    ((0 < r)%nat -> nr v' = r /\ nc v' = p) /\
    (forall a k, (a < r)%nat -> (k < p)%nat -> vel sv' a * el v' a k = rsum n (fun i => el u' i a * el m i k)) /\
    (forall a, (a < r)%nat -> rdot p (el v') a a = 1) /\
    (r = n -> svd_err n p r (el m) (el u') (el v') (vel sv') = 0) /\
    ((r < Nat.min n p)%nat -> svd_err n p r (el m) (el u') (el v') (vel sv') <= INR (n - r) * svdtol) /\
    ((exists e V, zMatSymEigJacobi tol maxit (mul_mat_matT m m) sv u = Ok (Some (e, V, false))) ->
      (forall a b, (a < r)%nat -> (b < r)%nat -> a <> b -> Rabs (rdot p (el v') a b) <= tol / (vel sv' a * vel sv' b)) /\
      (r = p -> svd_err n p r (el m) (el u') (el v') (vel sv') <= INR (n - p) * (INR p * tol))).
Proof.
  intros Ht Hs R1 C1 Hn U1 U2 L1 V1 V2 _.
  destruct (svd_ok n p m R1 C1 tol svdtol Ht Hs maxit u sv v Hn U1 U2 L1 V1 V2)
    as (r & u' & sv' & v' & E & A1 & A2 & A3 & A4 & A5 & A6 & A7 & A8 & A9 & A10 & A11 & A12 & A13 & A14 & A15).
  exists r, u', sv', v'. split; [exact E|].
  conjs; auto.
  - intros k l Hk Hl. destruct (Nat.lt_ge_cases l r) as [L|L]; [apply A7; auto|]. rewrite (A8 l) by lia.
    destruct (Nat.lt_ge_cases k r) as [K|K]; [destruct (A6 k K); lra|rewrite (A8 k) by lia; lra].
  - intros ->. unfold svd_err. rewrite A13, Nat.sub_diag. reflexivity.
  - intros Lr. unfold svd_err. rewrite A13, <- rsum_const. apply rsum_le. intros i Hi. apply A14; [lia|auto].
  - intros F. destruct (A15 F) as (B1 & B2). split; [exact B1|]. intros ->. unfold svd_err. rewrite A13, <- rsum_const. apply rsum_le. intros i Hi. apply B2; [lia|auto].
Qed.
(** a 2x3 matrix of rank 1: the rank, the singular values and the product are computed in binary64 *)
Definition fsvd (m : fmat float) : option (nat * list float * list (list float)) :=
  let n := nr m in
  match zMatSVD 1e-12%float (Z.to_nat 1000) 1e-6%float m (FM n n (fun _ _ => 0%float)) (FV n (fun _ => 0%float)) (FM n (nc m) (fun _ _ => 0%float)) with
  | Ok (r, u, sv, v) => Some (r, map (vel sv) (List.seq 0 n), map (fun i => map (el v i) (List.seq 0 (nc m))) (List.seq 0 r)) | UB => None end.
Example C81_binary64 : exists s v0 v1 v2, fsvd (FM 2 3 (fun i j => if (i =? 0)%nat then match j with O => 3%float | 1%nat => 0%float | _ => 4%float end
     else match j with O => 6%float | 1%nat => 0%float | _ => 8%float end)) = Some (1%nat, [s; 0%float], [[v0; v1; v2]]) /\
  ((11.18 <? s) && (s <? 11.181))%float = true /\ ((0.59 <? v0) && (v0 <? 0.61))%float = true /\ (v1 =? 0)%float = true.
Proof. eexists _, _, _, _. split; [vm_compute; reflexivity|]. conjs; vm_compute; reflexivity. Qed.
Example C81_case : let m := FM 2 3 (fun i j => if (i =? 0)%nat then (if (j =? 1)%nat then 0 else 3) else INR j) in
  exists k, (k < 3)%nat /\ (el m 0 k <> 0 \/ el m 1 k <> 0).
Proof. cbv zeta. exists O. split; [lia|]. left. cbn. lra. Qed.
(** a single row cannot be decomposed *)
Theorem C81_one_row_refuted : ~ (forall (m u : fmat R) (sv : fvec R) (v : fmat R), (1 <= nr m)%nat -> nr u = nr m -> nc u = nr m -> vlen sv = nr m ->
  nr v = nr m -> nc v = nc m -> exists o, zMatSVD 0 1 0 m u sv v = Ok o).
Proof.
  intros H. destruct (H (FM 1 2 (fun _ _ => 1)) (FM 1 1 (fun _ _ => 0)) (FV 1 (fun _ => 0)) (FM 1 2 (fun _ _ => 0))) as (o & E); cbn; auto.
  discriminate E.
Qed.

(** ** C60.  LQ decomposition by the method of Gram and Schmidt (zMatDecompLQ), for every matrix: L is lower triangular,
    without elements from the column of the rank on; the first rows of Q up to the rank are orthonormal and
    combinations of the rows of the matrix; every row of M - L Q has a norm within the tolerance. *)
Theorem C60_lq (n p : nat) (m l q : fmat R) (tol : R) : 0 <= tol -> nr m = n -> nc m = p ->
  nr l = n -> (Nat.min n p <= nc l)%nat -> (Nat.min n p <= nr q)%nat -> nc q = p ->
  exists l' q' rank, zMatDecompLQ tol m l q = Ok (l', q', rank) /\ nr l' = n /\ nc l' = nc l /\ nr q' = nr q /\ nc q' = p /\
    (rank <= Nat.min n p)%nat /\ orthonormal_rows p rank (el q') /\
    (forall i j, (i < n)%nat -> (rank <= j \/ i < j)%nat -> el l' i j = 0) /\
    (forall i, (i < n)%nat -> rsum p (fun k => (el m i k - mmul rank (el l') (el q') i k) ^ 2) <= tol ^ 2) /\
    (exists C, forall j k, (j < rank)%nat -> (k < p)%nat -> el q' j k = rsum n (fun i => C j i * el m i k)).
Proof. intros. eapply gs_ok; eauto. Qed.
(** without a tolerance M = L Q, and the rank is the dimension of the space of the rows: with the above, the rows
    of Q up to the rank are an orthonormal basis of it *)
Theorem C60_lq_exact (n p : nat) (m l q : fmat R) : nr m = n -> nc m = p ->
  nr l = n -> (Nat.min n p <= nc l)%nat -> (Nat.min n p <= nr q)%nat -> nc q = p ->
  exists l' q' rank, zMatDecompLQ 0 m l q = Ok (l', q', rank) /\
    (forall i k, (i < n)%nat -> (k < p)%nat -> el m i k = mmul rank (el l') (el q') i k) /\
    (forall x, (exists y, forall k, (k < p)%nat -> x k = rsum n (fun i => y i * el m i k)) <->
               (exists z, forall k, (k < p)%nat -> x k = rsum rank (fun j => z j * el q' j k))).
Proof.
  intros R1 C1 R2 C2 R3 C3. destruct (gs_ok n p m 0 R1 C1 (Rle_refl 0) l q R2 C2 R3 C3) as (l' & q' & rank & E & A1 & A2 & A3 & A4 & A5 & A6 & A7 & A8 & (C & A9)).
  exists l', q', rank. split; [exact E|].
  assert (EX : forall i k, (i < n)%nat -> (k < p)%nat -> el m i k = mmul rank (el l') (el q') i k).
  { intros i k Hi Hk. specialize (A8 i Hi). rewrite pow_ne_zero in A8 by lia.
    assert (Z : rsum p (fun k => (el m i k - rsum rank (fun j => el l' i j * el q' j k)) ^ 2) = 0).
    { apply Rle_antisym; auto. apply rsum_nonneg. intros; apply pow2_ge_0. }
    pose proof (rsum_nonneg_0 p _ (fun k _ => pow2_ge_0 _) Z k Hk) as Q. cbv beta in Q. unfold mmul. nra. }
  split; [exact EX|]. intros x. split; intros (y & H).
  - exists (fun j => rsum n (fun i => y i * el l' i j)). intros k Hk. rewrite H by auto.
    rewrite (rsum_ext n _ (fun i => rsum rank (fun j => y i * el l' i j * el q' j k))) by (intros i Hi; rewrite EX by auto; unfold mmul; rewrite <- rsum_scal; apply rsum_ext; intros; ring).
    rewrite rsum_swap. apply rsum_ext. intros j Hj. rewrite rsum_scal_r. reflexivity.
  - exists (fun i => rsum rank (fun j => y j * C j i)). intros k Hk. rewrite H by auto.
    rewrite (rsum_ext rank _ (fun j => rsum n (fun i => y j * C j i * el m i k))) by (intros j Hj; rewrite A9 by auto; rewrite <- rsum_scal; apply rsum_ext; intros; ring).
    rewrite rsum_swap. apply rsum_ext. intros i Hi. rewrite rsum_scal_r. reflexivity.
Qed.
(** the resized factors *)
Theorem C60_resized (n p : nat) (m l q : fmat R) (tol : R) : 0 <= tol -> nr m = n -> nc m = p -> nr l = n -> nc l = n -> nr q = n -> nc q = p ->
  exists l' q' rank, zMatDecompLQAndResize tol m l q = Ok (l', q', rank) /\ nr l' = n /\ nc l' = rank /\ nr q' = rank /\ nc q' = p /\
    orthonormal_rows p rank (el q') /\ (forall i j, (i < j)%nat -> (i < n)%nat -> el l' i j = 0) /\
    (forall i, (i < n)%nat -> rsum p (fun k => (el m i k - mmul rank (el l') (el q') i k) ^ 2) <= tol ^ 2).
Proof.
  intros Ht R1 C1 R2 C2 R3 C3. destruct (gs_ok n p m tol R1 C1 Ht l q R2 ltac:(lia) ltac:(lia) C3) as (l' & q' & rank & E & A1 & A2 & A3 & A4 & A5 & A6 & A7 & A8 & _).
  unfold zMatDecompLQAndResize. rewrite E. cbn [bind]. rewrite R1. destruct (Nat.ltb_spec rank n).
  - eexists _, _, _. split; [reflexivity|]. cbn [nr nc el]. conjs; auto.
  - eexists _, _, _. split; [reflexivity|]. conjs; auto; lia.
Qed.
(** QR decomposition, r given: M = Q R with the columns of Q up to the rank orthonormal and R upper triangular *)
Theorem C60_qr (n p : nat) (m q r : fmat R) (tol : R) : 0 <= tol -> nr m = n -> nc m = p ->
  nr q = n -> (Nat.min n p <= nc q)%nat -> (Nat.min n p <= nr r)%nat -> nc r = p ->
  exists q' r' rank, zMatDecompQR tol m q (Some r) = Ok (q', r', rank) /\ nr q' = n /\ nc q' = nc q /\ nr r' = nr r /\ nc r' = p /\
    (rank <= Nat.min n p)%nat /\ orthonormal_cols n rank (el q') /\
    (forall i j, (j < p)%nat -> (rank <= i \/ j < i)%nat -> el r' i j = 0) /\
    (forall j, (j < p)%nat -> rsum n (fun k => (el m k j - mmul rank (el q') (el r') k j) ^ 2) <= tol ^ 2).
Proof.
  intros Ht R1 C1 R2 C2 R3 C3. unfold zMatDecompQR.
  destruct (gs_ok p n (FM (nc m) (nr m) (fun i j => el m j i)) tol C1 R1 Ht (mzero (nc r) (nr r)) (mzero (nc q) (nr q)))
    as (l' & q' & rank & E & A1 & A2 & A3 & A4 & A5 & A6 & A7 & A8 & _); cbn [nr nc mzero] in *; auto; try lia.
  rewrite E. cbn [bind]. eexists _, _, _. split; [reflexivity|]. cbn [nr nc el] in *. conjs; auto; try lia.
  intros j Hj. specialize (A8 j Hj). unfold mmul.
  rewrite (rsum_ext n _ (fun k => (el m k j - rsum rank (fun s => el l' j s * el q' s k)) ^ 2)); [exact A8|].
  intros k Hk. f_equal. f_equal. apply rsum_ext. intros; ring.
Qed.
(** r may be the null pointer according to zm_le_lq.h:72; it is dereferenced *)
Theorem C60_qr_null_refuted : ~ (forall (m q : fmat R) tol, 0 <= tol -> nr q = nr m -> nc q = nc m -> exists o, zMatDecompQR tol m q None = Ok o).
Proof. intros H. destruct (H (FM 1 1 (fun _ _ => 1)) (FM 1 1 (fun _ _ => 0)) 0) as (o & E); cbn; auto; try lra. discriminate E. Qed.
(** LQ decomposition by the method of Householder, when the rank found is the smaller size: M = L Q exactly *)
Theorem C60_householder_partial (n p : nat) (m : fmat R) (tol : R) : 0 <= tol -> nr m = n -> nc m = p ->
  exists o, zMatDecompLQ_Householder tol m = Ok o /\
    forall l q rank, o = Some (l, q, rank) ->
      (0 < rank <= Nat.min n p)%nat /\ nr l = n /\ nc l = rank /\ nr q = rank /\ nc q = p /\ orthonormal_rows p rank (el q) /\
      (rank = Nat.min n p ->
        (forall i k, (i < n)%nat -> (k < p)%nat -> el m i k = mmul rank (el l) (el q) i k) /\
        (forall i j, (i < j < rank)%nat -> el l i j = 0) /\ (forall i, (i < rank)%nat -> tol < Rabs (el l i i))).
Proof.
  intros Ht R1 C1. unfold zMatDecompLQ_Householder.
  destruct (hh_ok n p m tol R1 C1 Ht (mzero (nc m) (nc m))) as (lf & qf & rank & E & A1 & A2 & A3 & A4 & A5 & A6 & A7 & A8 & A9); try (cbn; auto; fail).
  rewrite E. cbn [bind]. destruct (Nat.eqb_spec rank 0) as [R0|R0]; (eexists; split; [reflexivity|]); intros l q r EQ; [discriminate|].
  injection EQ as <- <- <-. cbn [nr nc el]. conjs; auto; try lia.
  - intros a b Ha Hb. apply A5; lia.
  - intros RE. specialize (A9 RE).
    assert (DT : forall i b, (i < n)%nat -> (rank <= b < p)%nat -> el lf i b = 0).
    { intros i b Hi Hb. destruct (Nat.lt_ge_cases i (Nat.min n p)) as [L|L]; [apply (A9 i L); lia|lia]. }
    assert (EX : forall i, (i < n)%nat -> exact_row p m lf qf i).
    { intros i Hi. destruct (Nat.lt_ge_cases i (Nat.min n p)) as [L|L]; [apply (A9 i L)|apply A7; lia]. }
    split; [|split].
    + intros i k Hi Hk. rewrite (EX i Hi k Hk). unfold mmul. replace p with (rank + (p - rank))%nat at 1 by lia. rewrite rsum_app.
      rewrite (rsum_0 (p - rank)); [ring|]. intros b Hb. rewrite DT by lia. ring.
    + intros i j Hij. apply (A9 i ltac:(lia)). lia.
    + intros i Hi. apply (A9 i ltac:(lia)).
Qed.
(** and the complement: an orthonormal basis of vectors that m maps to zero, when the rank found is the number of rows *)
Theorem C60_null_partial (n p : nat) (m : fmat R) (tol : R) : 0 <= tol -> nr m = n -> nc m = p ->
  exists o, zMatDecompLQNull tol m = Ok o /\
    forall l q qn rank, o = Some (l, q, qn, rank) ->
      nr qn = p /\ nc qn = (p - rank)%nat /\ orthonormal_cols p (p - rank) (el qn) /\
      (forall i j, (i < rank)%nat -> (j < p - rank)%nat -> rsum p (fun k => el q i k * el qn k j) = 0) /\
      (rank = n -> forall i j, (i < n)%nat -> (j < p - rank)%nat -> mmul p (el m) (el qn) i j = 0).
Proof.
  intros Ht R1 C1. unfold zMatDecompLQNull.
  destruct (hh_ok n p m tol R1 C1 Ht (mzero (nc m) (nc m))) as (lf & qf & rank & E & A1 & A2 & A3 & A4 & A5 & A6 & A7 & A8 & A9); try (cbn; auto; fail).
  rewrite E. cbn [bind]. destruct (Nat.eqb_spec rank 0) as [R0|R0]; (eexists; split; [reflexivity|]); intros l q qn r EQ; [discriminate|].
  injection EQ as <- <- <- <-. cbn [nr nc el]. rewrite C1. destruct A5 as (OC & OR).
  assert (OO : forall i j, (i < rank)%nat -> (j < p - rank)%nat -> rsum p (fun k => el qf i k * el qf (rank + j) k) = 0).
  { intros i j Hi Hj. change (rdot p (el qf) i (rank + j) = 0). rewrite OR by lia. unfold delta. nbp. }
  conjs; auto.
  - intros a b Ha Hb. change (rdot p (el qf) (rank + a) (rank + b) = delta a b). rewrite OR by lia. unfold delta. nbp.
  - intros -> i j Hi Hj. unfold mmul. cbn [el].
    assert (RE : n = Nat.min n p) by lia. destruct (A9 RE i ltac:(lia)) as (K1 & K2 & _).
    rewrite (rsum_ext p _ (fun k => rsum p (fun b => el lf i b * (el qf b k * el qf (n + j) k)))).
    + rewrite rsum_swap. apply rsum_0. intros b Hb. rewrite rsum_scal.
      destruct (Nat.lt_ge_cases b n) as [L|L]; [rewrite OO by lia; ring|rewrite K1 by lia; ring].
    + intros k Hk. rewrite (K2 k Hk), <- rsum_scal_r. apply rsum_ext. intros; ring.
Qed.
(** the method fails for a matrix whose leading rows are dependent: [[0,0],[0,1]] has the rank 1, yet the first
    column of L and the first row of Q are taken *)
Theorem C60_householder_refuted : ~ (forall (m : fmat Q) l q rank, zMatDecompLQ_Householder (1 # 1000000000000)%Q m = Ok (Some (l, q, rank)) ->
  forall i k, (i < nr m)%nat -> (k < nc m)%nat -> (ksum rank (fun j => smul (el l i j) (el q j k)) == el m i k)%Q).
Proof.
  set (m := FM 2 2 (fun i j => if (i =? 1)%nat && (j =? 1)%nat then 1%Q else 0%Q)). intros H.
  destruct (zMatDecompLQ_Householder (1 # 1000000000000)%Q m) as [[((l & q) & rank)|]|] eqn:E; [|vm_compute in E; discriminate E|vm_compute in E; discriminate E].
  specialize (H m l q rank E 1%nat 1%nat ltac:(cbn; lia) ltac:(cbn; lia)).
  vm_compute in E. injection E as <- <- <-. vm_compute in H. discriminate H.
Qed.
(** [[3,4],[6,8],[1,0]] is decomposed with the rank 2 (in the rationals) *)
Definition qlq : fmat Q := FM 3 2 (fun i j => match i with O => if (j =? 0)%nat then 3 else 4 | 1%nat => if (j =? 0)%nat then 6 else 8 | _ => if (j =? 0)%nat then 1 else 0 end)%Q.
Example C60_case : match zMatDecompLQ 0%Q qlq (FM 3 3 (fun _ _ => 0%Q)) (FM 3 2 (fun _ _ => 0%Q)) with
  | Ok (l, q, rank) => rank = 2%nat /\ (el l 0 0 == 5)%Q /\ (el l 1 0 == 10)%Q /\ (el l 1 1 == 0)%Q /\ (el l 2 1 == 4 # 5)%Q /\ (el q 0 1 == 4 # 5)%Q
  | UB => False end.
Proof. vm_compute. conjs; reflexivity. Qed.

Print Assumptions C58_jacobi_partial.
Print Assumptions C58_sizes.
Print Assumptions C58_one_refuted.
Print Assumptions C58_zero_refuted.
Print Assumptions C81_svd_partial.
Print Assumptions C81_one_row_refuted.
Print Assumptions C60_lq.
Print Assumptions C60_lq_exact.
Print Assumptions C60_resized.
Print Assumptions C60_qr.
Print Assumptions C60_qr_null_refuted.
Print Assumptions C60_householder_partial.
Print Assumptions C60_null_partial.
Print Assumptions C60_householder_refuted.
