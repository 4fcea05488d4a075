(** C23, C25, C26, C28, C29 with every small positive tolerance: for each matrix there is a bound below which the
    tolerance changes nothing, so that the answers are exact. *)
From Coq Require Import Reals Lra Lia List.
From Verif Require Import Prelude Prelude_Proofs Scalar RealLib Fmat Fmat_Proofs LE_Model LE_Spec LE_Props Stab_Proofs.
Import ListNotations.
Local Open Scope R_scope.

Lemma st_cholesky m l idx : st (fun t => zMatDecompCholesky t m l idx).
Proof. unfold zMatDecompCholesky, zMatDecompCholeskyDST. stab. Qed.
Lemma st_lu m l u idx : st (fun t => zMatDecompLU t m l u idx).
Proof. unfold zMatDecompLU. stab. unfold lu_step. stab. Qed.
Lemma st_det m : st (fun t => zMatDet t m).
Proof. unfold zMatDet, zMatDetDST. stab. Qed.

(** zLESolveGauss solves every nonsingular system and refuses every singular one *)
Theorem C23_small n (a : fmat R) (b ans : fvec R) : (0 < n)%nat -> nr a = n -> nc a = n -> vlen b = n -> vlen ans = n ->
  exists o d, 0 < d /\ (forall tol, 0 < tol <= d -> zLESolveGauss tol a b ans = Ok o) /\
   match o with Some x => vlen x = n /\ solves n n (el a) (vel x) (vel b) /\ nonsingular n (el a) | None => ~ nonsingular n (el a) end.
Proof.
  intros. destruct (C23_gauss_exact n a b ans) as (o & E & P); auto. destruct (st_gauss a b ans) as (d & D & S). exists o, d. split; auto. split; auto. intros. rewrite S; auto.
Qed.
(** LU decomposition of every matrix of full column rank *)
Theorem C25_small Rn Cn (m l u : fmat R) idx : nr m = Rn -> nc m = Cn -> nr l = Rn -> nc l = Rn -> nr u = Rn -> nc u = Cn -> length idx = Rn -> (Cn <= Rn)%nat ->
  (forall x, solves Rn Cn (el m) x (fun _ => 0) -> forall i, (i < Cn)%nat -> x i = 0) ->
  exists L U idx' d, 0 < d /\ (forall tol, 0 < tol <= d -> zMatDecompLU tol m l u idx = Ok (Some (L, U, idx', Cn))) /\ perm Rn idx' /\
   (forall i j, (i < Rn)%nat -> (i < j)%nat -> el L (pos idx' i) j = 0) /\ (forall i, (i < Cn)%nat -> el L (pos idx' i) i <> 0) /\
   (forall i j, (j < i)%nat -> el U i j = 0) /\ (forall i, (i < Cn)%nat -> el U i i = 1) /\
   (forall i j, (i < Rn)%nat -> (j < Cn)%nat -> el m i j = mm Cn (el L) (el U) i j).
Proof.
  intros. destruct (C25_full_rank Rn Cn m l u idx) as (L & U & idx' & E & P); auto. destruct (st_lu m l u idx) as (d & D & S). exists L, U, idx', d. split; auto. split; auto. intros. rewrite S; auto.
Qed.
(** Cholesky decomposition of every symmetric positive semidefinite matrix *)
Theorem C26_small n (m l : fmat R) idx : nr m = n -> nc m = n -> nr l = n -> nc l = n -> length idx = n -> symmetric n (el m) -> psd n (el m) ->
  exists L idx' rank d, 0 < d /\ (forall tol, 0 < tol <= d -> zMatDecompCholesky tol m l idx = Ok (Some (L, idx', rank))) /\
    forall r c, (r < n)%nat -> (c < n)%nat -> el m r c = rsum n (fun t => el L r t * el L c t).
Proof.
  intros. destruct (C26_exact n m l idx) as (L & idx' & rank & E & P); auto. destruct (st_cholesky m l idx) as (d & D & S). exists L, idx', rank, d. split; auto. split; auto. intros. rewrite S; auto.
Qed.
(** the determinant of every square matrix *)
Theorem C28_small n (m : fmat R) : nr m = n -> nc m = n -> exists d, 0 < d /\ forall tol, 0 < tol <= d -> zMatDet tol m = Ok (det n (el m)).
Proof. intros. destruct (st_det m) as (d & D & S). exists d. split; auto. intros. rewrite S by auto. now apply C28_det_exact. Qed.
(** inv(A) B, and the inverse of every nonsingular matrix *)
Theorem C29_small n q (a b ans im : fmat R) : (0 < n)%nat -> nr a = n -> nc a = n -> nr b = n -> nc b = q -> nr ans = n -> nc ans = q -> nr im = n -> nc im = n -> nonsingular n (el a) ->
  exists X Y d, 0 < d /\ (forall tol, 0 < tol <= d -> zMulInvMatMat tol a b ans = Ok (Some X) /\ zMatInv tol a im = Ok (Some Y)) /\
    (forall r j, (r < n)%nat -> (j < q)%nat -> mm n (el a) (el X) r j = el b r j) /\
    (forall r j, (r < n)%nat -> (j < n)%nat -> mm n (el a) (el Y) r j = if (r =? j)%nat then 1 else 0).
Proof.
  intros. destruct (C29_mul_inv_exact n q a b ans) as (o & E & P); auto. destruct o as [X|]; [|contradiction]. destruct (C29_inverse_partial n a im) as (Y & E' & P'); auto.
  destruct (ev_both _ _ _ _ (st_mulinv a b ans) (st_matinv a im)) as (d & D & S). exists X, Y, d. split; auto. split; [|split; [apply P|apply P']].
  intros tol Ht. destruct (S tol Ht) as (-> & ->). auto.
Qed.
(** the hypotheses are met: a nonsingular symmetric positive definite matrix *)
Example small_case : let a := mat_of 0 [[2; 1]; [1; 1]] in nonsingular 2 (el a) /\ symmetric 2 (el a) /\ psd 2 (el a).
Proof.
  cbn zeta. split; [|split].
  - intros x S i Hi. pose proof (S 0%nat ltac:(lia)) as S0. pose proof (S 1%nat ltac:(lia)) as S1. unfold mv in *. cbn in S0, S1. destruct i as [|[|i]]; [lra|lra|lia].
  - intros i j Hi Hj. destruct i as [|[|i]], j as [|[|j]]; try lia; reflexivity.
  - intros x. unfold qf. cbn. nra.
Qed.
Print Assumptions C23_small.
Print Assumptions C25_small.
Print Assumptions C26_small.
Print Assumptions C28_small.
Print Assumptions C29_small.
