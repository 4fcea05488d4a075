(** zMatSymEigJacobi as a whole; orthonormal families; Gram-Schmidt; Householder. *)
From Coq Require Import Reals Lra Lia Psatz.
From Verif Require Import Prelude Prelude_Proofs Scalar RealLib Fmat Fmat_Proofs LE_Model IP_Model Vop Qp_Spec Qp_Proofs Stat_Model Eig_Model Eig_Spec Eig_Proofs Eig2_Proofs.
From Verif Require Complex_Model.
Local Open Scope R_scope.

Lemma shift_ok (m : fmat R) x : nr m = nc m ->
  exists m', zMatShift m x = Ok m' /\ nr m' = nr m /\ nc m' = nc m /\
    forall i j, (i < nr m)%nat -> (j < nr m)%nat -> el m' i j = el m i j + (if (i =? j)%nat then x else 0).
Proof.
  intros S. unfold zMatShift.
  match goal with |- context [for_ 0 (nr m) ?g ?s0] =>
   destruct (for_inv (fun k m' => nr m' = nr m /\ nc m' = nc m /\ forall i j, (i < nr m)%nat -> (j < nr m)%nat ->
     el m' i j = el m i j + (if (i =? j)%nat && (i <? k)%nat then x else 0)) 0 (nr m) g s0) as (m' & E & L1 & L2 & H) end.
  - lia.
  - conjs; auto. intros i j Hi Hj. nbp; lra.
  - intros k m' Hk (L1 & L2 & H). rewrite mmod_ok by lia. rewrite mset_ok by lia. eexists. split; [reflexivity|]. cbn [nr nc el].
    conjs; auto. intros i j Hi Hj. rewrite !H by lia. rs. nbp; lra.
  - exists m'. split; [exact E|]. conjs; auto. intros i j Hi Hj. rewrite H by auto. nbp.
Qed.

Lemma jacobi_ok n tol maxit (m V0 : fmat R) e0 : 0 <= tol -> (2 <= n)%nat -> nr m = n -> nc m = n -> symm n (el m) ->
  vlen e0 = n -> nr V0 = n -> nc V0 = n ->
  exists e V w D, zMatSymEigJacobi tol maxit m e0 V0 = Ok (Some (e, V, w)) /\ vlen e = n /\ nr V = n /\ nc V = n /\
    orthogonal n (el V) /\ symm n D /\
    (forall r a, (r < n)%nat -> (a < n)%nat -> mmul n (el m) (el V) r a = mmul n (el V) D r a) /\
    (forall i, (i < n)%nat -> vel e i = D i i) /\ trace n D = trace n (el m) /\ off2 n D <= off2 n (el m) /\
    (w = false -> forall i j, (i < n)%nat -> (j < n)%nat -> i <> j -> Rabs (D i j) <= tol) /\
    (off2 n (el m) <= 2 * tol ^ 2 * INR (S maxit) -> w = false).
Proof.
  intros Ht Hn L1 L2 SY Le L3 L4. unfold zMatSymEigJacobi.
  rewrite L1, L2, L3, L4, Le, Nat.eqb_refl. cbn [negb andb].
  unfold _zMatSymEigJacobiShift. rewrite !mget_ok by lia. cbn [bind].
  match goal with |- context [Complex_Model.zQESolve ?h ?f 1%S ?b ?c] => destruct (Complex_Model.zQESolve h f 1%S b c) as [(c0 & c1)|] eqn:Q end.
  2:{ exfalso. unfold Complex_Model.zQESolve in Q. rs. destruct (Reqb_spec 1 0); [lra|]. match type of Q with (if ?b then _ else _) = _ => destruct b end; discriminate. }
  match goal with |- context [if slt ?x ?y then ?u else ?v] => set (sh := if slt x y then u else v) end. clearbody sh. clear Q.
  destruct (shift_ok m (- sh)) as (d & E & D1 & D2 & HD); [lia|].
  change (- sh)%S with (- sh). rewrite E. cbn [bind]. rewrite L1 in *.
  set (A := fun i j => el m i j + (if (i =? j)%nat then - sh else 0)).
  set (v := FM n n (fun i j => if (i =? j)%nat then 1%S else 0%S)).
  assert (J0 : jinv n A d v).
  { apply (jinv_ext n A d v A (el v)); auto; try (cbn; lia).
    - intros i j Hi Hj. unfold A. rewrite (SY i j), (Nat.eqb_sym i j) by auto. reflexivity.
    - split; intros a b Ha Hb; unfold cdot, rdot; cbn [el v]; rs.
      + rewrite (rsum_delta n a); auto; [rewrite Nat.eqb_refl; unfold delta; nbp; lra|]. intros k Hk Nk. apply Nat.eqb_neq in Nk. rewrite Nk. ring.
      + rewrite (rsum_delta n a); auto; [rewrite Nat.eqb_refl; unfold delta; rewrite (Nat.eqb_sym b a); nbp; lra|]. intros k Hk Nk. apply Nat.eqb_neq in Nk. rewrite Nat.eqb_sym in Nk. rewrite Nk. ring.
    - intros r a Hr Ha. unfold mmul. cbn [el v]. rs. rewrite (rsum_delta n a), (rsum_delta n r); auto.
      + rewrite !Nat.eqb_refl. ring.
      + intros k Hk Nk. replace (r =? k)%nat with false by (symmetry; apply Nat.eqb_neq; auto). ring.
      + intros k Hk Nk. apply Nat.eqb_neq in Nk. rewrite Nk. ring. }
  destruct (jloop_ok n A tol Ht (S maxit) d v J0) as (d' & V & w & E' & J & O & W & F).
  rewrite E'. cbn [bind]. destruct J as (K1 & K2 & K3 & K4 & S & OR & M & T).
  destruct (vec_loop e0 0 n (fun j e => x <- mget d' j j ;; vset e j (x + sh)%S) (fun j => el d' j j + sh)) as (e & Ee & Lee & He); [lia|lia| |].
  { intros j v' Hj Lv' _. rewrite mget_ok by lia. reflexivity. }
  rewrite Ee. cbn [bind].
  set (D := fun i j => el d' i j + (if (i =? j)%nat then sh else 0)).
  exists e, V, w, D. split; [reflexivity|].
  assert (OE : off2 n D = off2 n (el d')). { apply rsum_ext. intros. apply rsum_ext. intros. unfold D. destruct (i =? i0)%nat; [reflexivity|]. rewrite Rplus_0_r. reflexivity. }
  assert (OD : off2 n (el d) = off2 n (el m)). { apply rsum_ext. intros. apply rsum_ext. intros. rewrite HD by auto. destruct (i =? i0)%nat; [reflexivity|]. rewrite Rplus_0_r. reflexivity. }
  conjs; auto.
  - lia.
  - intros i j Hi Hj. unfold D. rewrite (S i j), (Nat.eqb_sym i j) by auto. reflexivity.
  - intros r a Hr Ha. specialize (M r a Hr Ha). unfold mmul in *.
    rewrite (rsum_ext n _ (fun l => A r l * el V l a + (if (r =? l)%nat then sh * el V l a else 0))).
    2:{ intros k Hk. unfold A. destruct (r =? k)%nat; ring. }
    rewrite rsum_add, M.
    rewrite (rsum_ext n (fun l => el V r l * D l a) (fun l => el V r l * el d' l a + (if (l =? a)%nat then sh * el V r l else 0))).
    2:{ intros k Hk. unfold D. destruct (k =? a)%nat; ring. }
    rewrite rsum_add. f_equal. rewrite (rsum_delta n r), (rsum_delta n a), !Nat.eqb_refl; auto.
    + intros k Hk Nk. apply Nat.eqb_neq in Nk. rewrite Nk. reflexivity.
    + intros k Hk Nk. rewrite Nat.eqb_sym. apply Nat.eqb_neq in Nk. rewrite Nk. reflexivity.
  - intros i Hi. rewrite He. unfold D. rewrite Nat.eqb_refl. nbp.
  - unfold trace in *. unfold D. rewrite (rsum_ext n _ (fun i => el d' i i + sh)) by (intros; rewrite Nat.eqb_refl; reflexivity).
    rewrite rsum_add, T. unfold A. rewrite <- rsum_add. apply rsum_ext. intros. rewrite Nat.eqb_refl. ring.
  - rewrite OE, <- OD. exact O.
  - intros Hw i j Hi Hj Nij. unfold D. replace (i =? j)%nat with false by (symmetry; apply Nat.eqb_neq; auto). rewrite Rplus_0_r. apply W; auto.
  - intros B. rewrite <- OD in B. destruct (F B); [auto|discriminate].
Qed.
(** the residual of an eigenpair *)
Lemma residual n (A V D : nat -> nat -> R) j e : orthogonal n V -> symm n D ->
  (forall r a, (r < n)%nat -> (a < n)%nat -> mmul n A V r a = mmul n V D r a) -> (j < n)%nat -> e = D j j ->
  rsum n (fun r => (rsum n (fun k => A r k * V k j) - e * V r j) ^ 2) = rsum n (fun i => if (i =? j)%nat then 0 else D i j ^ 2).
Proof.
  intros (O1 & O2) S M Hj ->.
  set (y := fun i => if (i =? j)%nat then 0 else D i j).
  rewrite (rsum_ext n _ (fun r => rsum n (fun i => V r i * y i) * rsum n (fun l => V r l * y l))).
  2:{ intros r Hr. unfold mmul in M. rewrite M by auto.
      assert (Q : rsum n (fun i => V r i * y i) = rsum n (fun l => V r l * D l j) - D j j * V r j).
      { assert (P : rsum n (fun l => V r l * D l j) = rsum n (fun i => V r i * y i) + rsum n (fun i => if (i =? j)%nat then V r j * D j j else 0)).
        { rewrite <- rsum_add. apply rsum_ext. intros i Hi. unfold y. destruct (Nat.eqb_spec i j); subst; ring. }
        rewrite P, (rsum_delta n j (fun i => if (i =? j)%nat then V r j * D j j else 0)), Nat.eqb_refl; auto; [ring|]. intros k Hk Nk. apply Nat.eqb_neq in Nk. rewrite Nk. reflexivity. }
      rewrite Q. ring. }
  transitivity (rsum n (fun i => y i * rsum n (fun l => y l * cdot n V i l))).
  - unfold cdot.
    rewrite (rsum_ext n _ (fun r => rsum n (fun i => rsum n (fun l => y i * (y l * (V r i * V r l)))))).
    2:{ intros r Hr. rewrite <- rsum_scal_r. apply rsum_ext. intros i Hi. rewrite <- rsum_scal. apply rsum_ext. intros; ring. }
    rewrite rsum_swap. apply rsum_ext. intros i Hi. rewrite rsum_swap. rewrite <- rsum_scal. apply rsum_ext. intros l Hl.
    rewrite <- !rsum_scal. reflexivity.
  - apply rsum_ext. intros i Hi. rewrite (rsum_delta n i); auto.
    + rewrite O1 by auto. unfold delta. rewrite Nat.eqb_refl. unfold y. destruct (i =? j)%nat; ring.
    + intros k Hk Nk. rewrite O1 by auto. unfold delta. replace (i =? k)%nat with false by (symmetry; apply Nat.eqb_neq; auto). ring.
Qed.
