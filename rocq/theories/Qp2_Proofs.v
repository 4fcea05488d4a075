(** Lemmas for C45, C46: the translation of problems. *)
From Coq Require Import Reals Lra Lia Psatz.
From Verif Require Import Prelude Prelude_Proofs Scalar RealLib Fmat Fmat_Proofs LE_Model IP_Model Vop Root_Model Qp_Model Qp_Spec Qp_Proofs.
Local Open Scope R_scope.

Ltac nb := repeat (match goal with
  | |- context [(?a <? ?b)%nat] => destruct (Nat.ltb_spec a b)
  | |- context [(?a <=? ?b)%nat] => destruct (Nat.leb_spec a b)
  | |- context [(?a =? ?b)%nat] => destruct (Nat.eqb_spec a b)
  end; cbn [andb orb negb]; try lia).

(** the matrix ( Q -A^T ; A 0 ) and the vector ( c ; -b ) *)
Definition lcp_mat (n : nat) (Q A : nat -> nat -> R) (i j : nat) : R :=
  if (i <? n)%nat then (if (j <? n)%nat then Q i j else - A (j - n)%nat i) else (if (j <? n)%nat then A (i - n)%nat j else 0).
Definition lcp_vec (n : nat) (c b : nat -> R) (i : nat) : R := if (i <? n)%nat then c i else - b (i - n)%nat.

Lemma qp2lcp_ok q c a b n m : nr q = n -> nc q = n -> vlen c = n -> nr a = m -> nc a = n -> vlen b = m ->
  exists lm lq, zQP2LCP q c (Some a) (Some b) = Ok (lm, lq, vzero (n + m)) /\
    nr lm = (n + m)%nat /\ nc lm = (n + m)%nat /\ vlen lq = (n + m)%nat /\
    (forall i j, (i < n + m)%nat -> (j < n + m)%nat -> el lm i j = lcp_mat n (el q) (el a) i j) /\
    (forall i, (i < n + m)%nat -> vel lq i = lcp_vec n (vel c) (vel b) i).
Proof.
  intros H1 H2 H3 H4 H5 H6. unfold zQP2LCP. rewrite H1, H3, H4, H6. cbn [negb].
  set (lm0 := zMatPut (zMatPut (mzero (n + m) (n + m)) 0 0 q) n 0 a).
  assert (E0 : nr lm0 = (n + m)%nat /\ nc lm0 = (n + m)%nat /\ forall i j, (i < n + m)%nat -> (j < n + m)%nat ->
     el lm0 i j = if (i <? n)%nat then (if (j <? n)%nat then el q i j else 0) else (if (j <? n)%nat then el a (i - n) j else 0)).
  { unfold lm0, zMatPut. rewrite H1, H2, H4, H5. cbn [nr nc mzero]. 
    replace ((0 + n <=? n + m)%nat) with true by (symmetry; apply Nat.leb_le; lia). cbn [andb nr nc].
    replace ((n + m <=? n + m)%nat) with true by (symmetry; apply Nat.leb_le; lia).
    replace ((0 + n <=? n + m)%nat) with true by (symmetry; apply Nat.leb_le; lia). cbn [andb nr nc el].
    split; [reflexivity|]. split; [reflexivity|]. intros i j Hi Hj. nb; rewrite ?Nat.sub_0_r; auto. }
  destruct E0 as (R0 & C0 & V0).
  match goal with |- context [for_ 0 m ?f lm0] =>
    destruct (for_inv (fun k lm => nr lm = (n + m)%nat /\ nc lm = (n + m)%nat /\ forall i j, el lm i j = if (i <? n)%nat && ((n <=? j)%nat && (j <? n + k)%nat) then - el a (j - n)%nat i else el lm0 i j) 0 m f lm0) as (lm & E & R1 & C1 & V1) end.
  - lia.
  - repeat split; auto. intros i j. nb; auto.
  - intros i lm Hi (R1 & C1 & V1). rewrite H5.
    match goal with |- context [for_ 0 n ?f lm] =>
      destruct (for_inv (fun k lm' => nr lm' = (n + m)%nat /\ nc lm' = (n + m)%nat /\ forall r c, el lm' r c = if (r <? k)%nat && (c =? n + i)%nat then - el a i r else el lm r c) 0 n f lm) as (lm' & E & R2 & C2 & V2) end.
    + lia.
    + repeat split; auto; intros; nb; auto.
    + intros j lm' Hj (R2 & C2 & V2). rewrite mget_ok by lia. cbn [bind]. rewrite mset_ok by lia. eexists. split; [reflexivity|].
      cbn [nr nc el]. repeat split; auto. intros r c'. rewrite V2. cbn [sopp RealS]. nb; subst; auto.
    + exists lm'. split; [exact E|]. repeat split; auto. intros r c'. rewrite V2, V1. nb; subst; auto; f_equal; f_equal; lia.
  - rewrite E. cbn [bind]. set (lq0 := zVecPut _ _ _).
    assert (E0 : vlen lq0 = (n + m)%nat /\ forall i, (i < n + m)%nat -> vel lq0 i = if (i <? n)%nat then vel c i else 0).
    { unfold lq0, zVecPut. rewrite H3. cbn [vlen vzero]. replace ((0 + n <=? n + m)%nat) with true by (symmetry; apply Nat.leb_le; lia).
      cbn [vlen vel]. split; [reflexivity|]. intros i Hi. rewrite Nat.sub_0_r. nb; auto. }
    destruct E0 as (LQ & VQ).
    match goal with |- context [for_ 0 m ?f lq0] =>
      destruct (for_inv (fun k lq => vlen lq = (n + m)%nat /\ forall i, vel lq i = if (n <=? i)%nat && (i <? n + k)%nat then - vel b (i - n)%nat else vel lq0 i) 0 m f lq0) as (lq & E2 & L2 & V2) end.
    + lia.
    + split; auto; intros; nb; auto.
    + intros i lq Hi (L2 & V2). rewrite vget_ok by lia. cbn [bind]. rewrite vset_ok by lia. eexists. split; [reflexivity|].
      cbn [vlen vel]. split; [auto|]. intros k. rewrite V2. cbn [sopp RealS]. nb; subst; auto; f_equal; f_equal; lia.
    + rewrite E2. cbn [bind]. exists lm, lq. repeat split; auto.
      * intros i j Hi Hj. rewrite V1, V0 by auto. unfold lcp_mat. nb; auto.
      * intros i Hi. rewrite V2, VQ by auto. unfold lcp_vec. nb; auto.
Qed.

(** a solution of the complementarity problem gives a minimiser *)
Lemma mulv_block_top n m Q A z i : (i < n)%nat -> mulv (n + m) (lcp_mat n Q A) z i =
  mulv n Q z i - rsum m (fun k => A k i * z (n + k)%nat).
Proof.
  intros Hi. unfold mulv. rewrite rsum_app. unfold Rminus. rewrite <- rsum_opp. f_equal.
  - apply rsum_ext. intros j Hj. unfold lcp_mat. nb; auto.
  - apply rsum_ext. intros j Hj. unfold lcp_mat. nb; auto. replace (n + j - n)%nat with j by lia. ring.
Qed.
Lemma mulv_block_bot n m Q A z i : mulv (n + m) (lcp_mat n Q A) z (n + i) = mulv n A z i.
Proof.
  unfold mulv. rewrite rsum_app. rewrite (rsum_0 m) by (intros j Hj; unfold lcp_mat; nb; ring). rewrite Rplus_0_r.
  apply rsum_ext. intros j Hj. unfold lcp_mat. nb; auto. replace (n + i - n)%nat with i by lia. reflexivity.
Qed.
Lemma kkt n m Q A c b z : symmetric n Q -> psd n Q -> solves_lcp (n + m) (lcp_mat n Q A) (lcp_vec n c b) z ->
  feasible m n A b z /\ forall y, feasible m n A b y -> quad n Q c z <= quad n Q c y.
Proof.
  intros SY P H. unfold solves_lcp in H. cbv zeta in H. destruct H as (Z & W & O). unfold nonneg in W.
  assert (WT : forall i, (i < n)%nat -> 0 <= mulv n Q z i + c i - rsum m (fun k => A k i * z (n + k)%nat)).
  { intros i Hi. specialize (W i ltac:(lia)). rewrite mulv_block_top in W by auto. unfold lcp_vec in W. revert W. nb. lra. }
  assert (WB : forall i, (i < m)%nat -> 0 <= mulv n A z i - b i).
  { intros i Hi. specialize (W (n + i)%nat ltac:(lia)). rewrite mulv_block_bot in W. unfold lcp_vec in W. revert W. nb. replace (n + i - n)%nat with i by lia. lra. }
  assert (FZ : feasible m n A b z).
  { split; [intros i Hi; apply Z; lia|]. intros i Hi. specialize (WB i Hi). lra. }
  split; [exact FZ|]. intros y (Y & YB).
  set (lam := fun k => z (n + k)%nat). set (gr := fun i => mulv n Q z i + c i).
  assert (SPLIT : dot n z (fun i => gr i - rsum m (fun k => A k i * lam k)) + dot m lam (fun i => mulv n A z i - b i) = 0).
  { rewrite <- O. unfold dot. rewrite rsum_app. f_equal.
    - apply rsum_ext. intros i Hi. rewrite mulv_block_top by auto. unfold lcp_vec, gr. nb. unfold lam. ring.
    - apply rsum_ext. intros i Hi. rewrite mulv_block_bot. unfold lcp_vec. nb. replace (n + i - n)%nat with i by lia. unfold lam. ring. }
  assert (TR : forall u, dot n u (fun i => rsum m (fun k => A k i * lam k)) = dot m lam (mulv n A u)).
  { intros u. unfold dot, mulv. transitivity (rsum n (fun i => rsum m (fun k => u i * A k i * lam k))).
    - apply rsum_ext. intros. rewrite <- rsum_scal. apply rsum_ext. intros; ring.
    - rewrite rsum_swap. apply rsum_ext. intros. rewrite <- rsum_scal. apply rsum_ext. intros; ring. }
  assert (SUBL : forall k u v w, dot k u (fun i => v i - w i) = dot k u v - dot k u w).
  { intros. unfold dot. rewrite <- rsum_sub. apply rsum_ext. intros; ring. }
  rewrite !SUBL, TR in SPLIT.
  (* y^T(gr - A^T lam) >= 0 and lam^T (A y - b) >= 0 *)
  assert (Y1 : 0 <= dot n y (fun i => gr i - rsum m (fun k => A k i * lam k))).
  { apply rsum_nonneg. intros i Hi. apply Rmult_le_pos; [apply Y; auto|]. apply (WT i Hi). }
  assert (Y2 : 0 <= dot m lam (fun i => mulv n A y i - b i)).
  { apply rsum_nonneg. intros i Hi. apply Rmult_le_pos; [apply Z; lia|]. specialize (YB i Hi). lra. }
  rewrite !SUBL, TR in Y1. rewrite SUBL in Y2.
  rewrite (quad_ext n Q c y (fun i => z i + 1 * (y i + (-1) * z i))) by (intros; ring).
  rewrite quad_step by exact SY. fold gr. pose proof (P (fun i => y i + (-1) * z i)) as PP.
  rewrite (dot_lin_l n gr y z (-1)). lra.
Qed.

(** ** standard forms *)
Definition ineq_mat (n : nat) (A : nat -> nat -> R) (i j : nat) : R :=
  if (j <? n)%nat then A i j else if (j =? n + i)%nat then 1 else 0.
Definition unb_mat (n : nat) (A : nat -> nat -> R) (i j : nat) : R :=
  if (j <? n)%nat then A i j else if (j <? n * 2)%nat then - A i (j - n)%nat else if (j =? n * 2 + i)%nat then 1 else 0.
Lemma ineq2std_ok a c x m n : nr a = m -> nc a = n -> vlen c = n -> vlen x = n ->
  exists as_ cs, zLPIneq2Std a c x = Ok (as_, cs, vzero (n + m)) /\
   nr as_ = m /\ nc as_ = (n + m)%nat /\ vlen cs = (n + m)%nat /\
   (forall i j, (i < m)%nat -> (j < n + m)%nat -> el as_ i j = ineq_mat n (el a) i j) /\
   (forall j, (j < n + m)%nat -> vel cs j = if (j <? n)%nat then vel c j else 0).
Proof.
  intros H1 H2 H3 H4. unfold zLPIneq2Std. rewrite H1, H2, H3, H4. set (m0 := zMatPut _ _ _ _).
  assert (E0 : nr m0 = m /\ nc m0 = (n + m)%nat /\ forall i j, (i < m)%nat -> (j < n + m)%nat -> el m0 i j = if (j <? n)%nat then el a i j else 0).
  { unfold m0, zMatPut. rewrite H1, H2. cbn [nr nc mzero]. replace ((0 + m <=? m)%nat) with true by (symmetry; apply Nat.leb_le; lia).
    replace ((0 + n <=? n + m)%nat) with true by (symmetry; apply Nat.leb_le; lia). cbn [andb nr nc el]. repeat split; auto.
    intros i j Hi Hj. rewrite !Nat.sub_0_r. nb; auto. }
  destruct E0 as (R0 & C0 & V0).
  match goal with |- context [for_ 0 m ?f m0] =>
    destruct (for_inv (fun k M => nr M = m /\ nc M = (n + m)%nat /\ forall i j, el M i j = if (i <? k)%nat && (j =? n + i)%nat then 1 else el m0 i j) 0 m f m0) as (M & E & R1 & C1 & V1) end.
  - lia.
  - repeat split; auto.
  - intros i M Hi (R1 & C1 & V1). rewrite mset_ok by lia. eexists. split; [reflexivity|]. cbn [nr nc el]. repeat split; auto.
    intros r c'. rewrite V1. nb; subst; auto.
  - rewrite E. cbn [bind]. exists M. eexists. split; [reflexivity|]. repeat split; auto.
    + unfold zVecPut. rewrite H3. cbn [vlen vzero]. destruct (0 + n <=? n + m)%nat; reflexivity.
    + intros i j Hi Hj. rewrite V1, V0 by auto. unfold ineq_mat. nb; auto.
    + intros j Hj. unfold zVecPut. rewrite H3. cbn [vlen vzero]. replace ((0 + n <=? n + m)%nat) with true by (symmetry; apply Nat.leb_le; lia).
      cbn [vel]. rewrite Nat.sub_0_r. nb; auto.
Qed.
Lemma unb2std_ok a c x m n : nr a = m -> nc a = n -> vlen c = n -> vlen x = n ->
  exists as_ cs, zLPUnb2Std a c x = Ok (as_, cs, vzero (n * 2 + m)) /\
   nr as_ = m /\ nc as_ = (n * 2 + m)%nat /\ vlen cs = (n * 2 + m)%nat /\
   (forall i j, (i < m)%nat -> (j < n * 2 + m)%nat -> el as_ i j = unb_mat n (el a) i j) /\
   (forall j, (j < n * 2 + m)%nat -> vel cs j = if (j <? n)%nat then vel c j else if (j <? n * 2)%nat then - vel c (j - n)%nat else 0).
Proof.
  intros H1 H2 H3 H4. unfold zLPUnb2Std. rewrite H1, H2, H3, H4.
  match goal with |- context [for_ 0 m ?f (mzero ?r ?kk)] => set (m0 := mzero (T:=R) r kk);
    destruct (for_inv (fun k M => nr M = m /\ nc M = (n * 2 + m)%nat /\ forall i j, el M i j = if (i <? k)%nat then unb_mat n (el a) i j else 0) 0 m f m0) as (M & E & R1 & C1 & V1) end.
  - lia.
  - repeat split; auto.
  - intros i M Hi (R1 & C1 & V1).
    match goal with |- context [for_ 0 n ?f M] =>
      destruct (for_inv (fun k M' => nr M' = m /\ nc M' = (n * 2 + m)%nat /\ forall r c', el M' r c' = if (r =? i)%nat then (if (c' <? k)%nat then el a i c' else if (n <=? c')%nat && (c' <? n + k)%nat then - el a i (c' - n)%nat else 0) else el M r c') 0 n f M) as (M' & E & R2 & C2 & V2) end.
    + lia.
    + repeat split; auto. intros r c'. rewrite !V1. nb; auto; subst; auto.
    + intros j M' Hj (R2 & C2 & V2). rewrite mget_ok by lia. cbn [bind]. rewrite mset_ok by lia. cbn [bind].
      rewrite mset_ok by (cbn [nr nc]; lia). eexists. split; [reflexivity|]. cbn [nr nc el]. repeat split; auto.
      intros r c'. rewrite V2. cbn [sopp RealS]. nb; subst; auto; f_equal; f_equal; lia.
    + rewrite E. cbn [bind]. rewrite mset_ok by lia. eexists. split; [reflexivity|]. cbn [nr nc el]. repeat split; auto.
      intros r c'. rewrite V2, V1. unfold unb_mat. nb; subst; auto.
  - rewrite E. cbn [bind].
    match goal with |- context [for_ 0 n ?f (vzero ?r)] => set (v0 := vzero (T:=R) r);
      destruct (for_inv (fun k v => vlen v = (n * 2 + m)%nat /\ forall j, vel v j = if (j <? k)%nat then vel c j else if (n <=? j)%nat && (j <? n + k)%nat then - vel c (j - n)%nat else 0) 0 n f v0) as (v & E2 & L2 & V2) end.
    + lia.
    + split; auto; intros; nb; auto.
    + intros j v Hj (L2 & V2). rewrite vget_ok by lia. cbn [bind]. rewrite vset_ok by lia. cbn [bind]. rewrite vset_ok by (cbn [vlen]; lia).
      eexists. split; [reflexivity|]. cbn [vlen vel]. split; auto. intros k. rewrite V2. cbn [sopp RealS]. nb; subst; auto; f_equal; f_equal; lia.
    + rewrite E2. cbn [bind]. exists M, v. split; [reflexivity|]. repeat split; auto.
      * intros i j Hi Hj. rewrite V1. nb. reflexivity.
      * intros j Hj. rewrite V2. nb; auto.
Qed.
Lemma mulv_ineq n m A z i : (i < m)%nat -> mulv (n + m) (ineq_mat n A) z i = mulv n A z i + z (n + i)%nat.
Proof.
  intros Hi. unfold mulv. rewrite rsum_app. f_equal.
  - apply rsum_ext. intros j Hj. unfold ineq_mat. nb; auto.
  - rewrite (rsum_delta m i) by (auto; intros j Hj Hn; unfold ineq_mat; nb; ring). unfold ineq_mat. nb. ring.
Qed.
Lemma mulv_unb n m A z i : (i < m)%nat -> mulv (n * 2 + m) (unb_mat n A) z i = mulv n A (fun j => z j - z (n + j)%nat) i + z (n * 2 + i)%nat.
Proof.
  intros Hi. unfold mulv. rewrite rsum_app. f_equal.
  - replace (n * 2)%nat with (n + n)%nat at 1 by lia. rewrite rsum_app, <- rsum_add. apply rsum_ext. intros j Hj. unfold unb_mat. nb; auto.
    replace (n + j - n)%nat with j by lia. ring.
  - rewrite (rsum_delta m i) by (auto; intros j Hj Hn; unfold unb_mat; nb; ring). unfold unb_mat. nb. ring.
Qed.
