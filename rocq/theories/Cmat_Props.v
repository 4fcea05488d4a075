(** C118: complex matrices, conversions and norms of complex vectors.  Vocabulary in Cmat_Spec.v: [mholds m A F m'] and
    [vholds m v f m'] say that after the call the matrix A (the vector v) holds F (f) and that nothing else in memory has
    changed. *)
From Coq Require Import Reals Lra.
From Verif Require Import Prelude Prelude_Proofs Scalar RealLib Complex_Model Complex_Spec Complex_Proofs Complex2_Proofs Complex_Props
  Cmat_Model Cmat_Spec Cmat_Proofs.
From Coquelicot Require Import Coquelicot.
From Coq Require Import List.
Import ListNotations.
Local Open Scope list_scope.
Local Open Scope R_scope.

Ltac conjs := repeat match goal with |- _ /\ _ => split end.
Section C118.
  Variable tol : R.
  Variable m : cmem R.

  (** sums, differences, negation, real multiples and copies, in place or not *)
  Theorem C118_elementwise A B D k : mr A = mr D -> mc A = mc D -> mr B = mr D -> mc B = mc D ->
    one_or_apart A D -> one_or_apart B D ->
    (exists m', zCMatAdd m A B D = Some m' /\ mholds m D (fun i j => Cplus (mel m A i j) (mel m B i j)) m') /\
    (exists m', zCMatSub m A B D = Some m' /\ mholds m D (fun i j => Cminus (mel m A i j) (mel m B i j)) m') /\
    (exists m', zCMatRev m A D = Some m' /\ mholds m D (fun i j => Copp (mel m A i j)) m') /\
    (exists m', zCMatMul m A k D = Some m' /\ mholds m D (fun i j => Cmult (mel m A i j) (RtoC k)) m') /\
    (0 <= tol -> tol < Rabs k -> exists m', zCMatDiv tol m A k D = Some m' /\ mholds m D (fun i j => Cdiv (mel m A i j) (RtoC k)) m') /\
    (exists m', zCMatCopy m A D = Ok (Some m') /\ mholds m D (fun i j => mel m A i j) m') /\
    mholds m D (fun _ _ => RtoC 0) (zCMatZero m D).
  Proof.
    intros E1 E2 E3 E4 PA PB. pose proof (one_ahead A D E1 E2 PA) as HA. pose proof (one_ahead B D E3 E4 PB) as HB.
    assert (same A D = true) as SD by (unfold same; rewrite E1, E2, !Nat.eqb_refl; auto).
    assert (same A B = true) as SB by (unfold same; rewrite E1, E2, E3, E4, !Nat.eqb_refl; auto).
    unfold zCMatAdd, zCMatSub, zCMatRev, zCMatMul, zCMatDiv, zCMatCopy, zCMatCopyNC. rewrite SD, SB. cbn [andb].
    conjs; [| | | |intros Ht Hk| |]; try (eexists; split; [reflexivity|]).
    - eapply vstored_m; [apply zCVecAddNC_ok; auto|]. intros i j Hi Hj. unfold mel. rewrite E2, E4, !Nat.add_assoc. auto.
    - eapply vstored_m; [apply zCVecSubNC_ok; auto|]. intros i j Hi Hj. unfold mel. rewrite E2, E4, !Nat.add_assoc. auto.
    - eapply vstored_m; [apply zCVecRevNC_ok; auto|]. intros i j Hi Hj. unfold mel. rewrite E2, !Nat.add_assoc. auto.
    - eapply vstored_m; [apply zCVecMulNC_ok; auto|]. intros i j Hi Hj. unfold mel. rewrite E2, !Nat.add_assoc. auto.
    - rewrite is_tol_R. destruct (Rleb_spec (Rabs k) tol); [lra|]. eexists; split; [reflexivity|].
      eapply vstored_m; [apply zCVecDivNC_ok; auto|]. { intros ->. rewrite Rabs_R0 in *. lra. }
      intros i j Hi Hj. unfold mel. rewrite E2, !Nat.add_assoc. auto.
    - assert (cnt A = cnt D) as EC by (unfold cnt; congruence). rewrite EC, Nat.leb_refl. cbn [rmap]. eexists; split; [reflexivity|].
      eapply vstored_m; [apply zCVecCopyNC_ok; auto|]. intros i j Hi Hj. unfold mel. rewrite E2, !Nat.add_assoc. auto.
    - eapply vstored_m; [apply zCVecZero_ok|]. auto.
  Qed.
  Theorem C118_rejects A B D k z :
    (mr A <> mr D \/ mc A <> mc D ->
       zCMatAdd m A B D = None /\ zCMatSub m A B D = None /\ zCMatRev m A D = None /\ zCMatMul m A k D = None /\
       zCMatDiv tol m A k D = None /\ zCMatCMul m A z D = None /\ zCMatCDiv tol m A z D = None /\ zCMatCopy m A D = Ok None) /\
    (mr A <> mr B \/ mc A <> mc B -> zCMatAdd m A B D = None /\ zCMatSub m A B D = None) /\
    (Rabs k <= tol -> zCMatDiv tol m A k D = None) /\
    (Rabs (fst (m z)) <= tol -> Rabs (snd (m z)) <= tol -> zCMatCDiv tol m A z D = None).
  Proof.
    assert (forall X Y, mr X <> mr Y \/ mc X <> mc Y -> same X Y = false) as SF.
    { intros X Y H. unfold same. apply Bool.andb_false_iff. destruct H; [left|right]; now apply Nat.eqb_neq. }
    unfold zCMatAdd, zCMatSub, zCMatRev, zCMatMul, zCMatDiv, zCMatCMul, zCMatCDiv, zCMatCopy, cistol. conjs.
    - intros H. rewrite (SF A D H), Bool.andb_false_r. conjs; auto.
    - intros H. rewrite (SF A B H). auto.
    - intros H. rewrite is_tol_R. destruct (Rleb_spec (Rabs k) tol); [|lra]. now destruct (same A D).
    - intros H1 H2. rewrite !is_tol_R. destruct (Rleb_spec (Rabs (fst (m z))) tol), (Rleb_spec (Rabs (snd (m z))) tol); try lra. now destruct (same A D).
  Qed.
  (** complex multiples and quotients: into another matrix, the factor not an element of it, the divisor not small *)
  Theorem C118_scaling_partial A z D : mr A = mr D -> mc A = mc D -> apart A D -> ~ (mb D <= z < mb D + mr D * mc D)%nat ->
    (exists m', zCMatCMul m A z D = Some m' /\ mholds m D (fun i j => Cmult (mel m A i j) (m z)) m') /\
    (0 <= tol < 1 -> tol < Cmod (m z) * Cmod (m z) -> tol < Rabs (fst (m z)) \/ tol < Rabs (snd (m z)) ->
     exists m', zCMatCDiv tol m A z D = Some m' /\ mholds m D (fun i j => Cdiv (mel m A i j) (m z)) m').
  Proof.
    intros E1 E2 P HZ. assert (same A D = true) as SD by (unfold same; rewrite E1, E2, !Nat.eqb_refl; auto).
    assert (ahead1 (mb D) (mb A) (cnt D) \/ cnt D = 0%nat) as [HA|N].
    { destruct (Nat.eq_dec (mr D * mc D) 0); [right; auto|left; apply apart_ahead1; auto]. }
    2:{ unfold zCMatCMul, zCMatCDiv, zCMatCMulNC, zCMatCDivNC, zCVecCMulNC, zCVecCDivNC, cvloop, cistol. rewrite SD, N, !is_tol_R. cbn [List.seq fold_left].
      assert (forall F, mholds m D F m) as HN. { intros F. split; auto. intros i j Hi Hj. unfold cnt in N. nia. }
      split; [exists m; auto|]. intros _ _ H. exists m. split; auto.
      destruct (Rleb_spec (Rabs (fst (m z))) tol), (Rleb_spec (Rabs (snd (m z))) tol); auto; lra. }
    unfold zCMatCMul, zCMatCDiv, cistol. rewrite SD, !is_tol_R. split.
    - eexists; split; [reflexivity|]. eapply vstored_m; [apply zCVecCMulNC_ok; auto|].
      + unfold outside, cnt. lia.
      + intros i j Hi Hj. unfold mel. rewrite E2, !Nat.add_assoc. auto.
    - intros Ht Hz H.
      destruct (Rleb_spec (Rabs (fst (m z))) tol), (Rleb_spec (Rabs (snd (m z))) tol); cbn [andb]; try lra;
      (eexists; split; [reflexivity|]; eapply vstored_m; [apply zCVecCDivNC_ok; auto; lra|]; intros i j Hi Hj; unfold mel; rewrite E2, !Nat.add_assoc; auto).
  Qed.
  (** rows and columns *)
  Theorem C118_rows_columns A v : mv_apart A v ->
    (mc A = vn v -> forall i, (i < mr A)%nat ->
       (exists m', zCMatGetRow m A (Z.of_nat i) v = Ok (Some m') /\ vholds m v (fun j => mel m A i j) m') /\
       (exists m', zCMatPutRow m A (Z.of_nat i) v = Ok (Some m') /\
          mholds m A (fun r j => if (r =? i)%nat then vel m v j else mel m A r j) m')) /\
    (mr A = vn v -> forall j, (j < mc A)%nat ->
       (exists m', zCMatGetCol m A (Z.of_nat j) v = Ok (Some m') /\ vholds m v (fun i => mel m A i j) m') /\
       (exists m', zCMatPutCol m A (Z.of_nat j) v = Ok (Some m') /\
          mholds m A (fun i c => if (c =? j)%nat then vel m v i else mel m A i c) m')).
  Proof.
    intros P. split; intros E i Hi; split.
    - now apply getrow_ok.
    - now apply putrow_ok.
    - now apply getcol_ok.
    - now apply putcol_ok.
  Qed.
  Theorem C118_rows_columns_rejects A v i :
    (mc A <> vn v \/ (Z.of_nat (mr A) <= i)%Z -> zCMatGetRow m A i v = Ok None /\ zCMatPutRow m A i v = Ok None) /\
    (mr A <> vn v \/ (Z.of_nat (mc A) <= i)%Z -> zCMatGetCol m A i v = Ok None /\ zCMatPutCol m A i v = Ok None).
  Proof.
    unfold zCMatGetRow, zCMatPutRow, zCMatGetCol, zCMatPutCol.
    split; intros [H|H]; rewrite ?(proj2 (Nat.eqb_neq _ _) H), ?(proj2 (Z.leb_le _ _) H); cbn [negb]; auto; destruct (_ =? _)%nat; auto.
  Qed.
  (** the product with a vector that is neither the argument nor in the matrix *)
  Theorem C118_product_partial A v1 v :
    (mc A = vn v1 -> mr A = vn v -> mv_apart A v -> vv_apart v1 v ->
      exists m', zCMulMatVec m A v1 v = Ok (Some m') /\ vholds m v (fun i => csum (mc A) (fun j => Cmult (mel m A i j) (vel m v1 j))) m') /\
    (mc A <> vn v1 \/ mr A <> vn v -> zCMulMatVec m A v1 v = Ok None).
  Proof.
    unfold zCMulMatVec. split.
    - intros E1 E2 P1 P2. destruct (mulmv_ok m A v1 v) as (m' & E & H); auto; [lia|]. exists m'. rewrite E, E1, E2, !Nat.eqb_refl. rewrite E1 in H. auto.
    - intros [X|X]; rewrite (proj2 (Nat.eqb_neq _ _) X); auto. now rewrite Bool.andb_false_r.
  Qed.
  (** conversions *)
  Theorem C118_from_real_partial (M : rmat) (F : nat -> nat -> R) D : rr M = mr D -> rc M = mc D -> rcap M = rc M ->
    (forall i j, (i < rr M)%nat -> (j < rc M)%nat -> relem M i j = Some (F i j)) ->
    exists m', zMatToCMat m M D = Ok m' /\ mholds m D (fun i j => RtoC (F i j)) m'.
  Proof.
    intros E1 E2 E3 HF. unfold zMatToCMat, relem in *. rewrite E1, E2 in *. rewrite E3 in HF.
    set (f := fun i => F (i / mc D)%nat (i mod mc D)%nat).
    assert (forall i, (i < mr D * mc D)%nat -> nth_error (rbuf M) i = Some (f i)) as Hf.
    { intros i Hi. unfold f. assert (mc D <> 0)%nat by nia. rewrite <- HF.
      - f_equal. pose proof (Nat.div_mod i (mc D)). nia.
      - apply Nat.div_lt_upper_bound; nia.
      - now apply Nat.mod_upper_bound. }
    destruct (conv_ok m (rbuf M) (mr D * mc D) (mb D) f) with (g := fun i x m => if (i <? cnt D)%nat then Ok (create m (mb D + i) (fun _ => x) (fun _ => 0%S)) else UB) as (m' & E & V); auto.
    - destruct (Nat.le_gt_cases (mr D * mc D) (length (rbuf M))) as [|L]; auto. exfalso.
      pose proof (Hf (length (rbuf M)) L) as N. assert (nth_error (rbuf M) (length (rbuf M)) = None) by (now apply nth_error_None). congruence.
    - intros i m' x Hi. unfold cnt. now rewrite (proj2 (Nat.ltb_lt _ _) Hi).
    - exists m'. split; auto. eapply vstored_m; [exact V|]. intros i j Hi Hj. cbv beta. unfold f.
      rewrite Nat.div_add_l by lia. rewrite (Nat.div_small j), Nat.add_0_r by lia. rewrite (Nat.add_comm (i * mc D)), Nat.mod_add, Nat.mod_small by lia. auto.
  Qed.
  Theorem C118_vector_conversions (r : list R) v d n :
    (length r = vn v -> exists m', zVecToCVec m r v = Ok (Some m') /\ vholds m v (fun i => RtoC (nth i r 0)) m') /\
    (length r <> vn v -> zVecToCVec m r v = Ok None) /\
    (n = vn v -> zCVecToReVec m v n = Some (map (fun i => Re (vel m v i)) (List.seq 0 n)) /\ zCVecToImVec m v n = Some (map (fun i => Im (vel m v i)) (List.seq 0 n))) /\
    (n <> vn v -> zCVecToReVec m v n = None /\ zCVecToImVec m v n = None) /\
    (vn v = vn d -> v = d \/ vv_apart v d -> exists m', zCVecCopy m v d = Some m' /\ vholds m d (vel m v) m') /\
    (vn v <> vn d -> zCVecCopy m v d = None).
  Proof.
    unfold zVecToCVec, zCVecToReVec, zCVecToImVec, zCVecCopy. conjs.
    - intros E. rewrite E, Nat.eqb_refl. cbn [negb].
      destruct (conv_ok m r (vn v) (vb v) (fun i => nth i r 0)) with (g := fun i x m => Ok (create m (vb v + i) (fun _ : cmem R => x) (fun _ => 0%S))) as (m' & E' & V); auto.
      + lia.
      + intros i Hi. apply nth_error_nth'. lia.
      + rewrite E'. exists m'. split; auto. eapply vstored_v; [exact V|auto|auto].
    - intros H. now rewrite (proj2 (Nat.eqb_neq _ _) H).
    - intros ->. now rewrite Nat.eqb_refl.
    - intros H. now rewrite (proj2 (Nat.eqb_neq _ _) H).
    - intros E H. rewrite E, Nat.eqb_refl. eexists; split; [reflexivity|]. eapply vstored_v; [apply zCVecCopyNC_ok|auto|auto].
      unfold ahead. destruct H as [->|H]; [lia|]. unfold vv_apart, disjoint in H. lia.
    - intros H. now rewrite (proj2 (Nat.eqb_neq _ _) H).
  Qed.
  (** tests *)
  Theorem C118_tests t A v w (a : list C) c :
    (zCMatIsTol t m A = true <-> forall i j, (i < mr A)%nat -> (j < mc A)%nat -> Rabs (Re (mel m A i j)) <= t /\ Rabs (Im (mel m A i j)) <= t) /\
    (zCVecIsTol t m v = true <-> forall i, (i < vn v)%nat -> Rabs (Re (vel m v i)) <= t /\ Rabs (Im (vel m v i)) <= t) /\
    (zCVecEqual t m v w = true <-> vn v = vn w /\ forall i, (i < vn v)%nat -> near t (Re (vel m v i)) (Re (vel m w i)) /\ near t (Im (vel m v i)) (Im (vel m w i))) /\
    (zComplexValIsIncluded t a c = true <-> exists x, In x a /\ near t (Re x) (Re c) /\ near t (Im x) (Im c)).
  Proof.
    assert (forall z : C, cistol t z = true <-> Rabs (Re z) <= t /\ Rabs (Im z) <= t) as HT.
    { intros z. unfold cistol. rewrite Bool.andb_true_iff, !is_tol_R. unfold Re, Im.
      destruct (Rleb_spec (Rabs (fst z)) t), (Rleb_spec (Rabs (snd z)) t); split; intros (H1 & H2); auto; try discriminate; try lra. }
    assert (forall x y : C, cequal t x y = true <-> near t (Re x) (Re y) /\ near t (Im x) (Im y)) as HE.
    { intros x y. unfold cequal. now rewrite Bool.andb_true_iff, !zEqual_R. }
    unfold zCMatIsTol, zCVecIsTol, zCVecEqual, zComplexValIsIncluded. conjs.
    - rewrite forallb_forall. split.
      + intros H i j Hi Hj. apply HT. unfold mel. rewrite <- Nat.add_assoc. apply H. apply in_seq. pose proof (ix_lt _ _ i j Hi Hj). unfold cnt. lia.
      + intros H k Hk. apply in_seq in Hk. unfold cnt in Hk. apply HT. assert (mc A <> 0)%nat by nia.
        pose proof (Nat.div_mod k (mc A)) as DM. pose proof (Nat.mod_upper_bound k (mc A)). assert (k / mc A < mr A)%nat by (apply Nat.div_lt_upper_bound; nia).
        specialize (H (k / mc A)%nat (k mod mc A)%nat). unfold mel in H. replace (mb A + k / mc A * mc A + k mod mc A)%nat with (mb A + k)%nat in H by nia. auto.
    - rewrite forallb_forall. split; intros H i Hi.
      + apply HT. apply H. apply in_seq. lia.
      + apply HT. apply H. apply in_seq in Hi. lia.
    - rewrite Bool.andb_true_iff, Nat.eqb_eq, forallb_forall. split; intros (E & H); split; auto; intros i Hi; apply HE; apply H.
      + apply in_seq. lia.
      + apply in_seq in Hi. lia.
    - rewrite existsb_exists. split; intros (x & H1 & H2); exists x; split; auto; apply HE; auto.
  Qed.
  (** norms *)
  Theorem C118_norm v : zCVecSqrNorm m v = rsum (vn v) (fun i => Cmod (vel m v i) * Cmod (vel m v i)).
  Proof.
    unfold zCVecSqrNorm. rewrite zCVecInnerProd_ok.
    assert (csum (vn v) (fun i => Cmult (m (vb v + i)%nat) (Cconj (m (vb v + i)%nat))) = RtoC (rsum (vn v) (fun i => Cmod (vel m v i) * Cmod (vel m v i)))) as ->.
    { induction (vn v) as [|n IH]; auto. cbn [csum rsum]. rewrite IH, RtoC_plus. f_equal.
      unfold vel. rewrite <- sqrabs_Cmod. unfold sqrabs. ceq; rs; ring. }
    assert (0 <= rsum (vn v) (fun i => Cmod (vel m v i) * Cmod (vel m v i))) as H by (apply rsum_nonneg; intros; apply Rle_0_sqr).
    unfold sqrabs. cbn [fst snd RtoC]. rs. rewrite Rmult_0_r, Rplus_0_r. now apply sqrt_square.
  Qed.
  Theorem C118_normalise_partial v d : vn v = vn d -> v = d \/ vv_apart v d -> 0 <= tol ->
    let r := sqrt (rsum (vn v) (fun i => Cmod (vel m v i) * Cmod (vel m v i))) in
    (r <= tol -> zCVecNormalize tol m v d = Ok None) /\
    (tol < r -> exists m', zCVecNormalize tol m v d = Ok (Some m') /\ vholds m d (fun i => Cdiv (vel m v i) (RtoC r)) m' /\
       rsum (vn d) (fun i => Cmod (vel m' d i) * Cmod (vel m' d i)) = 1).
  Proof.
    intros E P Ht r. unfold zCVecNormalize. rewrite C118_norm. cbv zeta. rewrite is_tol_R. rs. fold r. assert (0 <= r) by apply sqrt_pos.
    destruct (Rleb_spec (Rabs r) tol) as [L|L]; rewrite Rabs_pos_eq in L by auto; split; intros Hr; auto; try lra.
    rewrite E, Nat.leb_refl. eexists; split; [reflexivity|].
    match goal with |- vholds _ _ _ ?M /\ _ => assert (vholds m d (fun i => Cdiv (vel m v i) (RtoC r)) M) as V end.
    { eapply vstored_v; [apply zCVecMulNC_ok|auto|].
      - unfold ahead. destruct P as [->|P]; [lia|]. unfold vv_apart, disjoint in P. lia.
      - intros i Hi. cbv beta. unfold Cdiv. rewrite <- RtoC_inv by lra. unfold vel. do 2 f_equal. field. lra. }
    split; auto. destruct V as (V & _).
    rewrite (rsum_ext (vn d) _ (fun i => / (r * r) * (Cmod (vel m v i) * Cmod (vel m v i)))).
    - rewrite rsum_scal. rewrite <- E. unfold r. rewrite sqrt_sqrt; [|apply rsum_nonneg; intros; apply Rle_0_sqr].
      apply Rinv_l. intros Z. unfold r in Hr. rewrite Z, sqrt_0 in Hr. lra.
    - intros i Hi. rewrite V by auto. rewrite Cmod_div by (intros Z; apply RtoC_inj in Z; lra). rewrite Cmod_R, (Rabs_pos_eq r) by auto. field. lra.
  Qed.
End C118.

(** ** what the code does not do *)
(** a negative index is not rejected *)
Theorem C118_negative_index_refuted : exists (A : cmat) v, mc A = vn v /\ mr A = vn v /\ mv_apart A v /\ forall m : cmem R,
  zCMatGetRow m A (-1) v = UB /\ zCMatGetCol m A (-1) v = UB /\ zCMatPutRow m A (-1) v = UB /\ zCMatPutCol m A (-1) v = UB.
Proof. exists (CM 0 2 2), (CV 4 2). repeat split; auto. left. cbn. lia. Qed.
(** the sizes are not compared when a real matrix is converted *)
Theorem C118_convert_size_refuted : exists (M : rmat (T := R)) D, (rr M, rc M) <> (mr D, mc D) /\ forall m, zMatToCMat m M D = UB.
Proof. exists (RM [1; 2] 1 2 2), (CM 0 1 1). split; [intros E; discriminate E|]. reflexivity. Qed.
(** and the capacity of the rows of a resized matrix is ignored *)
Theorem C118_convert_capacity_refuted : exists (M : rmat (T := R)) D, rr M = mr D /\ rc M = mc D /\ (rc M <= rcap M)%nat /\ relem M 1 0 = Some 3 /\
  forall m, exists m', zMatToCMat m M D = Ok m' /\ mel m' D 1 0 = RtoC 2.
Proof.
  exists (RM [1; 2; 3; 4] 2 1 2), (CM 0 2 1). conjs; auto; [cbn; lia|]. intros m. eexists. split; reflexivity.
Qed.
(** the vector multiplied by a matrix in place *)
Theorem C118_product_alias_refuted : exists (m : cmem R) A v, mc A = vn v /\ mr A = vn v /\ mv_apart A v /\ exists m',
  zCMulMatVec m A v v = Ok (Some m') /\ vel m' v 0 <> csum (mc A) (fun j => Cmult (mel m A 0 j) (vel m v j)).
Proof.
  exists (fun _ => RtoC 1), (CM 0 1 1), (CV 1 1). repeat split; auto; [left; cbn; lia|]. eexists. split; [reflexivity|].
  cbn. rs. intros E. injection E. lra.
Qed.
(** a matrix multiplied by a complex number in place *)
Theorem C118_scaling_in_place_refuted : exists (m : cmem R) A z, (z < mb A)%nat /\ exists m',
  zCMatCMul m A z A = Some m' /\ mel m' A 0 0 <> Cmult (mel m A 0 0) (m z).
Proof.
  exists (fun _ => (1, 1)), (CM 1 1 1), 0%nat. split; [cbn; lia|]. eexists. split; [reflexivity|].
  cbn. rs. intros E. injection E. lra.
Qed.
(** a divisor that passes the check while its square does not: the product with the conjugate is returned *)
Theorem C118_quotient_refuted : exists tol (m : cmem R) A z D, 0 < tol /\ apart A D /\ tol < Rabs (fst (m z)) /\ exists m',
  zCMatCDiv tol m A z D = Some m' /\ mel m' D 0 0 = Cmult (mel m A 0 0) (Cconj (m z)) /\ mel m' D 0 0 <> Cdiv (mel m A 0 0) (m z).
Proof.
  assert (Rabs (1/2) = 1/2) as A1 by (apply Rabs_pos_eq; lra). assert (Rabs (1/4) = 1/4) as A2 by (apply Rabs_pos_eq; lra).
  exists (1/3), (fun k => if (k =? 0)%nat then (1/2, 0) else RtoC 1), (CM 1 1 1), 0%nat, (CM 2 1 1).
  split; [lra|]. split; [left; cbn; lia|]. split; [cbn; rewrite A1; lra|].
  unfold zCMatCDiv, zCMatCDivNC, zCVecCDivNC, cistol, sqrabs. cbn [same mr mc mb Nat.eqb andb fst snd]. rewrite !is_tol_R. rs.
  rewrite A1. destruct (Rleb_spec (1/2) (1/3)); [lra|]. cbn [andb].
  replace (1 / 2 * (1 / 2) + 0 * 0) with (1/4) by field. rewrite A2. destruct (Rleb_spec (1/4) (1/3)); [|lra].
  eexists. split; [reflexivity|]. unfold mel, cvloop, cnt, create, wr_re, wr_im, RtoC. cbn. split.
  - rs. unfold Cmult, Cconj. cbn. f_equal; ring.
  - rs. intros E. apply (f_equal fst) in E. cbn in E. revert E.
    match goal with |- ?x = ?y -> _ => assert (x = 1/2) as -> by field; assert (y = 2) as -> by field end. lra.
Qed.
(** normalisation into a longer vector *)
Theorem C118_normalise_size_refuted : exists tol (m : cmem R) v d, 0 < tol /\ vv_apart v d /\ zCVecNormalize tol m v d = UB.
Proof.
  exists (1/2), (fun _ => RtoC 1), (CV 0 1), (CV 1 2). split; [lra|]. split; [left; cbn; lia|].
  unfold zCVecNormalize. cbv zeta. rewrite C118_norm, is_tol_R.
  assert (rsum 1 (fun i => Cmod (vel (fun _ => RtoC 1) (CV 0 1) i) * Cmod (vel (fun _ => RtoC 1) (CV 0 1) i)) = 1) as E.
  { cbn [rsum]. unfold vel. rewrite Cmod_R, Rabs_R1. ring. }
  cbn [vn]. rewrite E. rs. rewrite sqrt_1, Rabs_R1. destruct (Rleb_spec 1 (1/2)); [lra|]. reflexivity.
Qed.

(** ** cases *)
Example C118_case : let A := CM 0 2 2 in let D := CM 4 2 2 in let v := CV 8 2 in
  one_or_apart A D /\ one_or_apart D D /\ apart A D /\ mv_apart A v /\ vv_apart (CV 10 2) v.
Proof. unfold one_or_apart, apart, mv_apart, vv_apart, disjoint. cbn. conjs; try (left; lia); auto. Qed.
Example C118_quotient_case : let z : C := (3, 4) in 1 < Cmod z * Cmod z /\ 1 < Rabs (fst z).
Proof. cbv zeta. rewrite <- sqrabs_Cmod. unfold sqrabs. cbn. rs. rewrite Rabs_pos_eq; lra. Qed.

Print Assumptions C118_elementwise.
Print Assumptions C118_rejects.
Print Assumptions C118_scaling_partial.
Print Assumptions C118_rows_columns.
Print Assumptions C118_product_partial.
Print Assumptions C118_from_real_partial.
Print Assumptions C118_vector_conversions.
Print Assumptions C118_tests.
Print Assumptions C118_normalise_partial.
