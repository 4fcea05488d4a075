(** C116 (principal component analysis) and C117 (vectors of a normal distribution). *)
From Coq Require Import Reals Lra Lia Psatz PrimFloat Uint63.
From Verif Require Import Prelude Prelude_Proofs Scalar RealLib Fmat Fmat_Proofs LE_Model LE_Proofs LE9_Proofs LE_Spec IP_Model Vop Qp_Proofs Stat_Model Stat_Proofs Stat2_Proofs Stat_Props
  Eig_Model Eig_Spec Eig_Props Pca_Model Pca_Spec Pca_Proofs.
From Verif Require LE_Spec.
Local Open Scope R_scope.

Lemma over_lsum {A} (l : list A) f : over l f = lsum f l.
Proof. reflexivity. Qed.
Lemma nth_to_list (v : fvec R) i : (i < vlen v)%nat -> nth i (to_list v) 0 = vel v i.
Proof. intros H. unfold to_list. rewrite (nth_indep _ 0 (vel v 0)) by (now rewrite map_length, seq_length). rewrite map_nth, seq_nth by auto. reflexivity. Qed.
Lemma count_ok cr (score : fvec R) s : vlen score = s -> (0 < s)%nat -> exists n, pca_count cr score s = Ok n /\ (n <= s)%nat /\
  (forall k, (0 < k <= n)%nat -> rsum k (vel score) <= cr * rsum s (vel score)) /\
  ((n < s)%nat -> cr * rsum s (vel score) < rsum (S n) (vel score)).
Proof.
  intros L Hs. unfold pca_count. rewrite zDataSum_ok by (unfold to_list; rewrite map_length, seq_length; auto). cbn [bind].
  rewrite (rsum_ext (vlen score) _ (vel score)) by (intros; now apply nth_to_list). rewrite L. cbv zeta.
  match goal with |- context [forb 0 s ?f ?s00] => destruct (forb_inv (fun k x => x = rsum k (vel score) /\ forall j, (0 < j <= k)%nat -> rsum j (vel score) <= cr * rsum s (vel score))
    (fun n => (n < s)%nat /\ (forall j, (0 < j <= n)%nat -> rsum j (vel score) <= cr * rsum s (vel score)) /\ cr * rsum s (vel score) < rsum (S n) (vel score)) 0 s f s00) as (o & E & H) end.
  - lia.
  - split; [reflexivity|]. intros; lia.
  - intros k x Hk (-> & Q). rewrite vget_ok by lia. cbn [bind]. cbn [slt RealS]. destruct (Rltb_spec (smul cr (rsum s (vel score))) (sadd (rsum k (vel score)) (vel score k))) as [B|B]; eexists; (split; [reflexivity|]).
    + rs. conjs; auto; try lia.
    + rs. split; [reflexivity|]. intros j Hj. destruct (Nat.eq_dec j (S k)) as [->|]; [|apply Q; lia]. cbn [rsum]. lra.
  - rewrite E. cbn [bind]. destruct o as [x|n]; eexists; (split; [reflexivity|]).
    + destruct H as (_ & H). conjs; auto; try lia.
    + destruct H as (H1 & H2 & H3). conjs; auto; lia.
Qed.

Lemma ortho_norm m (V : nat -> nat -> R) (c : nat -> R) : orthonormal_cols m m V ->
  rsum m (fun i => rsum m (fun j => V i j * c j) ^ 2) = rsum m (fun j => c j ^ 2).
Proof.
  intros O. rewrite (rsum_ext m _ (fun i => rsum m (fun j => rsum m (fun k => c j * c k * (V i j * V i k))))).
  2:{ intros i Hi. replace (rsum m (fun j => V i j * c j) ^ 2) with (rsum m (fun j => V i j * c j) * rsum m (fun j => V i j * c j)) by ring.
      rewrite <- rsum_scal_r. apply rsum_ext. intros j Hj. rewrite <- rsum_scal. apply rsum_ext. intros; ring. }
  rewrite rsum_swap. apply rsum_ext. intros j Hj. rewrite rsum_swap. rewrite (rsum_delta m j); auto.
  - rewrite rsum_scal. specialize (O j j Hj Hj). unfold cdot, delta in O. rewrite Nat.eqb_refl in O. rewrite O. ring.
  - intros k Hk N. rewrite rsum_scal. specialize (O j k Hj Hk). unfold cdot, delta in O. rewrite (proj2 (Nat.eqb_neq j k)) in O by auto. rewrite O. ring.
Qed.
Lemma ortho_back m (V : nat -> nat -> R) (x : nat -> R) i : (i < m)%nat -> orthonormal_rows m m V ->
  rsum m (fun j => V i j * rsum m (fun r => V r j * x r)) = x i.
Proof.
  intros Hi O. rewrite (rsum_ext m _ (fun j => rsum m (fun r => x r * (V i j * V r j)))) by (intros j Hj; rewrite <- rsum_scal; apply rsum_ext; intros; ring).
  rewrite rsum_swap. rewrite (rsum_delta m i); auto.
  - rewrite rsum_scal. specialize (O i i Hi Hi). unfold rdot, delta in O. rewrite Nat.eqb_refl in O. rewrite O. ring.
  - intros r Hr N. rewrite rsum_scal. specialize (O i r Hi Hr). unfold rdot, delta in O. rewrite (proj2 (Nat.eqb_neq i r)) in O by auto. rewrite O. ring.
Qed.
Lemma vtav_proj m (V C : nat -> nat -> R) (mu : nat -> R) (l : list (fvec R)) i j :
  (forall a b, (a < m)%nat -> (b < m)%nat -> C a b = lsum (fun x => (vel x a - mu a) * (vel x b - mu b)) l / INR (length l)) ->
  vtav m C V i j = average l (fun p => proj m V mu p i * proj m V mu p j).
Proof.
  intros HC. unfold vtav, average, proj, over. change (fold_right (fun a s => ?f a + s) 0 l) with (lsum (fun a => f a) l).
  rewrite (rsum_ext m _ (fun r => rsum m (fun k => lsum (fun p => V r i * (vel p r - mu r) * (V k j * (vel p k - mu k))) l) / INR (length l))).
  2:{ intros r Hr. rewrite <- rsum_scal. unfold Rdiv. rewrite <- rsum_scal_r. apply rsum_ext. intros k Hk. rewrite HC by auto.
      rewrite (lsum_ext (fun p => V r i * (vel p r - mu r) * (V k j * (vel p k - mu k))) (fun p => V r i * V k j * ((vel p r - mu r) * (vel p k - mu k)))) by (intros; ring). rewrite lsum_scal. unfold Rdiv. ring. }
  unfold Rdiv. rewrite rsum_scal_r. f_equal. rewrite (rsum_ext m _ (fun r => lsum (fun p => rsum m (fun k => V r i * (vel p r - mu r) * (V k j * (vel p k - mu k)))) l)) by (intros; now rewrite lsum_rsum).
  rewrite <- lsum_rsum. apply lsum_ext. intros p _. rewrite <- rsum_scal_r. apply rsum_ext. intros r Hr. now rewrite <- rsum_scal.
Qed.
Lemma lsum_sq_0 {A} (f : A -> R) l : lsum (fun a => f a * f a) l = 0 -> forall a, In a l -> f a = 0.
Proof.
  induction l as [|b l IH]; intros H a; [intros []|]. cbn in H. fold (lsum (fun a => f a * f a) l) in H.
  assert (0 <= lsum (fun a => f a * f a) l) by (apply lsum_nonneg; intros; nra). intros [<-|I]; [nra|]. apply IH; auto. nra.
Qed.

(** ** C116.  Principal components of points of dimension 2 or more that do not all have the same first two coordinates.
    - the loading is orthogonal and gives every point back from its projections on the columns;
    - each score is the variance of the points along its column, they add up to the total variance;
    - dropping the columns from k on leaves a mean squared error equal to the sum of their scores;
    - without the warning of Jacobi's method the projections on different columns are uncorrelated up to the tolerance;
    - the answer n is the least index such that the scores 0..n exceed the ratio cr of the total, the dimension if there
      is none.
    The documentation calls the answer the number of significant components: see C116_count_refuted.  Not covered: the
    case that the iteration ends with the warning, beyond what is said of it here. *)
Theorem C116_pca_partial tol maxit (points : list (fvec R)) m cr mean0 score0 load0 :
  0 <= tol < 1 -> (2 <= m)%nat -> (forall p, In p points -> vlen p = m) -> vlen mean0 = m -> vlen score0 = m -> nr load0 = m -> nc load0 = m ->
  (exists p q, In p points /\ In q points /\ (vel p 0 <> vel q 0 \/ vel p 1 <> vel q 1)) ->
  exists mu sc V warned n, zVecListPCA tol maxit points cr mean0 score0 load0 = Ok (mu, Some (sc, V, warned, n)) /\
    vlen mu = m /\ vlen sc = m /\ nr V = m /\ nc V = m /\
    (forall i, vel mu i = average points (fun p => vel p i)) /\
    orthogonal m (el V) /\
    (forall p i, (i < m)%nat -> vel p i - vel mu i = rsum m (fun j => el V i j * proj m (el V) (vel mu) p j)) /\
    (forall j, (j < m)%nat -> vel sc j = average points (fun p => proj m (el V) (vel mu) p j ^ 2)) /\
    rsum m (vel sc) = average points (fun p => rsum m (fun i => (vel p i - vel mu i) ^ 2)) /\
    (forall k, (k <= m)%nat -> average points (fun p => rsum m (fun i => (vel p i - vel mu i - rsum k (fun j => el V i j * proj m (el V) (vel mu) p j)) ^ 2))
       = rsum m (vel sc) - rsum k (vel sc)) /\
    (warned = false -> forall i j, (i < m)%nat -> (j < m)%nat -> i <> j ->
       Rabs (average points (fun p => proj m (el V) (vel mu) p i * proj m (el V) (vel mu) p j)) <= tol) /\
    (n <= m)%nat /\ (forall k, (0 < k <= n)%nat -> rsum k (vel sc) <= cr * rsum m (vel sc)) /\
    ((n < m)%nat -> cr * rsum m (vel sc) < rsum (S n) (vel sc)).
Proof.
  intros HT Hm SZ L0 L1 R1 C1 (p0 & q0 & Ip & Iq & Hpq).
  assert (NE : points <> []) by (intros ->; destruct Ip).
  assert (HD : exists hd r, rev points = hd :: r /\ vlen hd = m).
  { destruct (rev points) as [|hd r] eqn:E; [apply (f_equal (@rev _)) in E; rewrite rev_involutive in E; cbn in E; congruence|].
    exists hd, r. split; auto. apply SZ. apply in_rev. rewrite E. now left. }
  destruct HD as (hd & r & Erev & Lhd). unfold zVecListPCA. rewrite Erev. cbv zeta. rewrite Lhd. replace (m =? 0)%nat with false by nbp.
  destruct (C52_vectors tol points m mean0 (zmat m m)) as (mu & v & cov & EV & EC & Lmu & Rc & Cc & Hmu & Hv & Hcov); auto.
  destruct (C52_covariance tol points m mean0 (zmat m m) mu v cov) as (SY & _ & TR & _); auto.
  rewrite EC. cbn [bind].
  assert (NP : 0 < INR (length points)) by (apply INR_pos; destruct points; [congruence|cbn; lia]).
  destruct (C58_jacobi_partial m maxit tol cov load0 score0) as (e & V & w & EJ & Le & RV & CV & OV & HE & HS & _ & HW & _ & _); auto; try lra.
  { assert (Z : forall i, (i < m)%nat -> el cov i i = 0 -> vel p0 i = vel q0 i).
    { intros i Hi Z. rewrite Hcov in Z by auto. assert (Z' : lsum (fun x => (vel x i - vel mu i) * (vel x i - vel mu i)) points = 0).
      { apply (f_equal (fun z => z * INR (length points))) in Z. unfold Rdiv in Z. rewrite Rmult_assoc, Rinv_l, Rmult_1_r in Z by lra. rewrite Z. ring. }
      pose proof (lsum_sq_0 (fun x => vel x i - vel mu i) points Z') as Q. pose proof (Q p0 Ip). pose proof (Q q0 Iq). cbv beta in *. lra. }
    destruct Hpq as [N|N]; [left|right; right]; intros Q; apply N, Z; auto; lia. }
  rewrite EJ. cbn [bind]. destruct (count_ok cr e m Le) as (n & EN & N1 & N2 & N3); try lia. rewrite EN. cbn [bind].
  assert (SC : forall j, (j < m)%nat -> vel e j = average points (fun p => proj m (el V) (vel mu) p j ^ 2)).
  { intros j Hj. rewrite HE by auto. rewrite (vtav_proj m (el V) (el cov) (vel mu) points) by auto. unfold average. f_equal. rewrite !over_lsum. apply lsum_ext. intros; ring. }
  assert (BK : forall p i, (i < m)%nat -> vel p i - vel mu i = rsum m (fun j => el V i j * proj m (el V) (vel mu) p j)).
  { intros p i Hi. unfold proj. rewrite (ortho_back m (el V) (fun r => vel p r - vel mu r)); auto. apply OV. }
  assert (ER : forall k, (k <= m)%nat -> average points (fun p => rsum m (fun i => (vel p i - vel mu i - rsum k (fun j => el V i j * proj m (el V) (vel mu) p j)) ^ 2))
       = rsum m (vel e) - rsum k (vel e)).
  { intros k Hk. assert (T : forall f : nat -> R, rsum m (fun j => if (j <? k)%nat then 0 else f j) = rsum m f - rsum k f).
    { intros f. replace m with (k + (m - k))%nat by lia. rewrite !rsum_app. rewrite (rsum_0 k (fun j => if (j <? k)%nat then 0 else f j)) by (intros; nbp).
      rewrite (rsum_ext (m - k) _ (fun i => f (k + i)%nat)) by (intros; nbp). lra. }
    rewrite <- T. rewrite (rsum_ext m _ (fun j => average points (fun p => if (j <? k)%nat then 0 else proj m (el V) (vel mu) p j ^ 2))).
    2:{ intros j Hj. destruct (Nat.ltb_spec j k); [|auto]. unfold average. rewrite over_lsum. replace (lsum (fun _ => 0) points) with 0; [unfold Rdiv; ring|].
        clear. induction points; cbn; auto. fold (lsum (fun _ : fvec R => 0) points). lra. }
    unfold average, Rdiv. rewrite rsum_scal_r. f_equal. rewrite over_lsum.
    rewrite (rsum_ext m _ (fun j => lsum (fun p => if (j <? k)%nat then 0 else proj m (el V) (vel mu) p j ^ 2) points)) by reflexivity. rewrite <- lsum_rsum. apply lsum_ext. intros p _.
    rewrite (rsum_ext m (fun i => if (i <? k)%nat then 0 else proj m (el V) (vel mu) p i ^ 2) (fun i => (if (i <? k)%nat then 0 else proj m (el V) (vel mu) p i) ^ 2)) by (intros i Hi; destruct (i <? k)%nat; ring).
    rewrite <- (ortho_norm m (el V) (fun i => if (i <? k)%nat then 0 else proj m (el V) (vel mu) p i)) by apply OV. apply rsum_ext. intros i Hi. apply (f_equal (fun z => z ^ 2)). cbv beta. rewrite BK by auto. rewrite <- T. apply rsum_ext. intros j Hj. destruct (j <? k)%nat; ring. }
  exists mu, e, V, w, n. split; [reflexivity|]. conjs; auto.
  - specialize (ER 0%nat ltac:(lia)). cbn [rsum] in ER. rewrite Rminus_0_r in ER. rewrite <- ER. unfold average. f_equal. rewrite !over_lsum. apply lsum_ext. intros p _. apply rsum_ext. intros i Hi. apply (f_equal (fun z => z ^ 2)). lra.
  - intros W i j Hi Hj N. rewrite <- (vtav_proj m (el V) (el cov) (vel mu) points) by auto. apply HW; auto.
Qed.

(** points of one size m with results of another: the answer is -1 *)
Theorem C116_rejects tol maxit (points : list (fvec R)) m cr mean0 score0 load0 : 0 <= tol < 1 -> points <> [] -> (forall p, In p points -> vlen p = m) ->
  vlen mean0 <> m \/ vlen score0 <> m \/ nr load0 <> m \/ nc load0 <> m ->
  exists mu, zVecListPCA tol maxit points cr mean0 score0 load0 = Ok (mu, None).
Proof.
  intros HT NE SZ H. unfold zVecListPCA. destruct (rev points) as [|hd r] eqn:Erev.
  { apply (f_equal (@rev _)) in Erev. rewrite rev_involutive in Erev. cbn in Erev. congruence. }
  assert (Lh : vlen hd = m) by (apply SZ; apply in_rev; rewrite Erev; now left). cbv zeta. rewrite Lh. destruct (Nat.eqb_spec m 0); [eauto|].
  destruct (Nat.eq_dec (vlen mean0) m) as [Em|Em].
  - destruct (C52_vectors tol points m mean0 (zmat m m)) as (mu & v & cov & _ & EC & Lmu & Rc & Cc & _); auto. rewrite EC. cbn [bind].
    exists mu. unfold zMatSymEigJacobi. rewrite Rc, Cc, Nat.eqb_refl. cbn [negb].
    destruct (Nat.eqb_spec m (nr load0)), (Nat.eqb_spec m (nc load0)), (Nat.eqb_spec m (vlen score0)); cbn [negb andb bind]; try reflexivity. lia.
  - unfold zVecListMeanCov, zVecListMean, zVecListSum.
    destruct (foreach_inv (fun pre (s : fvec R) => vlen s = vlen mean0) (fun v sum => zVecAddC sum v sum) points [] (zVecZero mean0)) as (s' & E & A).
    + reflexivity.
    + intros pre a s Ia A. unfold zVecAddC. rewrite (SZ a Ia), A. rewrite (proj2 (Nat.eqb_neq (vlen mean0) m)) by auto. eexists. split; [reflexivity|auto].
    + rewrite E. cbn [bind]. assert (exists mu, zVecDivDRC tol s' (sofZ (Z.of_nat (length points))) = Ok mu /\ vlen mu = vlen mean0) as (mu & -> & Lmu).
      { unfold zVecDivDRC. destruct (is_tol _ _); [eauto|]. unfold zVecDivNC, vop1. rewrite Nat.leb_refl. eexists. split; [reflexivity|]. auto. }
      cbn [bind]. rewrite (C52_sizes tol points m mu (zmat m m)) by (auto; left; lia). cbn [bind]. eauto.
Qed.
(** the first component alone is 4/5 of the variance, the ratio asked for is 1/2: the answer is not 1 but 0 *)
Definition fpca (d : nat) (pts : list (list float)) (cr : float) : option (list float * nat) :=
  match zVecListPCA 1e-12%float 100 (map (vec_of 0%float) pts) cr (zvec d) (zvec d) (zmat d d) with
  | Ok (_, Some (e, _, _, n)) => Some (to_list e, n) | _ => None end.
Theorem C116_count_refuted : fpca 2 [[2; 1]; [2; -1]; [-2; 1]; [-2; -1]]%float 0.5%float = Some ([4; 1]%float, 0%nat).
Proof. vm_compute. reflexivity. Qed.
(** the components do not come in the order of their scores: both are counted to reach a half, although one is enough *)
Theorem C116_order_refuted : fpca 2 [[1; 2]; [1; -2]; [-1; 2]; [-1; -2]]%float 0.5%float = Some ([1; 4]%float, 1%nat).
Proof. vm_compute. reflexivity. Qed.
(** points which differ in the third coordinate only: the scores are not numbers *)
Theorem C116_constant_refuted : fpca 3 [[1; 1; 1]; [1; 1; 3]]%float 0.5%float = Some ([nan; nan; nan]%float, 3%nat).
Proof. vm_compute. reflexivity. Qed.
(** points of dimension one: the element (1,1) of a 1x1 matrix is read; no points: the head of an empty list is read *)
Theorem C116_one_refuted : zVecListPCA (T := R) 0 100 [vec_of 0 [1]; vec_of 0 [3]] (1 / 2) (zvec 1) (zvec 1) (zmat 1 1) = UB.
Proof.
  unfold zVecListPCA. cbn [rev app]. cbv zeta. change (vlen (vec_of 0 [3])) with 1%nat. cbn [Nat.eqb].
  destruct (C52_vectors 0 [vec_of 0 [1]; vec_of 0 [3]] 1 (zvec 1) (zmat 1 1)) as (mu & v & cov & _ & EC & Lmu & Rc & Cc & _); auto; try lra; try discriminate.
  { intros p [<-|[<-|[]]]; reflexivity. }
  rewrite EC. cbn [bind]. unfold zMatSymEigJacobi. rewrite Rc, Cc. cbn [negb Nat.eqb nr nc zmat vlen zvec andb]. unfold _zMatSymEigJacobiShift, mget.
  rewrite Rc, Cc. reflexivity.
Qed.
Theorem C116_empty_refuted {T} {ST : Scalar T} tol maxit cr mean score load : zVecListPCA (T := T) tol maxit [] cr mean score load = UB.
Proof. reflexivity. Qed.
(** the hypotheses of C116_pca_partial are met by the corners of a rectangle *)
Example C116_case : exists mu sc V w n, zVecListPCA 0 100 (map (vec_of 0) [[2; 1]; [2; -1]; [-2; 1]; [-2; -1]]) (1 / 2) (zvec 2) (zvec 2) (zmat 2 2) = Ok (mu, Some (sc, V, w, n)) /\
  rsum 2 (vel sc) = 5.
Proof.
  destruct (C116_pca_partial 0 100 (map (vec_of 0) [[2; 1]; [2; -1]; [-2; 1]; [-2; -1]]) 2 (1 / 2) (zvec 2) (zvec 2) (zmat 2 2)) as (mu & sc & V & w & n & E & H); auto; try lra.
  - intros p Ip. cbn in Ip. repeat destruct Ip as [<-|Ip]; try reflexivity. destruct Ip.
  - exists (vec_of 0 [2; 1]), (vec_of 0 [-2; 1]). split; [now left|]. split; [right; right; now left|]. left. cbn. lra.
  - exists mu, sc, V, w, n. split; [exact E|]. destruct H as (_ & _ & _ & _ & Hmu & _ & _ & _ & HT & _). rewrite HT. unfold average, over. cbn [map fold_right length rsum].
    rewrite !Hmu. unfold average, over. cbn [map fold_right length vel vec_of nth INR]. field.
Qed.

(** ** C117.  Vectors of a normal distribution.  For a symmetric positive semidefinite covariance with an element above
    twice the tolerance, each vector is the mean plus one and the same linear map of the random numbers; if these have mean
    zero, variance one and no correlation, the vectors have the mean given, and the covariance given within twice the
    tolerance (equal to it when the tolerance is zero).  The count asked for is generated, the last at the head.
    Partial: the quality of zRandND0 is not part of the model, see C89 for the support of the generators. *)
Lemma Esum {W} (E : (W -> R) -> R) : expectation E -> forall n f, E (fun w => rsum n (fun t => f t w)) = rsum n (fun t => E (f t)).
Proof.
  intros HE. induction n as [|n IH]; intros f; cbn [rsum].
  - rewrite (E_ext _ HE _ (fun _ => 0 * 1)) by (intros; ring). rewrite (E_scal _ HE 0 (fun _ => 1)). ring.
  - rewrite (E_add _ HE (fun w => rsum n (fun t => f t w)) (f n)). now rewrite IH.
Qed.
Lemma gen_ok r (b : fmat R) mean z : nr b = vlen mean -> nc b = r -> (r <= vlen mean)%nat -> exists v, gen_one b mean z = Ok v /\ vlen v = vlen mean /\
  forall i, (i < vlen mean)%nat -> vel v i = vel mean i + rsum r (fun t => el b i t * z t).
Proof.
  intros N1 N2 Hr. unfold gen_one. cbv zeta.
  match goal with |- context [for_ ?lo ?hi ?f ?v] => destruct (vec_loop v lo hi f z) as (vo & E & L & F) end; auto; try lia.
  rewrite E. cbn [bind]. cbn in L. unfold zMulMatVecNC. rewrite N1, N2, L. cbn [vlen zvec]. rewrite (proj2 (Nat.leb_le r (vlen mean))), Nat.leb_refl by auto. cbn [andb bind].
  eexists. split; [reflexivity|]. split; [reflexivity|]. intros i Hi. cbn [vel]. rewrite (proj2 (Nat.ltb_lt _ _) Hi), ksum_R. rs. rewrite Rplus_comm. f_equal.
  apply rsum_ext. intros t Hlt. rewrite F. replace ((0 <=? t) && (t <? vlen mean))%nat with true by nbp. reflexivity.
Qed.
Theorem C117_moments_partial tol m (mean : fvec R) (cov : fmat R) : 0 <= tol <= 1 -> vlen mean = m -> nr cov = m -> nc cov = m ->
  LE_Spec.symmetric m (el cov) -> LE_Spec.psd m (el cov) -> (exists r, (r < m)%nat /\ 2 * tol < el cov r r) ->
  exists (r : nat) (L : nat -> nat -> R) (G : (nat -> R) -> fvec R), (r <= m)%nat /\
    (forall n z, zVecListGenRandND tol n mean cov z = Ok (Some (rev (map (fun i => G (z i)) (List.seq 0 n))), n)) /\
    (forall z, vlen (G z) = m /\ forall i, (i < m)%nat -> vel (G z) i = vel mean i + rsum r (fun t => L i t * z t)) /\
    forall (W : Type) (E : (W -> R) -> R) (Z : W -> nat -> R), expectation E ->
      (forall j, (j < m)%nat -> E (fun w => Z w j) = 0) ->
      (forall j k, (j < m)%nat -> (k < m)%nat -> E (fun w => Z w j * Z w k) = if (j =? k)%nat then 1 else 0) ->
      (forall i, (i < m)%nat -> E (fun w => vel (G (Z w)) i) = vel mean i) /\
      (forall i j, (i < m)%nat -> (j < m)%nat ->
         Rabs (E (fun w => (vel (G (Z w)) i - vel mean i) * (vel (G (Z w)) j - vel mean j)) - el cov i j) <= 2 * tol).
Proof.
  intros HT LM R1 C1 SY PS (r0 & Hr0 & Big).
  destruct (chol_cols tol m cov (zmat m m) (List.seq 0 m)) as (l & idx & rank & EC & Rk & L1 & L2 & HL); auto using perm_seq; try lra.
  assert (RP : (0 < rank)%nat). { destruct rank; [|lia]. specialize (HL r0 r0 Hr0 Hr0). cbn [rsum] in HL. rewrite Rminus_0_r in HL. pose proof (Rle_abs (el cov r0 r0)). nra. }
  set (b := if (rank <? m)%nat then col_resize l rank else l).
  assert (B1 : nr b = m) by (unfold b; destruct (rank <? m)%nat; auto). assert (B2 : nc b = rank) by (unfold b; destruct (Nat.ltb_spec rank m); cbn; auto; lia).
  assert (B3 : forall i j, el b i j = el l i j) by (intros; unfold b; destruct (rank <? m)%nat; auto).
  set (G := fun z => match gen_one b mean z with Ok v => v | UB => mean end).
  assert (HG : forall z, gen_one b mean z = Ok (G z) /\ vlen (G z) = m /\ forall i, (i < m)%nat -> vel (G z) i = vel mean i + rsum rank (fun t => el l i t * z t)).
  { intros z. unfold G. destruct (gen_ok rank b mean z) as (v & E & Lv & Hv); try lia. rewrite E. split; auto. split; [lia|]. intros i Hi. rewrite Hv by lia. f_equal. apply rsum_ext. intros. now rewrite B3. }
  clearbody G. exists rank, (el l), G. split; auto. split; [|split].
  - intros n z. unfold zVecListGenRandND. rewrite R1, C1, LM, !Nat.eqb_refl. cbn [negb]. rewrite (proj2 (Nat.eqb_neq m 0)) by lia.
    unfold zMatDecompCholeskyAlloc, zMatDecompCholesky. cbv zeta. rewrite R1, C1, seq_length. cbn [nr nc zmat]. rewrite !Nat.eqb_refl. cbn [negb orb]. rewrite EC. cbn [bind]. fold b.
    assert (RK : exists k, rank = S k) by (exists (rank - 1)%nat; lia). destruct RK as (k & RK).
    match goal with |- context [for_ 0 n ?f ?s00] => destruct (for_inv (fun k l => l = rev (map (fun i => G (z i)) (List.seq 0 k))) 0 n f s00) as (l' & E & H) end.
    + lia.
    + reflexivity.
    + intros j l' Hj ->. destruct (HG (z j)) as (-> & _). cbn [bind]. eexists. split; [reflexivity|]. rewrite seq_S, map_app, rev_app_distr. reflexivity.
    + rewrite RK. rewrite E. cbn [bind]. now rewrite H.
  - intros z. destruct (HG z) as (_ & A & B). auto.
  - intros W E Z HE M0 M1. split.
    + intros i Hi. rewrite (E_ext _ HE _ (fun w => vel mean i * 1 + rsum rank (fun t => el l i t * Z w t))) by (intros w; destruct (HG (Z w)) as (_ & _ & Q); rewrite Q by auto; ring).
      rewrite (E_add _ HE (fun _ => vel mean i * 1) (fun w => rsum rank (fun t => el l i t * Z w t))), (E_scal _ HE _ (fun _ => 1)), (E_one _ HE), (Esum E HE rank (fun t w => el l i t * Z w t)).
      rewrite rsum_0; [ring|]. intros t Hlt. rewrite (E_scal _ HE _ (fun w => Z w t)), M0 by lia. ring.
    + intros i j Hi Hj.
      rewrite (E_ext _ HE _ (fun w => rsum rank (fun t => rsum rank (fun u => el l i t * el l j u * (Z w t * Z w u))))).
      2:{ intros w. destruct (HG (Z w)) as (_ & _ & Q). rewrite !Q by auto. replace (vel mean i + rsum rank (fun t => el l i t * Z w t) - vel mean i) with (rsum rank (fun t => el l i t * Z w t)) by ring.
          replace (vel mean j + rsum rank (fun t => el l j t * Z w t) - vel mean j) with (rsum rank (fun t => el l j t * Z w t)) by ring.
          rewrite <- rsum_scal_r. apply rsum_ext. intros t Hlt. rewrite <- rsum_scal. apply rsum_ext. intros; ring. }
      rewrite (Esum E HE rank (fun t w => rsum rank (fun u => el l i t * el l j u * (Z w t * Z w u)))).
      rewrite (rsum_ext rank _ (fun t => el l i t * el l j t)).
      * rewrite Rabs_minus_sym. specialize (HL i j Hi Hj). nra.
      * intros t Hlt. rewrite (Esum E HE rank (fun u w => el l i t * el l j u * (Z w t * Z w u))). rewrite (rsum_delta rank t); auto.
        -- rewrite (E_scal _ HE _ (fun w => Z w t * Z w t)), M1 by lia. rewrite Nat.eqb_refl. ring.
        -- intros u Hu N. rewrite (E_scal _ HE _ (fun w => Z w t * Z w u)), M1 by lia. rewrite (proj2 (Nat.eqb_neq t u)) by auto. ring.
Qed.
(** sizes that do not fit: nothing is generated; all sizes: no access outside of an array *)
Theorem C117_rejects {T} {ST : Scalar T} tol n mean cov z : ~ (nr cov = vlen mean /\ nc cov = vlen mean) \/ vlen mean = 0%nat -> zVecListGenRandND (T := T) tol n mean cov z = Ok (None, 0%nat).
Proof.
  intros H. unfold zVecListGenRandND. destruct (Nat.eqb_spec (nr cov) (nc cov)); cbn [negb]; [|reflexivity]. destruct (Nat.eqb_spec (nc cov) (vlen mean)); cbn [negb]; [|reflexivity].
  destruct (Nat.eqb_spec (vlen mean) 0); [reflexivity|]. destruct H as [H|H]; [|contradiction]. exfalso. apply H. split; congruence.
Qed.
Theorem C117_safe {T} {ST : Scalar T} tol n mean cov z : exists l k, zVecListGenRandND (T := T) tol n mean cov z = Ok (l, k) /\ (k <= n)%nat /\
  match l with Some l => k = n /\ length l = n /\ forall v, In v l -> vlen v = vlen mean | None => k = 0%nat end.
Proof.
  destruct (Nat.eq_dec (nr cov) (vlen mean)) as [N1|N1]; [|exists None, 0%nat; split; [apply C117_rejects; tauto|split; [lia|auto]]].
  destruct (Nat.eq_dec (nc cov) (vlen mean)) as [N2|N2]; [|exists None, 0%nat; split; [apply C117_rejects; tauto|split; [lia|auto]]].
  destruct (Nat.eq_dec (vlen mean) 0) as [N3|N3]; [exists None, 0%nat; split; [apply C117_rejects; tauto|split; [lia|auto]]|].
  unfold zVecListGenRandND. rewrite N1, N2, !Nat.eqb_refl. cbn [negb]. rewrite (proj2 (Nat.eqb_neq _ 0) N3).
  unfold zMatDecompCholeskyAlloc, zMatDecompCholesky. cbv zeta. rewrite N1, N2, seq_length. cbn [nr nc zmat]. rewrite !Nat.eqb_refl. cbn [negb orb].
  destruct (s_chol tol (vlen mean) cov (zmat (vlen mean) (vlen mean)) (List.seq 0 (vlen mean))) as (o & E & HO); auto using perm_seq; try (split; auto).
  rewrite E. cbn [bind].
  assert (GN : forall b, nr b = vlen mean -> (nc b <= vlen mean)%nat -> exists l, for_ 0 n (fun i l => v <- gen_one b mean (z i) ;; Ok (v :: l)) [] = Ok l /\ length l = n /\ forall v, In v l -> vlen v = vlen mean).
  { intros b B1 B2. match goal with |- context [for_ 0 n ?f ?s00] => destruct (for_inv (fun k (l : list (fvec T)) => length l = k /\ forall v, In v l -> vlen v = vlen mean) 0 n f s00) as (l & EL & H) end.
    - lia.
    - split; [reflexivity|]. intros v [].
    - intros j l Hj (A & B). unfold gen_one. cbv zeta. match goal with |- context [for_ ?lo ?hi ?f ?v] => destruct (vec_loop v lo hi f (z j)) as (vo & EV & L & F) end; auto; try lia.
      rewrite EV. cbn [bind]. cbn in L. unfold zMulMatVecNC. rewrite B1, L. cbn [vlen zvec]. rewrite (proj2 (Nat.leb_le _ _) B2), Nat.leb_refl. cbn [andb bind].
      eexists. split; [reflexivity|]. split; [cbn; now rewrite A|]. intros v [<-|I]; auto.
    - eauto. }
  destruct o as [[[l idx] rank]|]; cbn [bind].
  - destruct HO as ((M1 & M2) & _).
    set (b := if (rank <? vlen mean)%nat then col_resize l rank else l).
    destruct (GN b) as (l' & EL & A & B); [unfold b; destruct (rank <? vlen mean)%nat; auto|unfold b; destruct (Nat.ltb_spec rank (vlen mean)); cbn; lia|].
    destruct rank; [exists None, 0%nat; split; [reflexivity|split; [lia|reflexivity]]|]. rewrite EL. cbn [bind]. exists (Some l'), n. split; [reflexivity|split; [lia|auto]].
  - destruct (GN (zmat (vlen mean) (vlen mean))) as (l' & EL & A & B); auto. rewrite EL. cbn [bind]. exists (Some l'), n. split; [reflexivity|split; [lia|auto]].
Qed.
(** a matrix which is no covariance (negative definite) is not refused: all vectors are the mean *)
Definition fgen (n : nat) (mean : list float) (cov : list (list float)) (z : nat -> nat -> float) : option (option (list (list float)) * nat) :=
  match zVecListGenRandND 1e-12%float n (vec_of 0%float mean) (mat_of 0%float cov) z with Ok (l, k) => Some (option_map (map to_list) l, k) | UB => None end.
Theorem C117_indefinite_refuted : fgen 2 [1; 2]%float [[-1; 0]; [0; -1]]%float (fun i j => of_uint63 (Uint63.of_Z (Z.of_nat (i + j + 1)))) = Some (Some [[1; 2]; [1; 2]]%float, 2%nat).
Proof. vm_compute. reflexivity. Qed.
(** the zero matrix is the covariance of a constant: no vector is generated *)
Theorem C117_zero_refuted : fgen 2 [1; 2]%float [[0; 0]; [0; 0]]%float (fun _ _ => 1%float) = Some (None, 0%nat).
Proof. vm_compute. reflexivity. Qed.
Example C117_binary64 : fgen 2 [1; 2]%float [[4; 2]; [2; 2]]%float (fun i j => if (i =? j)%nat then 1%float else 0%float) = Some (Some [[1; 3]; [3; 3]]%float, 2%nat).
Proof. vm_compute. reflexivity. Qed.
(** the hypotheses of C117_moments_partial: the covariance of rank one below and the two equally likely values 1 and -1 for
    the numbers, independently for two elements *)
Example C117_case : exists r L G, (r <= 2)%nat /\ (forall n z, zVecListGenRandND 0 n (vec_of 0 [1; 2]) (mat_of 0 [[1; 1]; [1; 1]]) z = Ok (Some (rev (map (fun i => G (z i)) (List.seq 0 n))), n)) /\
  (forall z i, (i < 2)%nat -> vel (G z) i = vel (vec_of 0 [1; 2]) i + rsum r (fun t => L i t * z t)) /\
  (vel (G (fun t => 1)) 0 + vel (G (fun t => if (t =? 0)%nat then 1 else -1)) 0 + vel (G (fun t => if (t =? 0)%nat then -1 else 1)) 0 + vel (G (fun t => -1)) 0) / 4 = 1.
Proof.
  destruct (C117_moments_partial 0 2 (vec_of 0 [1; 2]) (mat_of 0 [[1; 1]; [1; 1]])) as (r & L & G & Hr & HG & HL & HM); auto; try lra.
  - intros i j Hi Hj. destruct i as [|[|]], j as [|[|]]; cbn; try lia; reflexivity.
  - intros x. unfold LE_Spec.qf. cbn. replace (_ + _) with ((x 0%nat + x 1%nat) ^ 2) by ring. apply pow2_ge_0.
  - exists 0%nat. split; [lia|]. cbn. lra.
  - exists r, L, G. conjs; auto; [intros z i Hi; apply HL; auto|].
    set (zz := fun w : nat => match w with 0%nat => (fun t : nat => 1) | 1%nat => (fun t => if (t =? 0)%nat then 1 else -1) | 2%nat => (fun t => if (t =? 0)%nat then -1 else 1) | _ => (fun t => -1) end).
    destruct (HM nat (fun f => (f 0%nat + f 1%nat + f 2%nat + f 3%nat) / 4) zz) as (Q & _).
    + constructor; intros; cbv beta; rewrite ?H; lra.
    + intros j Hj. destruct j as [|[|]]; cbn; try lia; lra.
    + intros j k Hj Hk. destruct j as [|[|]], k as [|[|]]; cbn; try lia; lra.
    + apply (Q 0%nat). lia.
Qed.

Print Assumptions C116_pca_partial. Print Assumptions C116_rejects. Print Assumptions C116_count_refuted. Print Assumptions C116_order_refuted. Print Assumptions C116_constant_refuted.
Print Assumptions C116_one_refuted. Print Assumptions C116_empty_refuted.
Print Assumptions C117_moments_partial. Print Assumptions C117_rejects. Print Assumptions C117_safe. Print Assumptions C117_indefinite_refuted. Print Assumptions C117_zero_refuted.
