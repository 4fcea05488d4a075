(** Proofs about the whole of k-means (C57). *)
From Coq Require Import Reals Lra Lia Psatz List Permutation.
From Verif Require Import Prelude Prelude_Proofs Scalar RealLib Fmat Fmat_Proofs LE_Model IP_Model IP_Proofs Vop Stat_Model Stat_Proofs Stat2_Proofs Cluster_Model Cluster_Proofs Cluster2_Proofs Cluster3_Proofs Cluster_Spec.
Import ListNotations.
Local Open Scope R_scope.

Lemma map_core_ext (cs cs' : list (@cluster R)) : length cs = length cs' -> (forall i, ccore cs i = ccore cs' i) -> map core cs = map core cs'.
Proof.
  intros L H. apply (nth_ext_len _ _ (core c0) (length cs)); rewrite ?map_length; auto. intros i Hi. rewrite !map_nth. apply H.
Qed.
Lemma reassign_spec errsq (pt : nat -> fvec R) D cs : cs <> [] ->
  (forall p c, In p (concat (map sam cs)) -> In c (map core cs) -> errsq (pt p) c = Ok (D p c)) ->
  exists cs' moved, reassign errsq pt cs = Ok (cs', moved) /\ map core cs' = map core cs /\ partition_of (concat (map sam cs)) cs' /\
    nearest_all D cs' /\ (moved = false -> cs' = cs).
Proof.
  intros NE H. set (points := concat (map sam cs)) in *. set (cok := fun c => In c (map core cs)).
  assert (L : (0 < length cs)%nat) by (destruct cs; [congruence|cbn; lia]).
  assert (W : wf points cok cs).
  { split; auto. intros i Hi. unfold cok, ccore. apply in_map, nth_In. auto. }
  destruct (reassign_ok errsq pt points cok D H cs (length cs) L eq_refl W) as (cs' & moved & E & (K1 & K2 & K3) & N & M).
  exists cs', moved. conjs; auto.
  - apply map_core_ext; auto.
  - apply settled_nearest. intros i p Hi Ip. rewrite K1 in *. rewrite (near_ext D _ (ccore cs)) by (intros; apply K2). now apply N.
Qed.

(** ** the default method *)
Section Default.
  Context (tol : R) (HT : 0 <= tol < 1) (m : nat) (pt : nat -> fvec R) (points : list nat) (HP : forall p, In p points -> vlen (pt p) = m).
  Local Notation D := (fun p c => sqd m (pt p) c).
  Definition cokm (c : fvec R) : Prop := vlen c = m.
  Lemma HDm : forall p c, In p points -> cokm c -> default_errsq m (pt p) c = Ok (D p c).
  Proof. intros p c Ip C. apply default_errsq_ok; auto. Qed.
  Lemma optm : optimal (default_core tol) pt points cokm D.
  Proof. intros l c mu c' I C C' E. apply (mean_optimal tol HT m pt l c mu c'); auto. Qed.
  Lemma finem cs : wf points cokm cs -> fine (default_core tol) pt cokm cs.
  Proof.
    intros (W1 & W2) i Hi. destruct (default_core_ok tol HT m pt (csam cs i) (ccore cs i)) as (mu & E & V & _).
    - intros p Ip. apply HP, W1. eapply in_all; eauto.
    - now apply W2.
    - eauto.
  Qed.
  Definition samples_of (cs : list (@cluster R)) : Prop := (forall p, In p (concat (map sam cs)) -> In p points) /\ forall c, In c cs -> vlen (core c) = m.
  Lemma samples_wf cs : samples_of cs -> wf points cokm cs.
  Proof. intros (A & B). split; auto. intros i Hi. apply B. now apply nth_In. Qed.
  Lemma wf_cores cs c : wf points cokm cs -> In c cs -> vlen (core c) = m.
  Proof. intros (A & B) I. apply (In_nth _ _ c0) in I. destruct I as (i & Hi & <-). now apply (B i). Qed.
  Theorem recluster_spec maxiter cs : cs <> [] -> samples_of cs ->
    exists cs' n, _zVecMultiClusterKMeansRecluster (default_errsq m) (default_core tol) pt maxiter cs = Ok (cs', n) /\ (n <= maxiter)%nat /\
      length cs' = length cs /\ partition_of (concat (map sam cs)) cs' /\ (forall c, In c cs' -> vlen (core c) = m) /\
      ((0 < maxiter)%nat -> nearest_all D cs' /\ forall cs0, map sam cs0 = map sam cs -> (forall c, In c cs0 -> vlen (core c) = m) -> cost D cs' <= cost D cs0) /\
      ((n < maxiter)%nat -> forall c, In c cs' -> is_mean m pt c).
  Proof.
    intros NE SO. assert (L : (0 < length cs)%nat) by (destruct cs; [congruence|cbn; lia]). pose proof (samples_wf cs SO) as W.
    set (K := fun x : R => forall g, (forall i, (i < length cs)%nat -> cokm (g i)) -> x <= costg D cs g).
    set (Inv := fun a : list (@cluster R) => length a = length cs /\ exists g, (forall i, (i < length cs)%nat -> cokm (g i)) /\ ((forall g', (forall i, (i < length cs)%nat -> cokm (g' i)) -> costg D a g' = costg D cs g') \/ K (costg D a g))).
    assert (STEP : forall a b c, (0 < length a)%nat -> wf points cokm a -> Inv a -> cores_of (default_core tol) pt points cokm D a b -> reassigned points cokm D b c -> K (costg D c (ccore c)) /\ length c = length cs).
    { intros a b c La Wa (LA & g & G & IA) CO RE.
      pose proof (reassigned_cost points cokm D b c) as X. pose proof CO as (L1 & _). pose proof RE as (R1 & R2 & _). specialize (X ltac:(lia) RE).
      split; [|lia].
      assert (X' : costg D c (ccore c) <= costg D b (ccore b)).
      { replace (costg D c (ccore c)) with (costg D c (ccore b)); auto. unfold costg. apply rsum_ext. intros i Hi. now rewrite R2. }
      intros g' G'. destruct IA as [IA|IA].
      - pose proof (cores_cost (default_core tol) pt points cokm D a b g' optm Wa CO) as Y. rewrite LA in Y. specialize (Y G'). rewrite IA in Y by auto. lra.
      - pose proof (cores_cost (default_core tol) pt points cokm D a b g optm Wa CO) as Y. rewrite LA in Y. specialize (Y G). specialize (IA g' G'). lra. }
    destruct (recluster_ok (default_errsq m) (default_core tol) pt points cokm D HDm Inv) with (rest := maxiter) (i := O) (cs := cs)
      as (cs' & n & E & B1 & B2 & B3 & B4 & B5 & B6 & B7); auto.
    - intros; now apply finem.
    - intros a b c La Wa IA CO RE. destruct (STEP a b c La Wa IA CO RE) as (X & LC). split; auto. exists (ccore c). split; [|now right].
      destruct RE as (_ & _ & _ & (_ & W2) & _). intros i Hi. apply W2. lia.
    - split; auto. exists (ccore cs). split; auto. destruct W as (_ & W). exact W.
    - exists cs', n. conjs; auto; try lia.
      + intros c Ic. eapply wf_cores; eauto.
      + intros Hm. destruct (B7 Hm) as (a & b & La & Wa & Ia & CO & RE). split.
        { apply settled_nearest. apply RE. }
        intros cs0 S0 C0. rewrite !cost_ok. destruct (STEP a b cs' La Wa Ia CO RE) as (X & _).
        assert (L0 : length cs0 = length cs) by (apply (f_equal (@length _)) in S0; now rewrite !map_length in S0).
        assert (Q : costg D cs0 (ccore cs0) = costg D cs (ccore cs0)).
        { unfold costg. rewrite L0. apply rsum_ext. intros i Hi. f_equal. unfold csam. rewrite <- !(map_nth sam). now rewrite S0. }
        rewrite Q. apply X. intros i Hi. unfold cokm, ccore. apply C0, nth_In. lia.
      + intros Hn c Ic NEc i Hi. destruct B6 as (old & L1 & W1 & A1 & A2 & A3 & A4 & A5 & A6); [lia|].
        apply (In_nth _ _ c0) in Ic. destruct Ic as (j & Hj & <-). change (core (nth j cs' c0)) with (ccore cs' j). change (sam (nth j cs' c0)) with (csam cs' j) in *.
        specialize (A5 j ltac:(lia)). rewrite <- A3 in A5. destruct W1 as (W1 & W2).
        destruct (default_core_ok tol HT m pt (csam cs' j) (ccore old j)) as (mu & E' & V & Q).
        * intros p Ip. rewrite A3 in Ip. apply HP, W1. apply (in_all old j); auto. lia.
        * apply W2. lia.
        * rewrite E' in A5. injection A5 as <-. now apply Q.
  Qed.
End Default.

(** ** the whole *)
Section Whole.
  Context (tol : R) (HT : 0 <= tol < 1) (m : nat) (pt : nat -> fvec R) (points : list nat) (HP : distinct_points m pt points).
  Local Notation D := (fun p c => sqd m (pt p) c).
  Local Notation E := (fun p q => sqrt (sqd m (pt p) (pt q))).
  Lemma HEm p q : In p points -> In q points -> default_dist (pt p) (pt q) = Ok (E p q).
  Proof. destruct HP as (_ & A & _). intros. apply default_dist_ok; auto. Qed.
  Lemma E0m p : In p points -> E p p = 0.
  Proof. intros. cbn beta. now rewrite sqd_refl, sqrt_0. Qed.
  Lemma EPm p q : In p points -> In q points -> p <> q -> 0 < E p q.
  Proof. destruct HP as (_ & _ & A). intros. apply sqrt_lt_R0. auto. Qed.
  Lemma new_samples cs : map sam (map (@new_cluster R RealS m) cs) = cs.
  Proof. rewrite map_map. cbn. apply map_id. Qed.
  Lemma new_of cs : Permutation (concat cs) points -> samples_of m points (map (@new_cluster R RealS m) cs).
  Proof.
    intros P. split.
    - intros p. rewrite new_samples. intros Ip. eapply Permutation_in; eauto.
    - intros c Ic. apply in_map_iff in Ic. destruct Ic as (l & <- & _). reflexivity.
  Qed.
  (** a good answer: [k] clusters, a partition, near cores of size m, means when settled *)
  Definition good (maxiter k : nat) (cs : list (@cluster R)) (n : nat) : Prop :=
    (n <= maxiter)%nat /\ length cs = k /\ partition_of points cs /\ (forall c, In c cs -> vlen (core c) = m) /\
    ((0 < maxiter)%nat -> nearest_all D cs) /\ ((n < maxiter)%nat -> forall c, In c cs -> is_mean m pt c).
  Lemma seeds_good maxiter k seeds : (0 < k)%nat -> distinct_seeds points seeds k ->
    exists cs cs' n, _zVecMultiClusterKMeansInitCluster default_dist pt points (map (fun p => [p]) seeds) = Ok cs /\
      _zVecMultiClusterKMeansRecluster (default_errsq m) (default_core tol) pt maxiter (map (@new_cluster R RealS m) cs) = Ok (cs', n) /\ good maxiter k cs' n.
  Proof.
    intros Hk (S1 & S2 & S3). assert (SN : seeds <> []) by (destruct seeds; [cbn in S1; lia|discriminate]). destruct HP as (P1 & P2 & P3).
    destruct (init_ok default_dist pt points E HEm seeds S3 SN P1 S2) as (cs & Ec & (L & _) & P & _). 
    destruct (recluster_spec tol HT m pt points P2 maxiter (map (@new_cluster R RealS m) cs)) as (cs' & n & E' & A1 & A2 & A3 & A4 & A5 & A6).
    - intros X. apply (f_equal (@length _)) in X. rewrite map_length in X. cbn in X. lia.
    - now apply new_of.
    - exists cs, cs', n. conjs; auto. rewrite map_length in A2. rewrite new_samples in A3. unfold good; conjs; auto; try lia.
      + unfold partition_of in *. now rewrite A3.
      + intros X. now apply A5.
  Qed.
  Lemma mean_apart mu : (2 <= length points)%nat -> vlen mu = m -> exists p, In p points /\ 0 < sqrt (sqd m (pt p) mu).
  Proof.
    intros L V. destruct HP as (P1 & P2 & P3). remember points as l eqn:EL. destruct l as [|a [|b l]]; cbn in L; try lia.
    assert (N : a <> b) by (inversion P1 as [|? ? X _]; subst; intros ->; apply X; now left).
    destruct (Rle_lt_or_eq_dec 0 (sqd m (pt a) mu) (sqd_nonneg _ _ _)) as [A|A].
    { exists a. split; [now left|]. now apply sqrt_lt_R0. }
    destruct (Rle_lt_or_eq_dec 0 (sqd m (pt b) mu) (sqd_nonneg _ _ _)) as [B|B].
    { exists b. split; [right; now left|]. now apply sqrt_lt_R0. }
    exfalso. specialize (P3 a b ltac:(now left) ltac:(right; now left) N).
    assert (X : sqd m (pt a) (pt b) = 0); [|lra]. unfold sqd. apply rsum_0. intros i Hi. rewrite (sqd_0 m _ _ (eq_sym A) i Hi), (sqd_0 m _ _ (eq_sym B) i Hi). ring.
  Qed.
  Lemma kkz_mean : points <> [] -> exists mu, zVecListMean tol (map pt points) (vzero (vlen (pt (last points O)))) = Ok mu /\ vlen mu = m.
  Proof.
    intros NE. destruct HP as (_ & P2 & _). destruct (default_core_ok tol HT m pt points (vzero (vlen (pt (last points O))))) as (mu & E & V & _); eauto.
    cbn. apply P2. destruct points as [|a l]; [congruence|]. clear. revert a. induction l as [|b l IH]; intros a; [now left|]. right. apply IH.
  Qed.
  Theorem kkz_spec maxiter k : (0 < k <= length points)%nat -> (2 <= length points)%nat ->
    exists cs n, zVecMultiClusterKMeansKKZ tol (default_errsq m) default_dist (default_core tol) pt maxiter m points k = Ok (Some (cs, n)) /\ good maxiter k cs n.
  Proof.
    intros Hk L2. assert (NE : points <> []) by (destruct points; [cbn in *; lia|discriminate]). destruct (kkz_mean NE) as (mu & Em & Vm).
    pose proof HP as (P1 & P2 & P3).
    destruct (kkz_ok default_dist pt points E HEm tol mu (fun p => sqrt (sqd m (pt p) mu)) k P1 NE Em) as (seeds & Es & DS); auto.
    - intros p Ip. apply default_dist_ok; auto.
    - exact E0m.
    - exact EPm.
    - now apply mean_apart.
    - unfold zVecMultiClusterKMeansKKZ. rewrite Es. cbn [bind]. destruct (seeds_good maxiter k seeds) as (cs & cs' & n & E1 & E2 & G); auto; [lia|].
      rewrite E1. cbn [bind]. rewrite E2. cbn [bind]. exists cs', n. auto.
  Qed.
  Theorem pp_spec rndi rndf maxiter k r : (forall r n, (0 < n)%nat -> (rndi r n < n)%nat) -> (forall r, 0 < rndf r <= 1) ->
    (forall p q, In p points -> In q points -> p <> q -> tol < sqd m (pt p) (pt q)) -> (0 < k <= length points)%nat ->
    exists cs n, zVecMultiClusterKMeans tol (default_errsq m) default_dist (default_core tol) pt rndi rndf maxiter m points k r = Ok (Some (cs, n, (r + k)%nat)) /\ good maxiter k cs n.
  Proof.
    intros RI RF TP Hk. assert (NE : points <> []) by (destruct points; [cbn in *; lia|discriminate]). pose proof HP as (P1 & P2 & P3).
    destruct (pp_ok default_dist pt points E HEm tol (proj1 HT) rndi rndf k P1 NE RI RF E0m) with (r := r) as (seeds & Es & DS); auto.
    - intros. apply sqrt_pos.
    - intros p q Ip Iq N. cbn beta. rewrite sqrt_sqrt by apply sqd_nonneg. auto.
    - unfold zVecMultiClusterKMeans. rewrite Es. cbn [bind]. destruct (seeds_good maxiter k seeds) as (cs & cs' & n & E1 & E2 & G); auto; [lia|].
      rewrite E1. cbn [bind]. rewrite E2. cbn [bind]. exists cs', n. auto.
  Qed.

  (** *** medoids *)
  Local Notation med := (_zVecClusterCoreMedoid default_dist).
  Lemma med_ok l c : l <> [] -> (forall p, In p l -> In p points) -> vlen c = m ->
    exists p, med (map pt l) c = Ok (FV m (vel (pt p))) /\ In p l /\ forall q, In q l -> lsum (fun x => E x p) l <= lsum (fun x => E x q) l.
  Proof.
    intros NE I C. destruct HP as (P1 & P2 & P3).
    destruct (medoid_ok default_dist (fun x y => sqrt (sqd m x y)) (map pt l) c m) as (mp & Em & Im & Mm); auto.
    - now destruct l.
    - intros x y Ix Iy. apply in_map_iff in Ix, Iy. destruct Ix as (p & <- & Ip), Iy as (q & <- & Iq). apply HEm; auto.
    - intros x Ix. apply in_map_iff in Ix. destruct Ix as (p & <- & Ip). auto.
    - apply in_map_iff in Im. destruct Im as (p & <- & Ip). exists p. conjs; auto. intros q Iq. specialize (Mm (pt q) (in_map pt _ _ Iq)). now rewrite !lsum_map in Mm.
  Qed.
  Definition invm (cs : list (@cluster R)) : Prop := NoDup (all cs) /\ forall i, (i < length cs)%nat -> csam cs i <> [].
  Lemma nodup_once cs i j p : NoDup (@all R cs) -> (i < length cs)%nat -> (j < length cs)%nat -> In p (csam cs i) -> In p (csam cs j) -> i = j.
  Proof.
    unfold all, csam. revert i j. induction cs as [|c cs IH]; intros i j N Hi Hj Ii Ij; cbn in Hi; [lia|]. cbn [map concat] in N. cbn in Hj.
    assert (X : forall n, (n < length cs)%nat -> In p (sam (nth n cs c0)) -> In p (concat (map sam cs))).
    { intros n Hn In_. apply in_concat. exists (sam (nth n cs c0)). split; auto. now apply in_map, nth_In. }
    assert (Y : In p (sam c) -> In p (concat (map sam cs)) -> False).
    { clear - N. intros A B. induction (sam c) as [|a l IHl]; [contradiction|]. cbn in N. inversion N; subst. destruct A as [<-|A]; auto. apply H1. apply in_or_app. auto. }
    assert (N' : NoDup (concat (map sam cs))) by (clear - N; induction (sam c) as [|a l IHl]; auto; cbn in N; inversion N; auto). clear N. rename N' into N.
    destruct i as [|i], j as [|j]; cbn [nth] in *; auto.
    - exfalso. apply Y; auto. apply (X j); auto. lia.
    - exfalso. apply Y; auto. apply (X i); auto. lia.
    - f_equal. apply IH; auto; lia.
  Qed.
  Lemma finemed cs : wf points (cokm m) cs -> invm cs -> fine med pt (cokm m) cs.
  Proof.
    intros (W1 & W2) (I1 & I2) i Hi. destruct (med_ok (csam cs i) (ccore cs i)) as (p & E & _); eauto.
    - intros q Iq. apply W1. eapply in_all; eauto.
    - now apply W2.
    - exists (FV m (vel (pt p))). split; [exact E|reflexivity].
  Qed.
  (** the medoids are in their clusters before and after a pass *)
  Definition centre (cs : list (@cluster R)) (i p : nat) : Prop := In p (csam cs i) /\ ccore cs i = FV m (vel (pt p)).
  Lemma med_step a b c : (0 < length a)%nat -> wf points (cokm m) a -> invm a -> cores_of med pt points (cokm m) D a b -> reassigned points (cokm m) D b c ->
    invm c /\ forall i, (i < length c)%nat -> exists p, centre b i p /\ centre c i p /\ forall q, In q (csam b i) -> lsum (fun x => E x p) (csam b i) <= lsum (fun x => E x q) (csam b i).
  Proof.
    intros La (W1 & W2) (I1 & I2) (C1 & C2 & C3 & C4 & C5 & C6) (R1 & R2 & R3 & R4 & R5).
    assert (MB : forall i, (i < length c)%nat -> exists p, centre b i p /\ forall q, In q (csam b i) -> lsum (fun x => E x p) (csam b i) <= lsum (fun x => E x q) (csam b i)).
    { intros i Hi. destruct (med_ok (csam a i) (ccore a i)) as (p & Ep & Ip & Mp).
      - apply I2. lia.
      - intros q Iq. apply W1. apply (in_all a i); auto. lia.
      - apply W2. lia.
      - rewrite (C5 i) in Ep by lia. injection Ep as Ep. exists p. unfold centre. rewrite C3. auto. }
    assert (KEY : forall i, (i < length c)%nat -> exists p, centre b i p /\ centre c i p /\ forall q, In q (csam b i) -> lsum (fun x => E x p) (csam b i) <= lsum (fun x => E x q) (csam b i)).
    { intros i Hi. destruct (MB i Hi) as (p & (Ip & Cp) & Mp). exists p. unfold centre in *. conjs; auto.
      - assert (Ia : In p (all c)) by (eapply Permutation_in; [symmetry; apply R3|]; apply (in_all b i); auto; lia).
        apply all_in in Ia. destruct Ia as (j & Hj & Ij). replace i with j; auto.
        specialize (R5 j p Hj Ij). pose proof (near_min D (ccore c) p (length c) i Hi) as NM. cbn beta in NM. rewrite R5 in NM.
        destruct (MB j Hj) as (q & (Iq & Cq) & _). rewrite !R2, Cp, Cq in NM.
        assert (X : forall x, sqd m (pt p) (FV m (vel x)) = sqd m (pt p) x) by (intros; reflexivity). rewrite !X, sqd_refl in NM.
        assert (PQ : p = q).
        { destruct (Nat.eq_dec p q) as [|N]; auto. destruct HP as (_ & _ & P3). specialize (P3 p q).
          assert (0 < sqd m (pt p) (pt q)); [|lra]. apply P3; auto; apply W1; [apply (in_all a i)|apply (in_all a j)]; try lia; now rewrite <- C3. }
        subst q. apply (nodup_once b j i p); auto; try lia. now rewrite C4.
      - now rewrite R2. }
    split; [|exact KEY]. split.
    - eapply Permutation_NoDup; [symmetry; apply R3|]. now rewrite C4.
    - intros i Hi. destruct (KEY i Hi) as (p & _ & (Ip & _) & _). intros X. rewrite X in Ip. destruct Ip.
  Qed.
  Theorem medoids_spec rndi rndf maxiter k r : (forall r n, (0 < n)%nat -> (rndi r n < n)%nat) -> (forall r, 0 < rndf r <= 1) ->
    (forall p q, In p points -> In q points -> p <> q -> tol < sqd m (pt p) (pt q)) -> (0 < k <= length points)%nat ->
    exists cs n, zVecMultiClusterKMedoids tol (default_errsq m) default_dist pt rndi rndf maxiter points k r = Ok (Some (cs, n, (r + k)%nat)) /\
      (n <= maxiter)%nat /\ length cs = k /\ partition_of points cs /\ (forall c, In c cs -> sam c <> []) /\
      ((0 < maxiter)%nat -> nearest_all D cs /\ forall c, In c cs -> exists p, In p (sam c) /\ core c = FV m (vel (pt p))) /\
      ((n < maxiter)%nat -> forall c, In c cs -> is_medoid m pt c).
  Proof.
    intros RI RF TP Hk. assert (NE : points <> []) by (destruct points; [cbn in *; lia|discriminate]). pose proof HP as (P1 & P2 & P3).
    destruct (pp_ok default_dist pt points E HEm tol (proj1 HT) rndi rndf k P1 NE RI RF E0m) with (r := r) as (seeds & Es & DS); auto.
    { intros. apply sqrt_pos. }
    { intros p q Ip Iq N. cbn beta. rewrite sqrt_sqrt by apply sqd_nonneg. auto. }
    assert (EN : zVecMultiClusterKMedoids tol (default_errsq m) default_dist pt rndi rndf maxiter points k r =
      zVecMultiClusterKMeans tol (default_errsq m) default_dist med pt rndi rndf maxiter m points k r).
    { unfold zVecMultiClusterKMedoids. destruct points as [|t l]; [congruence|]. rewrite (P2 t) by now left. reflexivity. }
    rewrite EN. unfold zVecMultiClusterKMeans. rewrite Es. cbn [bind].
    destruct DS as (S1 & S2 & S3). assert (SN : seeds <> []) by (destruct seeds; [cbn in S1; lia|discriminate]).
    destruct (init_ok default_dist pt points E HEm seeds S3 SN P1 S2) as (cs & Ec & (L & Hh) & P & _). rewrite Ec. cbn [bind].
    set (cs1 := map (@new_cluster R RealS m) cs). assert (L1 : length cs1 = k) by (unfold cs1; rewrite map_length; lia).
    assert (AL : all cs1 = concat cs) by (unfold all, cs1; now rewrite new_samples).
    assert (W : wf points (cokm m) cs1) by (apply samples_wf, new_of; auto).
    assert (I0 : invm cs1).
    { split; [rewrite AL; eapply Permutation_NoDup; [symmetry; exact P|auto]|]. intros i Hi. unfold cs1, csam. rewrite (nth_indep _ c0 (new_cluster m [])) by auto. rewrite map_nth. cbn [sam new_cluster].
      destruct (Hh i) as (tl & ->); [lia|discriminate]. }
    destruct (recluster_ok (default_errsq m) med pt points (cokm m) D (HDm m pt points P2) invm) with (rest := maxiter) (i := O) (cs := cs1)
      as (cs' & n & E' & B1 & B2 & B3 & B4 & B5 & B6 & B7); auto.
    - intros; now apply finemed.
    - intros a b c La Wa Ia CO RE. eapply med_step; eauto.
    - lia.
    - unfold _zVecMultiClusterKMeansRecluster. rewrite E'. cbn [bind]. exists cs', n. conjs; auto; try lia.
      + unfold partition_of. change (concat (map sam cs')) with (all cs'). now rewrite B5, AL.
      + intros c Ic. apply (In_nth _ _ c0) in Ic. destruct Ic as (i & Hi & <-). now apply B3.
      + intros Hm. destruct (B7 Hm) as (a & b & La & Wa & Ia & CO & RE). split; [apply settled_nearest; apply RE|].
        intros c Ic. apply (In_nth _ _ c0) in Ic. destruct Ic as (i & Hi & <-). destruct (med_step a b cs' La Wa Ia CO RE) as (_ & X). destruct (X i Hi) as (p & _ & (Ip & Cp) & _). exists p. auto.
      + intros Hn c Ic. apply (In_nth _ _ c0) in Ic. destruct Ic as (i & Hi & <-). destruct B6 as (old & LO & (WO1 & WO2) & (C1 & C2 & C3 & C4 & C5 & C6)); [lia|].
        change (is_medoid m pt (nth i cs' c0)) with (exists p, In p (csam cs' i) /\ (forall j, (j < m)%nat -> vel (ccore cs' i) j = vel (pt p) j) /\ forall q, In q (csam cs' i) -> lsum (fun x => E x p) (csam cs' i) <= lsum (fun x => E x q) (csam cs' i)).
        specialize (C5 i ltac:(lia)). rewrite <- C3 in C5. destruct (med_ok (csam cs' i) (ccore old i)) as (p & Ep & Ip & Mp).
        * now apply B3.
        * intros q Iq. rewrite C3 in Iq. apply WO1. apply (in_all old i); auto. lia.
        * apply WO2. lia.
        * rewrite Ep in C5. injection C5 as C5. exists p. rewrite <- C5. auto.
  Qed.
End Whole.
(** coincident points *)
Lemma kkz_coincident tol m pt points k maxiter : 0 <= tol < 1 -> (0 < k)%nat -> points <> [] -> (forall p, In p points -> vlen (pt p) = m) ->
  (forall p q, In p points -> In q points -> sqd m (pt p) (pt q) = 0) ->
  zVecMultiClusterKMeansKKZ tol (default_errsq m) default_dist (default_core tol) pt maxiter m points k = UB.
Proof.
  intros HT Hk NE P2 CO. destruct (default_core_ok tol HT m pt points (vzero (vlen (pt (last points O))))) as (mu & Em & Vm & Mm); auto.
  { cbn. apply P2. destruct points as [|a l]; [congruence|]. clear. revert a. induction l as [|b l IH]; intros a; [now left|]. right. apply IH. }
  specialize (Mm NE).
  assert (Z : forall p, In p points -> sqrt (sqd m (pt p) mu) <= 0).
  { intros p Ip. replace (sqd m (pt p) mu) with 0; [rewrite sqrt_0; lra|]. symmetry. unfold sqd. apply rsum_0. intros i Hi. rewrite Mm.
    rewrite (lsum_ext _ (fun _ => vel (pt p) i)) by (intros q Iq; apply (sqd_0 m); auto). rewrite lsum_const.
    assert (0 < INR (length points)) by (apply lt_0_INR; destruct points; [congruence|cbn; lia]). replace (_ - _) with 0 by (field; lra). ring. }
  unfold zVecMultiClusterKMeansKKZ. rewrite (kkz_ub default_dist pt points tol mu (fun p => sqrt (sqd m (pt p) mu))); auto.
  intros p Ip. apply default_dist_ok; auto.
Qed.
