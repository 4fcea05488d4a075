(** C82: X-means and the indices of a clustering, in exact arithmetic. *)
From Coq Require Import Reals Lra Lia Psatz List Permutation Floats.
From Verif Require Import Prelude Scalar RealLib Fmat Fmat_Proofs IP_Model Stat_Model Stat2_Proofs Cluster_Model Cluster_Spec.
From Verif Require Import Cluster_Proofs Cluster2_Proofs Cluster3_Proofs Cluster4_Proofs Cluster5_Proofs.
Import ListNotations.
Local Open Scope R_scope.

(** ** X-means ends, whatever the test: no deeper than the number of points, and no cluster is empty *)
Theorem C82_xmeans_partial tol m (pt : nat -> fvec R) rndi rndf test maxiter points r : 0 <= tol < 1 -> distinct_points m pt points -> points <> [] ->
  (forall p q, In p points -> In q points -> p <> q -> tol < sqd m (pt p) (pt q)) ->
  (forall r n, (0 < n)%nat -> (rndi r n < n)%nat) -> (forall r, 0 < rndf r <= 1) ->
  exists cs r', zVecMultiClusterXMeans tol (default_errsq m) default_dist (default_core tol) pt rndi rndf test (length points) maxiter m points r = Ok (cs, r') /\
    partition_of points cs /\ (forall c, In c cs -> sam c <> []).
Proof. intros HT DP NE TP RI RF. apply xmeans_spec; auto. split; auto. Qed.

(** two clusters of two-means share the points and neither is empty *)
Theorem C82_two_means tol m (pt : nat -> fvec R) rndi rndf maxiter points r : 0 <= tol < 1 -> distinct_points m pt points -> (2 <= length points)%nat ->
  (forall p q, In p points -> In q points -> p <> q -> tol < sqd m (pt p) (pt q)) ->
  (forall r n, (0 < n)%nat -> (rndi r n < n)%nat) -> (forall r, 0 < rndf r <= 1) ->
  exists c1 c2 n r', zVecMultiClusterKMeans tol (default_errsq m) default_dist (default_core tol) pt rndi rndf maxiter m points 2 r = Ok (Some ([c1; c2], n, r')) /\
    partition_of points [c1; c2] /\ sam c1 <> [] /\ sam c2 <> [].
Proof.
  intros HT DP L TP RI RF. destruct (two_means tol HT m pt points DP rndi rndf maxiter r RI RF TP L) as (t & h & n & E & P & N1 & N2).
  exists t, h, n, (r + 2)%nat. conjs; auto. unfold partition_of. cbn. now rewrite app_nil_r.
Qed.

(** ** the silhouette of a point of a cluster: how much nearer the points of its own cluster are than those of the nearest other one *)
Definition mean_dist (m : nat) (pt : nat -> fvec R) (c : @cluster R) (p : nat) : R := lsum (fun q => sqrt (sqd m (pt q) (pt p))) (sam c) / INR (length (sam c)).
Definition clustering_of (m : nat) (pt : nat -> fvec R) (cs : list (@cluster R)) (points : list nat) : Prop :=
  distinct_points m pt points /\ partition_of points cs /\ forall c, In c cs -> sam c <> [].
Lemma clustering_all m pt cs points : clustering_of m pt cs points -> NoDup (all cs) /\ (forall p, In p (all cs) -> vlen (pt p) = m) /\
  forall p q, In p (all cs) -> In q (all cs) -> p <> q -> 0 < sqd m (pt p) (pt q).
Proof.
  intros ((D1 & D2 & D3) & P & _). assert (I : forall p, In p (all cs) -> In p points) by (intros p Ip; eapply Permutation_in; [exact P|exact Ip]). conjs; auto.
  eapply Permutation_NoDup; [symmetry; exact P|auto].
Qed.
Theorem C82_silhouette m pt cs points i p : clustering_of m pt cs points -> (2 <= length cs)%nat -> (i < length cs)%nat -> In p (sam (nth i cs c0)) ->
  exists a b, silhouette default_dist pt cs i p = Ok (Some ((b - a) / Rmax a b)) /\ a = mean_dist m pt (nth i cs c0) p /\ 0 < b /\
    (exists j, (j < length cs)%nat /\ j <> i /\ b = mean_dist m pt (nth j cs c0) p) /\ (forall j, (j < length cs)%nat -> j <> i -> b <= mean_dist m pt (nth j cs c0) p) /\
    -1 <= (b - a) / Rmax a b <= 1.
Proof.
  intros H L2 Hi Ip. destruct (clustering_all _ _ _ _ H) as (ND & SZ & DP). destruct H as (_ & _ & NE). assert (Ia : In p (all cs)) by (apply (in_all cs i); auto).
  destruct (sil_ok m pt cs SZ i p L2 Hi Ia) as (a & b & E & Ea & Eb & Bm). destruct (sil_in m pt cs SZ NE i p _ L2 Hi Ia DP ND Ip E) as (x & Ex & X).
  assert (Mx : (if Rltb b a then a else b) = Rmax a b) by (destruct (Rltb_spec b a); [rewrite Rmax_left|rewrite Rmax_right]; lra). rewrite Mx in *. injection Ex as <-.
  exists a, b. destruct X as (X1 & X2). conjs; auto. destruct Eb as (j & Hj & Nj & ->). unfold avd. assert (Ic : In (nth j cs c0) cs) by now apply nth_In. specialize (NE _ Ic).
  destruct (sam (nth j cs c0)) as [|q l] eqn:EL; [congruence|]. assert (0 < INR (length (q :: l))) by (apply lt_0_INR; cbn; lia).
  apply Rmult_lt_0_compat; [|now apply Rinv_0_lt_compat]. cbn. fold (lsum (fun q => sqrt (sqd m (pt q) (pt p))) l).
  assert (0 <= lsum (fun q => sqrt (sqd m (pt q) (pt p))) l) by (apply lsum_nonneg; intros; apply sqrt_pos). assert (0 < sqrt (sqd m (pt q) (pt p))); [|lra].
  apply sqrt_lt_R0. assert (Iq : In q (csam cs j)) by (unfold csam; rewrite EL; now left). apply DP; auto. - now apply (in_all cs j).
  - intros ->. apply Nj. now apply (nodup_once cs j i p).
Qed.
Theorem C82_mean_silhouette m pt cs points : clustering_of m pt cs points -> (2 <= length cs)%nat ->
  exists s, zVecMultiClusterMeanSilhouette default_dist pt cs = Ok (Some s) /\ -1 <= s <= 1.
Proof. intros H L2. destruct (clustering_all _ _ _ _ H) as (ND & SZ & DP). destruct H as (_ & _ & NE). apply (mean_sil m pt cs); auto. Qed.

(** ** evenness: the ratio of the largest size to the smallest *)
Theorem C82_evenness (cs : list (@cluster R)) : cs <> [] -> (forall c, In c cs -> sam c <> []) ->
  exists e, zVecMultiClusterEvenness cs = Some e /\ 1 <= e /\
    (forall c c', In c cs -> In c' cs -> INR (length (sam c)) <= e * INR (length (sam c'))) /\
    (exists c c', In c cs /\ In c' cs /\ INR (length (sam c)) = e * INR (length (sam c'))) /\
    (e = 1 <-> forall c c', In c cs -> In c' cs -> length (sam c) = length (sam c')).
Proof.
  intros NE NN. destruct (even_sizes cs NE) as (mn & mx & E & B & (c1 & I1 & L1) & X). unfold zVecMultiClusterEvenness. rewrite E. eexists. split; [reflexivity|].
  rs. rewrite <- !INR_IZR_INZ. assert (P1 : (0 < mn)%nat) by (specialize (NN c1 I1); destruct (sam c1); [congruence|cbn in L1; lia]).
  assert (P : 0 < INR mn) by now apply lt_0_INR. destruct (B c1 I1) as (_ & B1). destruct X as [(c2 & I2 & L2)| ->]; [|lia].
  assert (Q : INR mn <= INR mx) by (apply le_INR; lia). assert (Id : INR mx / INR mn * INR mn = INR mx) by (field; lra). assert (G1 : 1 <= INR mx / INR mn) by (apply Rmult_le_reg_r with (INR mn); lra).
  conjs; auto.
  - intros c c' Ic Ic'. destruct (B c Ic) as (_ & B2). destruct (B c' Ic') as (B3 & _). apply le_INR in B2, B3. nra.
  - exists c2, c1. rewrite L1, L2. auto.
  - split.
    + intros E1. assert (INR mx = INR mn) by (rewrite <- Id, E1; lra). apply INR_eq in H. intros c c' Ic Ic'. pose proof (B c Ic). pose proof (B c' Ic'). lia.
    + intros H. specialize (H c2 c1 I2 I1). rewrite L1, L2 in H. subst mx. rewrite H. field. rewrite <- H. lra.
Qed.

(** ** the test by density compares the volumes of the least balls around the cores *)
Definition radius (m : nat) (pt : nat -> fvec R) (c : @cluster R) (r : R) : Prop := 0 <= r /\ (forall p, In p (sam c) -> sqrt (sqd m (pt p) (core c)) <= r) /\
  (r = 0 \/ exists p, In p (sam c) /\ r = sqrt (sqd m (pt p) (core c))).
Lemma max_error_ok m pt (c : @cluster R) : vlen (core c) = m -> (forall p, In p (sam c) -> vlen (pt p) = m) -> exists r, _zVecClusterMaxError (default_errsq m) pt c = Ok r /\ radius m pt c r.
Proof.
  intros C P. unfold _zVecClusterMaxError, radius.
  destruct (foreach_inv (fun pre r => 0 <= r /\ (forall p, In p pre -> sqrt (sqd m (pt p) (core c)) <= r) /\ (r = 0 \/ exists p, In p pre /\ r = sqrt (sqd m (pt p) (core c))))
    (fun p dmax => e <- default_errsq m (pt p) (core c) ;; let d := ssqrt e in Ok (if slt dmax d then d else dmax)) (sam c) [] 0) as (r & E & H).
  - conjs; auto; [lra|intros p []].
  - intros pre p r Ip (R0 & R1 & R2). rewrite default_errsq_ok by (auto; now apply P). cbn [bind]. cbv zeta. rs.
    set (d := sqrt (sqd m (pt p) (core c))) in *. eexists. split; [reflexivity|]. destruct (Rltb_spec r d) as [K|K].
    + split; [lra|]. split.
      * intros q Hq. apply in_app_iff in Hq. destruct Hq as [Hq|[<-|[]]]; [specialize (R1 q Hq); lra|fold d; lra].
      * right. exists p. split; auto. apply in_or_app. cbn; auto.
    + split; [lra|]. split.
      * intros q Hq. apply in_app_iff in Hq. destruct Hq as [Hq|[<-|[]]]; auto. fold d. lra.
      * destruct R2 as [->|(q & Hq & ->)]; [now left|right; exists q; split; auto; apply in_or_app; auto].
  - exists r. auto.
Qed.
Lemma iter_pow k (x : R) : Nat.iter k (fun y => (x * y)%S) 1%S = x ^ k.
Proof. induction k as [|k IH]; [reflexivity|]. change (x * Nat.iter k (fun y => (x * y)%S) 1%S = x * x ^ k). now rewrite IH. Qed.
Theorem C82_density m pt (c c1 c2 : @cluster R) : (forall c', In c' [c; c1; c2] -> vlen (core c') = m /\ forall p, In p (sam c') -> vlen (pt p) = m) ->
  exists b r r1 r2, _zVecMultiClusterXMeansCheckDensity (default_errsq m) pt m c c1 c2 = Ok b /\ radius m pt c r /\ radius m pt c1 r1 /\ radius m pt c2 r2 /\
    (b = true <-> r1 ^ m + r2 ^ m < r ^ m).
Proof.
  intros H. unfold _zVecMultiClusterXMeansCheckDensity. cbv zeta.
  destruct (max_error_ok m pt c) as (r & -> & R0); [apply H; cbn; auto|apply H; cbn; auto|]. cbn [bind].
  destruct (max_error_ok m pt c1) as (r1 & -> & R1); [apply H; cbn; auto|apply H; cbn; auto|]. cbn [bind].
  destruct (max_error_ok m pt c2) as (r2 & -> & R2); [apply H; cbn; auto|apply H; cbn; auto|]. cbn [bind].
  assert (PW : forall x, Nat.iter m (fun y => (x * y)%S) 1%S = x ^ m) by (intros x; exact (iter_pow m x)).
  rewrite !PW. eexists _, r, r1, r2. split; [reflexivity|]. conjs; auto. rs. destruct (Rltb_spec (r1 ^ m + r2 ^ m) (r ^ m)); split; auto; try discriminate; lra.
Qed.

(** ** where it fails, in floating-point numbers *)
Definition f1 (x : float) : fvec float := FV 1 (fun _ => x).
Definition ftol : float := 0.125%float.
Definition xrun (pt : nat -> fvec float) test points : option (list (list nat)) :=
  match zVecMultiClusterXMeans ftol (default_errsq 1) default_dist (default_core ftol) pt (fun _ _ => O) (fun _ => 0.5%float) test 20 100 1 points 0 with
  | Ok (cs, _) => Some (map sam cs) | UB => None end.
Definition density (pt : nat -> fvec float) (c c1 c2 : @cluster float) : bool :=
  match _zVecMultiClusterXMeansCheckDensity (default_errsq 1) pt 1 c c1 c2 with Ok b => b | UB => false end.
(** the test by density says that two clusters are better than one, and then one is kept: two groups far apart are not divided *)
Definition two_groups (p : nat) : fvec float := f1 (nth p [0; 1; 2; 3; 4; 5; 1000; 1001; 1002; 1003; 1004; 1005]%float 0%float).
Theorem C82_density_refuted : xrun two_groups (density two_groups) (List.seq 0 12) = Some [List.seq 0 12].
Proof. vm_compute. reflexivity. Qed.
(** a division into a cluster more than ten times the size of the other is to be avoided, and is made even though the
    test refuses every division *)
Definition outlier (p : nat) : fvec float := f1 (nth p [0; 1; 2; 3; 4; 5; 6; 7; 8; 9; 10; 1000]%float 0%float).
Theorem C82_crisp_refuted : xrun outlier (fun _ _ _ => true) (List.seq 0 12) = Some [List.seq 0 11; [11]]%nat.
Proof. vm_compute. reflexivity. Qed.
(** one cluster has no silhouette: infinity over infinity *)
Theorem C82_one_cluster_refuted : zVecMultiClusterMeanSilhouette default_dist outlier [Cl [0; 1]%nat (f1 0%float) 0%float] = Ok None.
Proof. vm_compute. reflexivity. Qed.

(** ** the hypotheses are met, and what the answers are *)
Example C82_ex_run : xrun two_groups (fun c _ _ => (length (sam c) <? 11)%nat) (List.seq 0 12) = Some [List.seq 0 6; [9;6;7;8;10;11]]%nat.
Proof. vm_compute. reflexivity. Qed.
Example C82_ex_silhouette :
  zVecMultiClusterMeanSilhouette default_dist (fun p => f1 (nth p [0; 1; 5; 6]%float 0%float)) [Cl [0;1]%nat (f1 0%float) 0%float; Cl [2;3]%nat (f1 0%float) 0%float] = Ok (Some 0x1.cc48676f3121ap-1%float).
Proof. vm_compute. reflexivity. Qed.
Example C82_ex_evenness : zVecMultiClusterEvenness [Cl [0;1;2]%nat (f1 0%float) 0%float; Cl [3;4]%nat (f1 0%float) 0%float] = Some 1.5%float.
Proof. vm_compute. reflexivity. Qed.
Definition rpt (p : nat) : fvec R := FV 1 (fun _ => INR p).
Example C82_ex_clustering : clustering_of 1 rpt [Cl [0;1]%nat (rpt 0) 0; Cl [5;2]%nat (rpt 5) 0] [0; 1; 2; 5]%nat.
Proof.
  assert (H : forall p q, p <> q -> 0 < sqd 1 (rpt p) (rpt q)).
  { intros p q N. unfold sqd. cbn. assert (p < q \/ q < p)%nat as [X|X] by lia; apply le_INR in X; rewrite S_INR in X; nra. }
  split; [split; [|split]; auto|split].
  - repeat constructor; cbn; intuition discriminate.
  - unfold partition_of. cbn. do 2 apply perm_skip. apply perm_swap.
  - intros c [<-|[<-|[]]]; discriminate.
Qed.
Print Assumptions C82_xmeans_partial.
Print Assumptions C82_two_means.
Print Assumptions C82_silhouette.
Print Assumptions C82_mean_silhouette.
Print Assumptions C82_evenness.
Print Assumptions C82_density_refuted.
Print Assumptions C82_crisp_refuted.
Print Assumptions C82_one_cluster_refuted.
Print Assumptions C82_density.
