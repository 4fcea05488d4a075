(** C107: Gaussian mixtures by the EM algorithm (src/zm_mva_gmm.c).
    The covariances stay symmetric and positive definite, the weights positive of sum 1, and no step lowers the
    likelihood; whole runs from the K-means clusters.  Over the reals, for all small tolerances. *)
From Coq Require Import Reals Lra Lia List Permutation.
From Verif Require Cluster4_Proofs Cluster5_Proofs.
From Verif Require Import Prelude Prelude_Proofs Scalar RealLib Fmat Fmat_Proofs LE_Model LE_Spec Qp_Spec IP_Model Vop Stat_Model Cluster_Model Cluster_Spec
  Stab_Proofs Small_Props Gmm_Model Gmm_Spec Gmm_Proofs Gmm2_Proofs Gmm3_Proofs Gmm4_Proofs Gmm5_Proofs.
Import ListNotations.
Local Open Scope R_scope.

(** the fields of the k-th unit *)
Definition weight (g : gmm (T := R)) (k : nat) : R := uweight (nth k (glist g) u0).
Definition mean_ (g : gmm (T := R)) (k : nat) : nat -> R := vel (ucore (nth k (glist g) u0)).
Definition cov_ (g : gmm (T := R)) (k : nat) : nat -> nat -> R := el (ucov (nth k (glist g) u0)).
Definition inv_ (g : gmm (T := R)) (k : nat) : nat -> nat -> R := el (uinv (nth k (glist g) u0)).
Definition mixture (n : nat) (g : gmm (T := R)) : Prop := is_mixture n (length (glist g)) (weight g) (cov_ g) (inv_ g).
Definition lik (n N : nat) (x : nat -> nat -> R) (g : gmm (T := R)) : R := likelihood n (length (glist g)) N x (weight g) (mean_ g) (cov_ g) (inv_ g).
(** the i-th sample *)
Definition data (pt : nat -> fvec R) (points : list nat) (i : nat) : nat -> R := vel (pt (nth i points O)).

Lemma fit_mixture n g : fit n (glist g) -> mixture n g.
Proof.
  intros (F & W). split; [|exact W]. intros k Hk. destruct (F (nth k (glist g) u0)) as (_ & A & B & C & D & _); [apply nth_In; auto|]. auto.
Qed.
Lemma LL_lik n g pts : fit n (glist g) -> LL n (glist g) pts = lik n (length pts) (pnt pts) g.
Proof.
  intros (F & W). unfold LL, lik, likelihood. apply rsum_ext. intros i Hi. f_equal. apply rsum_ext. intros k Hk. unfold weight, wts, fdens. f_equal. apply udens_regular. apply F, nth_In; auto.
Qed.
Lemma lik_ext n N x y g : (forall i, (i < N)%nat -> x i = y i) -> lik n N x g = lik n N y g.
Proof. intros E. unfold lik, likelihood. apply rsum_ext. intros i Hi. rewrite E by auto. reflexivity. Qed.
Lemma spread_ext n N x y : (forall i, (i < N)%nat -> x i = y i) -> spread n N x -> spread n N y.
Proof. intros E S_ v b H. apply (S_ v b). intros i Hi. rewrite E by auto. auto. Qed.
Lemma data_pnt pt points i : (i < length points)%nat -> data pt points i = pnt (map pt points) i.
Proof. intros Hi. unfold data, pnt. rewrite (nth_indep _ (zvec 0) (pt 0%nat)) by (rewrite map_length; auto). rewrite map_nth. reflexivity. Qed.

(** ** the iteration *)
(** From a proper mixture, whatever the number of the iterations: the result is a proper mixture, at least as likely. *)
Theorem C107_monotone_partial ltol n pts us l iter : (0 < n)%nat -> pts <> [] -> (forall p, In p pts -> vlen p = n) -> spread n (length pts) (fun i => vel (nth i pts (zvec 0))) ->
  us <> [] -> (forall u, In u us -> shape n u /\ udet u = det n (el (ucov u))) -> mixture n (GM us l) ->
  exists d, 0 < d /\ forall t, 0 < t <= d ->
  exists g b, em_loop t ltol exp ln (2 * PI) iter n (GM us l) pts (zmat (length us) (length pts)) (zmat (length us) (length pts)) (zvec (length pts)) (zvec (length us)) = Ok (g, b) /\
    length (glist g) = length us /\ mixture n g /\ lik n (length pts) (fun i => vel (nth i pts (zvec 0))) (GM us l) <= lik n (length pts) (fun i => vel (nth i pts (zvec 0))) g /\
    (b = true -> Rabs (loglik g - lik n (length pts) (fun i => vel (nth i pts (zvec 0))) g) <= ltol) /\
    (b = false -> (0 < iter)%nat -> loglik g <= lik n (length pts) (fun i => vel (nth i pts (zvec 0))) g).
Proof.
  intros Hn NP SZ SP NE SH (MX & MW). assert (HN : (0 < length pts)%nat) by (destruct pts; [congruence|cbn; lia]).
  assert (F : fit n us). { split; [|exact MW]. intros u Iu. destruct (In_nth _ _ u0 Iu) as (k & Hk & <-). destruct (MX k Hk) as (A & B & C & D). destruct (SH _ Iu) as (S1 & S2). split; [exact S1|]. split; [exact A|]. split; [exact B|]. split; [exact C|]. split; [exact D|exact S2]. }
  destruct (loop_fit ltol n pts HN Hn SZ SP iter (GM us l) (zmat (length us) (length pts)) (zmat (length us) (length pts)) (zvec (length pts)) (zvec (length us))) as (g & b & E & A1 & A2 & A3 & A4 & A5); auto.
  destruct (st_em exp ln (2 * PI) ltol n pts iter (GM us l) (zmat (length us) (length pts)) (zmat (length us) (length pts)) (zvec (length pts)) (zvec (length us))) as (d & Dp & HD).
  exists d. split; auto. intros t Ht. exists g, b. rewrite (HD t Ht). split; [exact E|]. cbn [glist] in *. rewrite !LL_lik in * by auto. rewrite (LL_lik n (GM us l)) in A3 by auto. fold (pnt pts).
  split; [exact A1|]. split; [apply fit_mixture; auto|]. split; [exact A3|]. split; [exact A4|]. intros Hb Hi. apply A5; auto.
Qed.

(** ** whole runs *)
Lemma run_zero ltol pt rndi rndf kiter n K points r cs i r' : (0 < n)%nat -> (0 < K)%nat -> (forall p, In p points -> vlen (pt p) = n) -> spread n (length points) (data pt points) ->
  zVecMultiClusterKMeans 0 (default_errsq n) default_dist (default_core 0) pt rndi rndf kiter n points K r = Ok (Some (cs, i, r')) -> length cs = K -> (forall c, In c cs -> sam c <> [] /\ forall p, In p (sam c) -> In p points) ->
  exists B, forall huge, B <= huge -> forall iter, exists g b, zGMMCreateEM 0 0 ltol exp ln (2 * PI) pt rndi rndf kiter (S iter) n (zGMMInit huge K n) points r = Ok (Some (g, b)) /\ length (glist g) = K /\ fit n (glist g) /\
    (b = true -> Rabs (loglik g - lik n (length points) (data pt points) g) <= ltol) /\ (b = false -> (0 < iter)%nat -> loglik g <= lik n (length points) (data pt points) g) /\
    ((K = 1%nat \/ forall c, In c cs -> flat n (map pt (sam c))) -> same n (map pt points) (glist g)).
Proof.
  intros Hn HK SZ SP EK LC NC. assert (HN : (0 < length points)%nat). { destruct points as [|p ps]; [|cbn; lia]. destruct cs as [|c cs]; [cbn in LC; lia|]. destruct (NC c (or_introl eq_refl)) as (A & B). destruct (sam c) as [|p l]; [congruence|]. destruct (B p); left; auto. }
  assert (SZ' : forall p, In p (map pt points) -> vlen p = n) by (intros p Ip; apply in_map_iff in Ip; destruct Ip as (q & <- & Iq); auto).
  assert (SP' : spread n (length (map pt points)) (pnt (map pt points))) by (rewrite map_length; eapply spread_ext; [|exact SP]; intros; apply data_pnt; auto).
  assert (HN' : (0 < length (map pt points))%nat) by (rewrite map_length; auto).
  set (w := 1 / INR K). assert (KP : 0 < INR K) by (apply lt_0_INR; auto). assert (Hw : 0 < w) by (unfold w; apply Rdiv_lt_0_compat; lra).
  destruct (estimates_ok 0 n w ltac:(lra) Hn Hw (map (fun c => map pt (sam c)) cs) (repeat (GU (zvec n) (zmat n n) 0 (zmat n n) 0) K)) as (us & EU & U1 & U2 & U3 & U4).
  { rewrite map_length, repeat_length. auto. } { intros u Iu. apply repeat_spec in Iu. subst u. unfold shape. cbn. auto. }
  { intros c Ic. apply in_map_iff in Ic. destruct Ic as (c0 & <- & Ic). destruct (NC c0 Ic) as (A & B). split; [destruct (sam c0); [congruence|discriminate]|]. intros p Ip. apply in_map_iff in Ip. destruct Ip as (q & <- & Iq). auto. }
  rewrite repeat_length in U1. assert (UN : us <> []) by (intros ->; cbn in U1; lia).
  exists (Rabs (LL n us (map pt points)) + Rabs ltol + 1). intros huge HB iter. unfold zGMMCreateEM. cbn [zGMMInit glist loglik]. rewrite repeat_length.
  destruct (Nat.eqb_spec K 0); [lia|]. destruct (Nat.eqb_spec (length points) 0); [lia|]. cbn [orb]. rewrite EK. cbn [bind]. rewrite LC.
  assert (EW : sdiv s1 (sofZ (Z.of_nat K)) = w). { unfold w. rs. rewrite <- INR_IZR_INZ. reflexivity. } rewrite EW.
  rewrite (estimates_huge 0 0 n w huge 0 n K) by (rewrite map_length; auto). rewrite EU. cbn [bind].
  assert (NT : ltol < Rabs (loglik (GM us (sopp huge)) - LL n (glist (GM us (sopp huge))) (map pt points))).
  { cbn [glist loglik]. rs. pose proof (Rle_abs (LL n us (map pt points))). pose proof (Rle_abs (- LL n us (map pt points))) as H2. rewrite Rabs_Ropp in H2. pose proof (Rle_abs ltol). rewrite <- Rabs_Ropp. pose proof (Rle_abs (- (- huge - LL n us (map pt points)))). lra. }
  destruct (loop_start ltol n (map pt points) HN' Hn SZ' SP' iter (GM us (sopp huge)) (zmat K (length (map pt points))) (zmat K (length (map pt points))) (zvec (length (map pt points))) (zvec K)) as (g & b & E & A1 & A2 & A3 & A4 & A5); auto.
  unfold rmap. rewrite E. cbn [bind]. exists g, b. cbn [glist] in A1. rewrite U1 in A1. rewrite !LL_lik in A4, A5 by auto. rewrite map_length in A4, A5.
  rewrite (lik_ext n (length points) (data pt points) (pnt (map pt points))) by (intros; apply data_pnt; auto). split; [reflexivity|]. conjs; auto.
  intros HF. refine (loop_same ltol n (map pt points) HN' Hn SZ' SP' (S iter) _ _ _ _ _ g b _ _ _ (or_intror (conj NT (Nat.lt_0_succ iter))) _ _ _ _ _ _ E); auto.
  cbn [glist]. intros k Hk. split.
  - unfold wts. rewrite U3 by (apply nth_In; auto). rewrite U1. reflexivity.
  - intros j Hj. destruct HF as [->|HF]; [replace k with 0%nat by lia; reflexivity|].
    assert (Z : forall k, (k < length us)%nat -> fdens n us (map pt points) k j = 1).
    { intros q Hq. unfold fdens, udens. rewrite (U4 ltac:(intros c Ic; apply in_map_iff in Ic; destruct Ic as (c0 & <- & Ic); auto) (nth q us u0)) by (apply nth_In; auto). destruct (Req_EM_T 0 0); [reflexivity|lra]. }
    rewrite !Z by lia. reflexivity.
Qed.

(** When no cluster of K-means is empty: for all small tolerances the answer is a proper mixture, and the likelihood
    reported is its likelihood within ltol, or a lower bound of it when the iterations run out. *)
Theorem C107_run_partial ltol pt rndi rndf kiter n K points r cs i r' : (0 < n)%nat -> (0 < K)%nat -> (forall p, In p points -> vlen (pt p) = n) -> spread n (length points) (data pt points) ->
  zVecMultiClusterKMeans 0 (default_errsq n) default_dist (default_core 0) pt rndi rndf kiter n points K r = Ok (Some (cs, i, r')) -> length cs = K -> (forall c, In c cs -> sam c <> [] /\ forall p, In p (sam c) -> In p points) ->
  exists B, forall huge, B <= huge -> forall iter, exists d, 0 < d /\ forall t, 0 < t <= d ->
  exists g b, zGMMCreateEM t t ltol exp ln (2 * PI) pt rndi rndf kiter (S iter) n (zGMMInit huge K n) points r = Ok (Some (g, b)) /\ length (glist g) = K /\ mixture n g /\
    (b = true -> Rabs (loglik g - lik n (length points) (data pt points) g) <= ltol) /\ (b = false -> (0 < iter)%nat -> loglik g <= lik n (length points) (data pt points) g).
Proof.
  intros Hn HK SZ SP EK LC NC. destruct (run_zero ltol pt rndi rndf kiter n K points r cs i r' Hn HK SZ SP EK LC NC) as (B & HB). exists B. intros huge Hh iter. destruct (HB huge Hh iter) as (g & b & E & A1 & A2 & A3 & A4 & _).
  destruct (st_create exp ln (2 * PI) ltol pt rndi rndf kiter (S iter) n (zGMMInit huge K n) points r) as (d & Dp & HD). exists d. split; auto. intros t Ht. exists g, b. rewrite (HD t Ht). split; [exact E|]. split; [exact A1|]. split; [apply fit_mixture; auto|]. auto.
Qed.

(** K-means of one or two clusters of distinct points leaves none empty *)
Lemma means_one n pt points rndi rndf kiter r : distinct_points n pt points -> (forall r n, (0 < n)%nat -> (rndi r n < n)%nat) -> (forall r, 0 < rndf r <= 1) -> points <> [] ->
  exists c i r', zVecMultiClusterKMeans 0 (default_errsq n) default_dist (default_core 0) pt rndi rndf kiter n points 1 r = Ok (Some ([c], i, r')) /\ Permutation (sam c) points.
Proof.
  intros DP RI RF NP. assert (L1 : (0 < 1 <= length points)%nat) by (destruct points; [congruence|cbn; lia]).
  destruct (Cluster4_Proofs.pp_spec 0 ltac:(lra) n pt points DP rndi rndf kiter 1 r RI RF) as (cs & i & E & _ & L & P & _); auto. { intros. apply DP; auto. }
  destruct cs as [|c [|? ?]]; try discriminate. exists c, i, (r + 1)%nat. split; [exact E|]. unfold partition_of in P. cbn in P. rewrite app_nil_r in P. exact P.
Qed.
Theorem C107_run_small ltol pt rndi rndf kiter n K points r : (0 < n)%nat -> K = 1%nat \/ (K = 2%nat /\ (2 <= length points)%nat) -> points <> [] -> distinct_points n pt points -> spread n (length points) (data pt points) ->
  (forall r n, (0 < n)%nat -> (rndi r n < n)%nat) -> (forall r, 0 < rndf r <= 1) ->
  exists B, forall huge, B <= huge -> forall iter, exists d, 0 < d /\ forall t, 0 < t <= d ->
  exists g b, zGMMCreateEM t t ltol exp ln (2 * PI) pt rndi rndf kiter (S iter) n (zGMMInit huge K n) points r = Ok (Some (g, b)) /\ length (glist g) = K /\ mixture n g /\
    (b = true -> Rabs (loglik g - lik n (length points) (data pt points) g) <= ltol) /\ (b = false -> (0 < iter)%nat -> loglik g <= lik n (length points) (data pt points) g).
Proof.
  intros Hn HK NP DP SP RI RF. pose proof DP as (_ & SZ & _). destruct HK as [->|(-> & H2)].
  - destruct (means_one n pt points rndi rndf kiter r DP RI RF NP) as (c & i & r' & E & P). apply (C107_run_partial ltol pt rndi rndf kiter n 1 points r [c] i r'); auto.
    intros c' [<-|[]]. split; [intros Z; rewrite Z in P; apply Permutation_nil in P; congruence|]. intros p Ip. eapply Permutation_in; eauto.
  - destruct (Cluster5_Proofs.two_means 0 ltac:(lra) n pt points DP rndi rndf kiter r RI RF ltac:(intros; apply DP; auto) H2) as (c1 & c2 & i & E & P & N1 & N2).
    apply (C107_run_partial ltol pt rndi rndf kiter n 2 points r [c1; c2] i (r + 2)%nat); auto.
    intros c' [<-|[<-|[]]]; split; auto; intros p Ip; eapply Permutation_in; eauto; apply in_or_app; auto.
Qed.
(** One component: the mean and the covariance of the sample. *)
Theorem C107_single ltol pt rndi rndf kiter n points r : (0 < n)%nat -> points <> [] -> distinct_points n pt points -> spread n (length points) (data pt points) ->
  (forall r n, (0 < n)%nat -> (rndi r n < n)%nat) -> (forall r, 0 < rndf r <= 1) ->
  exists B, forall huge, B <= huge -> forall iter, exists d, 0 < d /\ forall t, 0 < t <= d ->
  exists g b, zGMMCreateEM t t ltol exp ln (2 * PI) pt rndi rndf kiter (S iter) n (zGMMInit huge 1 n) points r = Ok (Some (g, b)) /\ length (glist g) = 1%nat /\ weight g 0 = 1 /\
    (forall a, mean_ g 0 a = smean (length points) (data pt points) a) /\ forall a c, (a < n)%nat -> (c < n)%nat -> cov_ g 0 a c = scov (length points) (data pt points) a c.
Proof.
  intros Hn NP DP SP RI RF. pose proof DP as (_ & SZ & _). destruct (means_one n pt points rndi rndf kiter r DP RI RF NP) as (c & i & r' & E & P).
  destruct (run_zero ltol pt rndi rndf kiter n 1 points r [c] i r' Hn ltac:(lia) SZ SP E eq_refl) as (B & HB).
  { intros c' [<-|[]]. split; [intros Z; rewrite Z in P; apply Permutation_nil in P; congruence|]. intros p Ip. eapply Permutation_in; eauto. }
  exists B. intros huge Hh iter. destruct (HB huge Hh iter) as (g & b & EG & A1 & _ & _ & _ & A5).
  destruct (st_create exp ln (2 * PI) ltol pt rndi rndf kiter (S iter) n (zGMMInit huge 1 n) points r) as (d & Dp & HD). exists d. split; auto. intros t Ht. exists g, b. rewrite (HD t Ht). split; [exact EG|].
  destruct (A5 (or_introl eq_refl) 0%nat) as (W & M & C); [lia|]. rewrite map_length in *. rewrite A1 in W. cbn [INR] in W. split; [exact A1|]. split; [unfold weight; lra|].
  assert (SM : forall a, smean (length points) (pnt (map pt points)) a = smean (length points) (data pt points) a) by (intros a; unfold smean; f_equal; apply rsum_ext; intros; rewrite data_pnt; auto).
  split; [intros a; unfold mean_; rewrite M; apply SM|]. intros a c0 Ha Hc. unfold cov_. rewrite C by auto. unfold scov. rewrite !SM. f_equal. apply rsum_ext. intros. rewrite data_pnt by auto. auto.
Qed.

Lemma nodup_r {A} (l m : list A) : NoDup (l ++ m) -> NoDup m.
Proof. induction l as [|a l IH]; auto. cbn. intros H. inversion H; auto. Qed.
Lemma nodup_l {A} (l m : list A) : NoDup (l ++ m) -> NoDup l.
Proof. intros H. apply (nodup_r m l). eapply Permutation_NoDup; [apply Permutation_app_comm|auto]. Qed.

(** ** what does not hold *)
(** A singular covariance counts as the density 1 everywhere.  So when every cluster of K-means is flat, all components
    come out as one and the same normal density, that of the whole sample: two components for any triangle. *)
Theorem C107_collapse_refuted ltol pt rndi rndf kiter r : (forall p, (p < 3)%nat -> vlen (pt p) = 2%nat) ->
  (vel (pt 1%nat) 0%nat - vel (pt 0%nat) 0%nat) * (vel (pt 2%nat) 1%nat - vel (pt 0%nat) 1%nat) - (vel (pt 2%nat) 0%nat - vel (pt 0%nat) 0%nat) * (vel (pt 1%nat) 1%nat - vel (pt 0%nat) 1%nat) <> 0 ->
  (forall r n, (0 < n)%nat -> (rndi r n < n)%nat) -> (forall r, 0 < rndf r <= 1) ->
  exists B, forall huge, B <= huge -> forall iter, exists d, 0 < d /\ forall t, 0 < t <= d ->
  exists g b, zGMMCreateEM t t ltol exp ln (2 * PI) pt rndi rndf kiter (S iter) 2 (zGMMInit huge 2 2) [0; 1; 2]%nat r = Ok (Some (g, b)) /\ length (glist g) = 2%nat /\
    forall k, (k < 2)%nat -> weight g k = 1 / 2 /\ (forall a, mean_ g k a = smean 3 (fun i => vel (pt i)) a) /\ forall a c, (a < 2)%nat -> (c < 2)%nat -> cov_ g k a c = scov 3 (fun i => vel (pt i)) a c.
Proof.
  intros SZ AR RI RF. set (points := [0; 1; 2]%nat).
  assert (IP3 : forall p, In p points -> (p < 3)%nat) by (intros p [<-|[<-|[<-|[]]]]; lia).
  assert (SZp : forall p, In p points -> vlen (pt p) = 2%nat) by (intros; apply SZ; auto).
  assert (DP : distinct_points 2 pt points).
  { split; [|split; [exact SZp|]]. - repeat constructor; cbn; intuition lia.
    - intros p q Ip Iq Npq. destruct (Rle_lt_or_eq_dec 0 (sqd 2 (pt p) (pt q)) (Cluster2_Proofs.sqd_nonneg _ _ _)) as [|Z]; auto. exfalso. symmetry in Z.
      pose proof (Cluster2_Proofs.sqd_0 2 _ _ Z 0%nat ltac:(lia)) as Z0. pose proof (Cluster2_Proofs.sqd_0 2 _ _ Z 1%nat ltac:(lia)) as Z1.
      destruct Ip as [<-|[<-|[<-|[]]]], Iq as [<-|[<-|[<-|[]]]]; try lia; apply AR; rewrite ?Z0, ?Z1; ring. }
  assert (SP : spread 2 (length points) (data pt points)).
  { intros v b H. pose proof (H 0%nat ltac:(cbn; lia)) as H0. pose proof (H 1%nat ltac:(cbn; lia)) as H1. pose proof (H 2%nat ltac:(cbn; lia)) as H2. unfold data in H0, H1, H2. cbn [rsum points nth] in H0, H1, H2.
    set (x0 := vel (pt 0%nat) 0%nat) in *. set (y0 := vel (pt 0%nat) 1%nat) in *. set (x1 := vel (pt 1%nat) 0%nat) in *. set (y1 := vel (pt 1%nat) 1%nat) in *. set (x2 := vel (pt 2%nat) 0%nat) in *. set (y2 := vel (pt 2%nat) 1%nat) in *.
    assert (E1 : v 0%nat * (x1 - x0) + v 1%nat * (y1 - y0) = 0) by lra. assert (E2 : v 0%nat * (x2 - x0) + v 1%nat * (y2 - y0) = 0) by lra.
    intros a Ha. assert (a = 0 \/ a = 1)%nat as [->| ->] by lia; apply (Rmult_eq_reg_r _ _ _) with (2 := AR).
    - replace (v 0%nat * ((x1 - x0) * (y2 - y0) - (x2 - x0) * (y1 - y0))) with ((v 0%nat * (x1 - x0) + v 1%nat * (y1 - y0)) * (y2 - y0) - (v 0%nat * (x2 - x0) + v 1%nat * (y2 - y0)) * (y1 - y0)) by ring. rewrite E1, E2. ring.
    - replace (v 1%nat * ((x1 - x0) * (y2 - y0) - (x2 - x0) * (y1 - y0))) with ((v 0%nat * (x2 - x0) + v 1%nat * (y2 - y0)) * (x1 - x0) - (v 0%nat * (x1 - x0) + v 1%nat * (y1 - y0)) * (x2 - x0)) by ring. rewrite E1, E2. ring. }
  destruct (Cluster5_Proofs.two_means 0 ltac:(lra) 2 pt points DP rndi rndf kiter r RI RF ltac:(intros; apply DP; auto) ltac:(cbn; lia)) as (c1 & c2 & i & E & P & N1 & N2).
  assert (IC : forall c, In c [c1; c2] -> forall p, In p (sam c) -> In p points) by (intros c [<-|[<-|[]]] p Ip; eapply Permutation_in; eauto; apply in_or_app; auto).
  assert (LC : forall c, In c [c1; c2] -> (length (sam c) <= 2)%nat).
  { pose proof (Permutation_length P) as PL. rewrite app_length in PL. cbn in PL. intros c [<-|[<-|[]]]; destruct (sam c1), (sam c2); cbn in *; try congruence; lia. }
  destruct (run_zero ltol pt rndi rndf kiter 2 2 points r [c1; c2] i (r + 2)%nat ltac:(lia) ltac:(lia) SZp SP E eq_refl) as (B & HB).
  { intros c' Ic. split; [|apply IC; auto]. destruct Ic as [<-|[<-|[]]]; auto. }
  exists B. intros huge Hh iter. destruct (HB huge Hh iter) as (g & b & EG & A1 & _ & _ & _ & A5).
  destruct (st_create exp ln (2 * PI) ltol pt rndi rndf kiter (S iter) 2 (zGMMInit huge 2 2) points r) as (d & Dp & HD). exists d. split; auto. intros t Ht. exists g, b. rewrite (HD t Ht). split; [exact EG|]. split; [exact A1|].
  assert (FL : forall c, In c [c1; c2] -> flat 2 (map pt (sam c))).
  { intros c Ic. specialize (LC c Ic). assert (NC : sam c <> []) by (destruct Ic as [<-|[<-|[]]]; auto). assert (NDc : NoDup (sam c)).
    { assert (ND : NoDup (sam c1 ++ sam c2)) by (eapply Permutation_NoDup; [symmetry; exact P|apply DP]). destruct Ic as [<-|[<-|[]]]; [apply (nodup_l _ _ ND)|apply (nodup_r _ _ ND)]. }
    specialize (IC c Ic). destruct (sam c) as [|p [|q [|? ?]]] eqn:ES; [congruence| | |cbn in LC; lia].
    - exists (fun _ => 1), (rsum 2 (fun a => 1 * vel (pt p) a)). split; [exists 0%nat; split; [lia|lra]|]. intros x [<-|[]]. reflexivity.
    - assert (Npq : p <> q) by (inversion NDc as [|? ? X _]; subst; intros ->; apply X; left; auto). destruct DP as (_ & _ & D3). specialize (D3 p q (IC p ltac:(left; auto)) (IC q ltac:(right; left; auto)) Npq).
      exists (fun a => if (a =? 0)%nat then vel (pt q) 1%nat - vel (pt p) 1%nat else vel (pt p) 0%nat - vel (pt q) 0%nat), ((vel (pt q) 1%nat - vel (pt p) 1%nat) * vel (pt p) 0%nat + (vel (pt p) 0%nat - vel (pt q) 0%nat) * vel (pt p) 1%nat). split.
      + destruct (Req_EM_T (vel (pt q) 1%nat - vel (pt p) 1%nat) 0) as [Z|Z]; [|exists 0%nat; split; [lia|exact Z]]. destruct (Req_EM_T (vel (pt p) 0%nat - vel (pt q) 0%nat) 0) as [Z2|Z2]; [|exists 1%nat; split; [lia|exact Z2]].
        exfalso. unfold sqd in D3. cbn [rsum] in D3. replace (vel (pt q) 1%nat) with (vel (pt p) 1%nat) in D3 by lra. replace (vel (pt q) 0%nat) with (vel (pt p) 0%nat) in D3 by lra. nra.
      + intros x [<-|[<-|[]]]; cbn [rsum Nat.eqb]; ring. }
  intros k Hk. destruct (A5 (or_intror FL) k) as (W & M & C); [lia|]. rewrite A1 in W. rewrite map_length in *. change (length points) with 3%nat in *.
  assert (EP : forall i a, (i < 3)%nat -> pnt (map pt points) i a = vel (pt i) a) by (intros j a Hj; assert (j = 0 \/ j = 1 \/ j = 2)%nat as [->|[->| ->]] by lia; reflexivity).
  assert (SM : forall a, smean 3 (pnt (map pt points)) a = smean 3 (fun i => vel (pt i)) a) by (intros a; unfold smean; f_equal; apply rsum_ext; intros; auto).
  split; [unfold weight; rewrite W; cbn; lra|]. split; [intros a; unfold mean_; rewrite M; apply SM|]. intros a c Ha Hc. unfold cov_. rewrite C by auto. unfold scov. rewrite !SM. reflexivity.
Qed.
(** The criteria of Akaike and Bayes count n K parameters. *)
Theorem C107_criteria_refuted n (g : gmm (T := R)) N : (0 < n)%nat -> glist g <> [] -> (1 < N)%nat ->
  zGMMAIC n g = 2 * (INR n * INR (length (glist g))) - 2 * loglik g /\ zGMMAIC n g < 2 * parameters n (length (glist g)) - 2 * loglik g /\
  zGMMBIC ln n g N < parameters n (length (glist g)) * ln (INR N) - 2 * loglik g.
Proof.
  intros Hn NE HN. set (K := length (glist g)). assert (K1 : 1 <= INR K) by (change 1 with (INR 1); apply le_INR; unfold K; destruct (glist g); [congruence|cbn; lia]). assert (N1 : 1 <= INR n) by (change 1 with (INR 1); apply le_INR; lia).
  assert (EA : zGMMAIC n g = 2 * (INR n * INR K) - 2 * loglik g). { unfold zGMMAIC. rs. rewrite <- INR_IZR_INZ, mult_INR. fold K. ring. }
  assert (PP : INR n * INR K < parameters n K) by (unfold parameters; nra). split; [exact EA|]. split; [rewrite EA; lra|].
  unfold zGMMBIC. rs. rewrite <- !INR_IZR_INZ, mult_INR. fold K. assert (0 < ln (INR N)). { rewrite <- ln_1. apply ln_increasing; [lra|]. change 1 with (INR 1). apply lt_INR. lia. } nra.
Qed.

(** ** the hypotheses can be met *)
Definition tri : nat -> fvec R := fun i => FV 2 (fun a => match i, a with 1, 0 | 2, 1 => 1 | _, _ => 0 end).
Example C107_triangle : (forall p, (p < 3)%nat -> vlen (tri p) = 2%nat) /\
  (vel (tri 1%nat) 0%nat - vel (tri 0%nat) 0%nat) * (vel (tri 2%nat) 1%nat - vel (tri 0%nat) 1%nat) - (vel (tri 2%nat) 0%nat - vel (tri 0%nat) 0%nat) * (vel (tri 1%nat) 1%nat - vel (tri 0%nat) 1%nat) <> 0.
Proof. split; [reflexivity|]. cbn. lra. Qed.
(** points of the line: 0, 1, 5 and 6 *)
Definition four : nat -> fvec R := fun i => FV 1 (fun _ => match i with 0 => 0 | 1 => 1 | 2 => 5 | _ => 6 end).
Example C107_four : distinct_points 1 four [0; 1; 2; 3]%nat /\ spread 1 4 (data four [0; 1; 2; 3]%nat).
Proof.
  split; [split; [|split]|].
  - repeat constructor; cbn; intuition lia.
  - reflexivity.
  - intros p q Ip Iq N. unfold sqd, four. destruct Ip as [<-|[<-|[<-|[<-|[]]]]], Iq as [<-|[<-|[<-|[<-|[]]]]]; try congruence; cbn; lra.
  - intros v b H a Ha. pose proof (H 0%nat ltac:(lia)) as H0. pose proof (H 1%nat ltac:(lia)) as H1. cbn in H0, H1. replace a with 0%nat by lia. lra.
Qed.
Definition duo : list (unit_ (T := R)) := let u m := GU (FV 1 (fun _ => m)) (FM 1 1 (fun _ _ => 1)) (1 / 2) (FM 1 1 (fun _ _ => 1)) 1 in [u 0; u 5].
Example C107_duo l : mixture 1 (GM duo l) /\ forall u, In u duo -> shape 1 u /\ udet u = det 1 (el (ucov u)).
Proof.
  split.
  - split; [|cbn; lra]. intros k Hk. cbn in Hk. assert (Q : forall x, qf 1 (fun _ _ => 1) x = x 0%nat ^ 2) by (intros x; unfold qf; cbn; ring).
    assert (A : pd 1 (fun _ _ => 1)) by (intros x (i & Hi & Nx); rewrite Q; replace i with 0%nat in Nx by lia; nra).
    assert (B : inverse 1 (fun _ _ => 1) (fun _ _ => 1)) by (intros [|r] [|c] Hr Hc; try lia; cbn; ring).
    assert (k = 0 \/ k = 1)%nat as [->| ->] by lia; unfold weight, cov_, inv_, mixture; cbn [glist duo nth uweight ucov uinv el]; repeat split; auto; lra.
  - intros u [<-|[<-|[]]]; split; try (unfold shape; cbn; auto; fail); cbn; ring.
Qed.
Print Assumptions C107_monotone_partial.
Print Assumptions C107_run_partial.
Print Assumptions C107_run_small.
Print Assumptions C107_single.
Print Assumptions C107_collapse_refuted.
Print Assumptions C107_criteria_refuted.
