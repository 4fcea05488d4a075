(** Proofs about X-means and the indices of clusterings (C82). *)
From Coq Require Import Reals Lra Lia Psatz List Permutation.
From Verif Require Import Prelude Prelude_Proofs Scalar RealLib Fmat Fmat_Proofs LE_Model IP_Model IP_Proofs Vop Stat_Model Stat_Proofs Stat2_Proofs Cluster_Model Cluster_Proofs Cluster2_Proofs Cluster3_Proofs Cluster4_Proofs Cluster_Spec.
Import ListNotations.
Local Open Scope R_scope.

(** ** two means never leave a cluster empty *)
Section Two.
  Context (tol : R) (HT : 0 <= tol < 1) (m : nat) (pt : nat -> fvec R) (points : list nat) (HP : distinct_points m pt points).
  Local Notation D := (fun p c => sqd m (pt p) c).
  Local Notation dc := (default_core tol).
  (** the difference of the squares of the distances to x and to y: positive nearer to y *)
  Definition hs (x y z : fvec R) : R := sqd m z x - sqd m z y.
  Definition mean (l : list nat) : fvec R := FV m (fun i => lsum (fun p => vel (pt p) i) l / INR (length l)).
  Lemma hs_mean x y l : l <> [] -> INR (length l) * hs x y (mean l) = lsum (fun p => hs x y (pt p)) l.
  Proof.
    intros NE. assert (N : 0 < INR (length l)) by (apply lt_0_INR; destruct l; [congruence|cbn; lia]).
    assert (H : forall z, hs x y z = rsum m (fun i => 2 * (vel y i - vel x i) * vel z i + (vel x i ^ 2 - vel y i ^ 2))).
    { intros z. unfold hs, sqd. rewrite <- rsum_sub. apply rsum_ext. intros; ring. }
    rewrite H. rewrite (lsum_ext _ _ l (fun p _ => H (pt p))). rewrite lsum_rsum, <- rsum_scal. apply rsum_ext. intros i Hi.
    rewrite (lsum_ext _ (fun p => 2 * (vel y i - vel x i) * vel (pt p) i - (vel y i ^ 2 - vel x i ^ 2))) by (intros; ring).
    rewrite lsum_sub, lsum_scal, lsum_const. unfold mean. cbn [vel]. field. lra.
  Qed.
  Lemma hs_ext x x' y y' z z' : (forall i, (i < m)%nat -> vel x i = vel x' i) -> (forall i, (i < m)%nat -> vel y i = vel y' i) -> (forall i, (i < m)%nat -> vel z i = vel z' i) -> hs x y z = hs x' y' z'.
  Proof. intros X Y Z. unfold hs, sqd. f_equal; apply rsum_ext; intros i Hi; now rewrite ?X, ?Y, ?Z. Qed.
  Lemma lsum_neg (f : nat -> R) l p : In p l -> f p < 0 -> (forall q, In q l -> f q <= 0) -> lsum f l < 0.
  Proof.
    intros I P H. induction l as [|a l IH]; [destruct I|]. cbn. fold (lsum f l).
    assert (L : lsum f l <= 0). { replace 0 with (lsum (fun _ : nat => 0) l) by (rewrite lsum_const; ring). apply lsum_le. intros; apply H. now right. }
    destruct I as [->|I]; [lra|]. specialize (IH I ltac:(intros; apply H; now right)). specialize (H a (or_introl eq_refl)). lra.
  Qed.
  Lemma lsum_neg_inv (f : nat -> R) l : lsum f l < 0 -> exists p, In p l /\ f p < 0.
  Proof.
    induction l as [|a l IH]; cbn; [lra|]. fold (lsum f l). intros H. destruct (Rlt_dec (f a) 0); [exists a; auto|]. destruct IH as (p & I & P); [lra|]. exists p. auto.
  Qed.
  Lemma hs_swap x y z : hs x y z = - hs y x z.
  Proof. unfold hs. ring. Qed.
  Lemma hs_self x y : hs x y x = - sqd m x y.
  Proof. unfold hs. rewrite sqd_refl. ring. Qed.

  (** two clusters, without a common mean *)
  Definition inv2 (cs : list (@cluster R)) : Prop := length cs = 2%nat /\ csam cs 0 <> [] /\ csam cs 1 <> [] /\ 0 < sqd m (mean (csam cs 0)) (mean (csam cs 1)).
  (** a half space with all of one and none of the other cluster *)
  Lemma sep x y l0 l1 p0 p1 : In p0 l0 -> hs x y (pt p0) < 0 -> (forall q, In q l0 -> hs x y (pt q) <= 0) ->
    In p1 l1 -> 0 < hs x y (pt p1) -> (forall q, In q l1 -> 0 <= hs x y (pt q)) -> 0 < sqd m (mean l0) (mean l1).
  Proof.
    intros I0 P0 H0 I1 P1 H1. destruct (Rle_lt_or_eq_dec 0 _ (sqd_nonneg m (mean l0) (mean l1))) as [|Z]; auto. exfalso.
    assert (N0 : l0 <> []) by (intros ->; destruct I0). assert (N1 : l1 <> []) by (intros ->; destruct I1).
    assert (L0 : 0 < INR (length l0)) by (apply lt_0_INR; destruct l0; [congruence|cbn; lia]).
    assert (L1 : 0 < INR (length l1)) by (apply lt_0_INR; destruct l1; [congruence|cbn; lia]).
    assert (A : lsum (fun p => hs x y (pt p)) l0 < 0) by (apply (lsum_neg (fun p => hs x y (pt p)) l0 p0); auto).
    assert (B : lsum (fun p => hs y x (pt p)) l1 < 0).
    { apply (lsum_neg (fun p => hs y x (pt p)) l1 p1); auto; [rewrite hs_swap; lra|]. intros q Iq. specialize (H1 q Iq). rewrite hs_swap. lra. }
    rewrite <- hs_mean in A, B by auto. assert (E : hs x y (mean l0) = hs x y (mean l1)) by (apply hs_ext; auto; intros i Hi; now apply (sqd_0 m)).
    rewrite (hs_swap y x) in B. rewrite E in A. nra.
  Qed.
  Lemma two_step a b c : (0 < length a)%nat -> wf points (cokm m) a -> inv2 a -> cores_of dc pt points (cokm m) D a b -> reassigned points (cokm m) D b c -> inv2 c.
  Proof.
    intros La (W1 & W2) (I0 & I1 & I2 & I3) (C1 & C2 & C3 & C4 & C5 & C6) (R1 & R2 & R3 & R4 & R5). destruct HP as (P1 & P2 & P3).
    assert (CM : forall i, (i < 2)%nat -> forall j, (j < m)%nat -> vel (ccore b i) j = vel (mean (csam a i)) j).
    { intros i Hi j Hj. destruct (default_core_ok tol HT m pt (csam a i) (ccore a i)) as (mu & E & V & M).
      - intros p Ip. apply P2, W1. apply (in_all a i); auto. lia.
      - apply W2. lia.
      - rewrite (C5 i) in E by lia. injection E as ->. apply M. assert (i = 0 \/ i = 1)%nat as [->| ->] by lia; auto. }
    set (x := ccore b 0). set (y := ccore b 1).
    assert (L2 : length c = 2%nat) by lia.
    assert (HC : forall j q, (j < 2)%nat -> In q (csam c j) -> if (j =? 0)%nat then hs x y (pt q) <= 0 else 0 < hs x y (pt q)).
    { intros j q Hj Iq. specialize (R5 j q ltac:(lia) Iq). rewrite L2 in R5. cbn [near snd] in R5. unfold bestT in R5. cbn [fst snd] in R5. rewrite !R2 in R5. fold x y in R5. rs.
      unfold hs. destruct (Rltb_spec (sqd m (pt q) y) (sqd m (pt q) x)); cbn [snd] in R5; subst j; cbn; lra. }
    assert (PL : forall i p, (i < 2)%nat -> In p (csam a i) -> exists j, (j < 2)%nat /\ In p (csam c j)).
    { intros i p Hi Ip. assert (Ia : In p (all c)). { eapply Permutation_in; [symmetry; apply R3|]. rewrite C4. apply (in_all a i); auto. lia. }
      apply all_in in Ia. destruct Ia as (j & Hj & Ij). exists j. split; auto. lia. }
    assert (XY : 0 < sqd m x y).
    { replace (sqd m x y) with (sqd m (mean (csam a 0)) (mean (csam a 1))); auto. unfold sqd. apply rsum_ext. intros i Hi. unfold x, y. now rewrite !CM by lia. }
    assert (exists p0, In p0 (csam c 0) /\ hs x y (pt p0) < 0) as (p0 & Ip0 & Hp0).
    { destruct (lsum_neg_inv (fun p => hs x y (pt p)) (csam a 0)) as (p & Ip & Hp).
      - rewrite <- hs_mean by auto. assert (N : 0 < INR (length (csam a 0))) by (apply lt_0_INR; destruct (csam a 0); [congruence|cbn; lia]).
        rewrite (hs_ext x x y y (mean (csam a 0)) x) by (auto; intros i Hi; unfold x; symmetry; apply (CM 0%nat); lia). rewrite hs_self. nra.
      - exists p. split; auto. destruct (PL 0%nat p) as (j & Hj & Ij); auto. assert (j = 0 \/ j = 1)%nat as [->| ->] by lia; auto.
        specialize (HC 1%nat p Hj Ij). cbn in HC. lra. }
    assert (exists p1, In p1 (csam c 1) /\ 0 < hs x y (pt p1)) as (p1 & Ip1 & Hp1).
    { destruct (lsum_neg_inv (fun p => hs y x (pt p)) (csam a 1)) as (p & Ip & Hp).
      - rewrite <- hs_mean by auto. assert (N : 0 < INR (length (csam a 1))) by (apply lt_0_INR; destruct (csam a 1); [congruence|cbn; lia]).
        rewrite (hs_ext y y x x (mean (csam a 1)) y) by (auto; intros i Hi; unfold y; symmetry; apply (CM 1%nat); lia). rewrite hs_self, sqd_sym. nra.
      - exists p. rewrite hs_swap in Hp. split; [|lra]. destruct (PL 1%nat p) as (j & Hj & Ij); auto. assert (j = 0 \/ j = 1)%nat as [->| ->] by lia; auto.
        specialize (HC 0%nat p Hj Ij). cbn in HC. lra. }
    split; auto. split; [intros X; now rewrite X in Ip0|]. split; [intros X; now rewrite X in Ip1|].
    apply (sep x y _ _ p0 p1); auto.
    - intros q Iq. apply (HC 0%nat q); auto.
    - intros q Iq. apply Rlt_le. apply (HC 1%nat q); auto.
  Qed.
  Lemma two_means rndi rndf maxiter r : (forall r n, (0 < n)%nat -> (rndi r n < n)%nat) -> (forall r, 0 < rndf r <= 1) ->
    (forall p q, In p points -> In q points -> p <> q -> tol < sqd m (pt p) (pt q)) -> (2 <= length points)%nat ->
    exists t h n, zVecMultiClusterKMeans tol (default_errsq m) default_dist dc pt rndi rndf maxiter m points 2 r = Ok (Some ([t; h], n, (r + 2)%nat)) /\
      Permutation (sam t ++ sam h) points /\ sam t <> [] /\ sam h <> [].
  Proof.
    intros RI RF TP Hk. assert (NE : points <> []) by (destruct points; [cbn in *; lia|discriminate]). pose proof HP as (P1 & P2 & P3).
    destruct (pp_ok default_dist pt points (fun p q => sqrt (sqd m (pt p) (pt q))) (HEm m pt points HP) tol (proj1 HT) rndi rndf 2 P1 NE RI RF (E0m m pt points)) with (r := r) as (seeds & Es & DS); auto.
    { intros. apply sqrt_pos. }
    { intros p q Ip Iq N. cbn beta. rewrite sqrt_sqrt by apply sqd_nonneg. auto. }
    unfold zVecMultiClusterKMeans. rewrite Es. cbn [bind].
    destruct DS as (S1 & S2 & S3). destruct seeds as [|s0 [|s1 [|? ?]]]; try discriminate.
    destruct (init_ok default_dist pt points (fun p q => sqrt (sqd m (pt p) (pt q))) (HEm m pt points HP) [s0; s1] S3 ltac:(discriminate) P1 S2) as (cs & Ec & (L & Hh) & P & M). rewrite Ec. cbn [bind].
    destruct cs as [|l0 [|l1 [|? ?]]]; try discriminate.
    destruct (Hh 0%nat) as (t0 & E0); [cbn; lia|]. destruct (Hh 1%nat) as (t1 & E1); [cbn; lia|]. cbn [nth] in E0, E1.
    set (cs1 := map (@new_cluster R RealS m) [l0; l1]).
    assert (W : wf points (cokm m) cs1) by (apply samples_wf, new_of; auto).
    assert (N01 : s0 <> s1) by (inversion S2 as [|? ? X _]; subst; intros ->; apply X; now left).
    assert (PS : 0 < sqd m (pt s0) (pt s1)) by (apply P3; auto; apply S3; cbn; auto).
    assert (I0 : inv2 cs1).
    { split; [reflexivity|]. unfold cs1, csam. cbn [nth map new_cluster sam]. split; [rewrite E0; discriminate|]. split; [rewrite E1; discriminate|].
      apply (sep (pt s0) (pt s1) l0 l1 s0 s1).
      - rewrite E0. now left.
      - rewrite hs_self. lra.
      - intros q Iq. destruct (M 0%nat q) as [Eq|X]; [cbn; lia|exact Iq|cbn [nth] in Eq; subst q; rewrite hs_self; lra|]. specialize (X 1%nat ltac:(cbn; lia)). cbn [nth] in X. apply sqrt_le_0 in X; try apply sqd_nonneg. unfold hs. lra.
      - rewrite E1. now left.
      - rewrite hs_swap, hs_self, sqd_sym. lra.
      - intros q Iq. destruct (M 1%nat q) as [Eq|X]; [cbn; lia|exact Iq|cbn [nth] in Eq; subst q; rewrite hs_swap, hs_self, sqd_sym; lra|]. specialize (X 0%nat ltac:(cbn; lia)). cbn [nth] in X. apply sqrt_le_0 in X; try apply sqd_nonneg. unfold hs. lra. }
    destruct (recluster_ok (default_errsq m) dc pt points (cokm m) D (HDm m pt points P2) inv2) with (rest := maxiter) (i := O) (cs := cs1)
      as (cs' & n & E' & B1 & B2 & B3 & B4 & B5 & _); auto.
    - intros; now apply (finem tol HT m pt points P2).
    - intros a b c La Wa Ia CO RE. eapply two_step; eauto.
    - unfold cs1. cbn. lia.
    - fold cs1. unfold _zVecMultiClusterKMeansRecluster. rewrite E'. cbn [bind]. destruct cs' as [|t [|h [|? ?]]]; try discriminate. exists t, h, n.
      destruct B3 as (_ & N0 & N1 & _). conjs; auto.
      replace (sam t ++ sam h) with (all [t; h]) by (unfold all; cbn; now rewrite app_nil_r). rewrite B5. unfold all, cs1. rewrite new_samples. exact P.
  Qed.
End Two.

(** ** X-means *)
Section XMeans.
  Context (tol : R) (HT : 0 <= tol < 1) (m : nat) (pt : nat -> fvec R).
  Context (rndi : nat -> nat -> nat) (rndf : nat -> R) (RI : forall r n, (0 < n)%nat -> (rndi r n < n)%nat) (RF : forall r, 0 < rndf r <= 1).
  Context (test : @cluster R -> @cluster R -> @cluster R -> bool).
  Definition apart (points : list nat) : Prop := distinct_points m pt points /\ forall p q, In p points -> In q points -> p <> q -> tol < sqd m (pt p) (pt q).
  Lemma apart_sub l l' : apart l -> NoDup l' -> (forall p, In p l' -> In p l) -> apart l'.
  Proof. intros ((A & B & C) & H) N I. split; [split; [|split]|]; auto. Qed.
  Lemma xmeans_ok maxiter fuel : forall c r, apart (sam c) -> sam c <> [] -> (length (sam c) <= fuel)%nat ->
    exists cs r', _zVecMultiClusterXMeans tol (default_errsq m) default_dist (default_core tol) pt rndi rndf test fuel maxiter m c r = Ok (cs, r') /\
      Permutation (concat (map sam cs)) (sam c) /\ forall c', In c' cs -> sam c' <> [].
  Proof.
    induction fuel as [|fuel IH]; intros c r A NE L.
    - exfalso. destruct (sam c); [congruence|cbn in L; lia].
    - cbn [_zVecMultiClusterXMeans]. destruct (Nat.ltb_spec (length (sam c)) 10).
      + exists [c], r. conjs; auto; [cbn; now rewrite app_nil_r|]. intros c' [<-|[]]. auto.
      + pose proof A as (DP & TP). destruct (two_means tol HT m pt (sam c) DP rndi rndf maxiter r RI RF TP) as (t & h & n & E & P & Nt & Nh); [lia|].
        rewrite E. cbn [bind]. destruct (_zVecMultiClusterXMeansTest test c h t).
        * eexists [c], _. split; [reflexivity|]. split; [cbn; now rewrite app_nil_r|]. intros c' [<-|[]]. auto.
        * assert (ND : NoDup (sam t ++ sam h)) by (eapply Permutation_NoDup; [symmetry; exact P|apply DP]).
          assert (LP : (length (sam t) + length (sam h) = length (sam c))%nat) by (rewrite <- app_length; now apply Permutation_length).
          assert (Lt : (0 < length (sam t))%nat) by (destruct (sam t); [congruence|cbn; lia]).
          assert (Lh : (0 < length (sam h))%nat) by (destruct (sam h); [congruence|cbn; lia]).
          assert (At : apart (sam t)).
          { apply (apart_sub (sam c)); auto. - clear - ND. induction (sam t) as [|a l IH]; [constructor|]. cbn in ND. inversion ND; subst. constructor; auto. intros I. apply H1. apply in_or_app. auto.
            - intros p Ip. eapply Permutation_in; [exact P|]. apply in_or_app. auto. }
          assert (Ah : apart (sam h)).
          { apply (apart_sub (sam c)); auto. - clear - ND. induction (sam t) as [|a l IH]; auto. cbn in ND. inversion ND; auto.
            - intros p Ip. eapply Permutation_in; [exact P|]. apply in_or_app. auto. }
          destruct (IH h (r + 2)%nat Ah Nh ltac:(lia)) as (hs' & r1 & E1 & P1 & N1). rewrite E1. cbn [bind].
          destruct (IH t r1 At Nt ltac:(lia)) as (ts & r2 & E2 & P2 & N2). rewrite E2. cbn [bind]. exists (ts ++ hs'), r2. conjs; auto.
          { rewrite map_app, concat_app, P1, P2. exact P. }
          { intros c' Ic. apply in_app_or in Ic. destruct Ic; auto. }
  Qed.
  Lemma xmeans_spec maxiter fuel points r : apart points -> points <> [] -> (length points <= fuel)%nat ->
    exists cs r', zVecMultiClusterXMeans tol (default_errsq m) default_dist (default_core tol) pt rndi rndf test fuel maxiter m points r = Ok (cs, r') /\
      partition_of points cs /\ forall c, In c cs -> sam c <> [].
  Proof.
    intros A NE L. unfold zVecMultiClusterXMeans. pose proof A as ((_ & P2 & _) & _).
    destruct (default_core_ok tol HT m pt points (vzero m)) as (mu & E & V & _); auto. rewrite E. cbn [bind].
    rewrite (var_ok (default_errsq m) pt points (cokm m) (fun p c => sqd m (pt p) c)) by (auto; apply HDm; auto). cbn [bind sam core].
    apply (xmeans_ok maxiter fuel (Cl points mu _) r A NE L).
  Qed.
End XMeans.

(** ** silhouettes *)
Section Sil.
  Context (m : nat) (pt : nat -> fvec R) (cs : list (@cluster R)).
  Local Notation E := (fun p q => sqrt (sqd m (pt p) (pt q))).
  Context (SZ : forall p, In p (all cs) -> vlen (pt p) = m) (NE : forall c, In c cs -> sam c <> []).
  Definition avd (c : @cluster R) (p : nat) : R := lsum (fun q => E q p) (sam c) / INR (length (sam c)).
  Lemma avd_ok c p : In c cs -> In p (all cs) -> _zVecClusterDistAve default_dist (map pt (sam c)) (pt p) = Ok (avd c p).
  Proof.
    intros Ic Ip. unfold _zVecClusterDistAve. rewrite (distsum_ok default_dist (fun x y => sqrt (sqd m x y))).
    - cbn [bind]. unfold avd. rewrite lsum_map, map_length. rs. now rewrite <- INR_IZR_INZ.
    - intros x Ix. apply in_map_iff in Ix. destruct Ix as (q & <- & Iq). apply default_dist_ok; auto. apply SZ. unfold all. apply in_concat. exists (sam c). split; auto. now apply in_map.
  Qed.
  Lemma avd_nonneg c p : In c cs -> 0 <= avd c p.
  Proof.
    intros Ic. unfold avd. specialize (NE c Ic). assert (0 < INR (length (sam c))) by (apply lt_0_INR; destruct (sam c); [congruence|cbn; lia]).
    apply Rmult_le_pos; [apply lsum_nonneg; intros; apply sqrt_pos|]. left. now apply Rinv_0_lt_compat.
  Qed.
  Lemma sil_ok i p : (2 <= length cs)%nat -> (i < length cs)%nat -> In p (all cs) ->
    exists a b, silhouette default_dist pt cs i p = Ok (Some ((b - a) / (if Rltb b a then a else b))) /\ a = avd (nth i cs c0) p /\
      (exists j, (j < length cs)%nat /\ j <> i /\ b = avd (nth j cs c0) p) /\ (forall j, (j < length cs)%nat -> j <> i -> b <= avd (nth j cs c0) p).
  Proof.
    intros L2 Hi Ip. unfold silhouette. rewrite (get_ok _ i c0) by lia. cbn [bind]. rewrite avd_ok by (auto; apply nth_In; lia). cbn [bind].
    match goal with |- context [for_ 0 (length cs) ?f ?s] => destruct (for_inv (fun k b => match b with None => (forall j, (j < k)%nat -> j = i) | Some b =>
      (exists j, (j < k)%nat /\ j <> i /\ b = avd (nth j cs c0) p) /\ (forall j, (j < k)%nat -> j <> i -> b <= avd (nth j cs c0) p) end) 0 (length cs) f s) as (b & Eb & B) end; [lia| | |].
    - intros; lia.
    - intros k b Hk B. destruct (Nat.eqb_spec k i) as [->|Ni].
      + eexists. split; [reflexivity|]. destruct b as [b|].
        * destruct B as ((j & J1 & J2 & J3) & B). split; [exists j; auto|]. intros j' Hj' N. apply B; lia.
        * intros j Hj. assert (j = i \/ (j < i)%nat) as [->|] by lia; auto.
      + rewrite (get_ok _ k c0) by lia. cbn [bind]. rewrite avd_ok by (auto; apply nth_In; lia). cbn [bind]. eexists. split; [reflexivity|]. destruct b as [b|].
        * destruct B as ((j & J1 & J2 & J3) & B). rs. destruct (Rltb_spec (avd (nth k cs c0) p) b).
          { split; [exists k; auto|]. intros j' Hj' N. assert (j' = k \/ (j' < k)%nat) as [->|J] by lia; [lra|]. specialize (B j' J N). lra. }
          { split; [exists j; auto|]. intros j' Hj' N. assert (j' = k \/ (j' < k)%nat) as [->|J] by lia; [lra|]. now apply B. }
        * split; [exists k; auto|]. intros j' Hj' N. assert (j' = k \/ (j' < k)%nat) as [->|J] by lia; [lra|]. specialize (B j' J). congruence.
    - rewrite Eb. cbn [bind]. destruct b as [b|].
      + destruct B as (B1 & B2). exists (avd (nth i cs c0) p), b. conjs; auto.
      + exfalso. pose proof (B 0%nat ltac:(lia)). pose proof (B 1%nat ltac:(lia)). lia.
  Qed.
  Definition sil_range (s : R) : Prop := -1 <= s <= 1.
  Lemma sil_in i p s : (2 <= length cs)%nat -> (i < length cs)%nat -> In p (all cs) -> (forall p q, In p (all cs) -> In q (all cs) -> p <> q -> 0 < sqd m (pt p) (pt q)) -> NoDup (all cs) ->
    In p (sam (nth i cs c0)) -> silhouette default_dist pt cs i p = Ok s -> exists x, s = Some x /\ -1 <= x <= 1.
  Proof.
    intros L2 Hi Ip DP ND Is Es. destruct (sil_ok i p L2 Hi Ip) as (a & b & E' & Ea & (j & Hj & Nj & Eb) & _). rewrite E' in Es. injection Es as <-. eexists. split; [reflexivity|].
    assert (A : 0 <= a) by (rewrite Ea; apply avd_nonneg; now apply nth_In).
    assert (B : 0 < b).
    { rewrite Eb. unfold avd. assert (Ic : In (nth j cs c0) cs) by now apply nth_In. specialize (NE _ Ic). destruct (sam (nth j cs c0)) as [|q l] eqn:EL; [congruence|].
      assert (0 < INR (length (q :: l))) by (apply lt_0_INR; cbn; lia). apply Rmult_lt_0_compat; [|now apply Rinv_0_lt_compat].
      cbn. fold (lsum (fun q => sqrt (sqd m (pt q) (pt p))) l). assert (0 <= lsum (fun q => sqrt (sqd m (pt q) (pt p))) l) by (apply lsum_nonneg; intros; apply sqrt_pos).
      assert (0 < sqrt (sqd m (pt q) (pt p))); [|lra]. apply sqrt_lt_R0. apply DP; auto.
      - apply (in_all cs j); auto. unfold csam. rewrite EL. now left.
      - intros ->. apply Nj. apply (nodup_once cs j i p); auto. unfold csam. rewrite EL. now left. }
    destruct (Rltb_spec b a) as [X|X].
    - split; [apply Rmult_le_reg_r with a; [lra|]|apply Rmult_le_reg_r with a; [lra|]]; unfold Rdiv; rewrite Rmult_assoc, Rinv_l by lra; lra.
    - split; [apply Rmult_le_reg_r with b; [lra|]|apply Rmult_le_reg_r with b; [lra|]]; unfold Rdiv; rewrite Rmult_assoc, Rinv_l by lra; lra.
  Qed.
  Lemma mean_sil : (2 <= length cs)%nat -> (forall p q, In p (all cs) -> In q (all cs) -> p <> q -> 0 < sqd m (pt p) (pt q)) -> NoDup (all cs) ->
    exists s, zVecMultiClusterMeanSilhouette default_dist pt cs = Ok (Some s) /\ -1 <= s <= 1.
  Proof.
    intros L2 DP ND. unfold zVecMultiClusterMeanSilhouette, silhouettes.
    match goal with |- context [for_ 0 (length cs) ?f ?s] => destruct (for_inv (fun k '(sc, n) => (k <= n)%nat /\ exists x, sc = Some x /\ - INR n <= x <= INR n) 0 (length cs) f s) as ((sc & n) & E' & Ln & x & -> & X) end; [lia| | |].
    - split; auto. exists 0. cbn. split; [reflexivity|lra].
    - intros k (sc & n) Hk (Ln & x & -> & X). rewrite (get_ok _ k c0) by lia. cbn [bind]. set (l := sam (nth k cs c0)).
      assert (IL : forall p, In p l -> In p (all cs)) by (intros p Ip; apply (in_all cs k); auto; lia).
      match goal with |- context [foreach l ?f ?s] => destruct (foreach_inv (fun pre sc => exists y, sc = Some y /\ - INR (n + length pre) <= y <= INR (n + length pre)) f l [] s) as (sc' & E2 & y & -> & Y) end.
      + exists x. split; auto. cbn [length]. now rewrite Nat.add_0_r.
      + intros pre p sc Ip (y & -> & Y). destruct (sil_ok k p L2 ltac:(lia) (IL p Ip)) as (a & b & Es & _). destruct (sil_in k p _ L2 ltac:(lia) (IL p Ip) DP ND Ip Es) as (z & Ez & Z).
        rewrite Es. cbn [bind]. injection Ez as <-. eexists. split; [reflexivity|]. eexists. split; [reflexivity|]. rs. rewrite app_length. cbn [length]. replace (n + (length pre + 1))%nat with (S (n + length pre)) by lia. rewrite S_INR. lra.
      + rewrite E2. cbn [bind]. eexists. split; [reflexivity|]. split; [|exists y; split; auto].
        assert (In (nth k cs c0) cs) by (apply nth_In; lia). assert (NL : l <> []) by (apply NE; auto). destruct l; [congruence|cbn; lia].
    - rewrite E'. cbn [bind]. eexists. split; [reflexivity|]. rs. rewrite <- INR_IZR_INZ. assert (N : 0 < INR n) by (apply lt_0_INR; lia).
      split; apply Rmult_le_reg_r with (INR n); auto; unfold Rdiv; rewrite Rmult_assoc, Rinv_l by lra; lra.
  Qed.
End Sil.

(** ** evenness *)
Lemma even_sizes (cs : list (@cluster R)) : cs <> [] -> exists mn mx, evenness_sizes cs = (Some mn, mx) /\ (forall c, In c cs -> mn <= length (sam c) <= mx)%nat /\
  (exists c, In c cs /\ length (sam c) = mn) /\ ((exists c, In c cs /\ length (sam c) = mx) \/ mx = O).
Proof.
  intros NE. unfold evenness_sizes.
  assert (H : forall pre l st, (let '(mn, mx) := st in match mn with None => pre = [] /\ mx = O | Some n => (forall c, In c pre -> n <= length (sam c) <= mx)%nat /\ (exists c, In c pre /\ length (sam c) = n) /\ ((exists c, In c pre /\ length (sam c) = mx) \/ mx = O) end) ->
    let '(mn, mx) := fold_left (fun '(mn, mx) (c : @cluster R) => let n := length (sam c) in (match mn with None => Some n | Some m => if (n <? m)%nat then Some n else mn end, if (mx <? n)%nat then n else mx)) l st in
    match mn with None => pre ++ l = [] /\ mx = O | Some n => (forall c, In c (pre ++ l) -> n <= length (sam c) <= mx)%nat /\ (exists c, In c (pre ++ l) /\ length (sam c) = n) /\ ((exists c, In c (pre ++ l) /\ length (sam c) = mx) \/ mx = O) end).
  { intros pre l. revert pre. induction l as [|a l IH]; intros pre (mn & mx) H; cbn [fold_left].
    - rewrite app_nil_r. exact H.
    - replace (pre ++ a :: l) with ((pre ++ [a]) ++ l) by (now rewrite <- app_assoc). apply IH. cbv zeta.
      assert (IA : In a (pre ++ [a])) by (apply in_or_app; right; now left).
      destruct mn as [mn|]; cbv iota.
      + destruct H as (H1 & (c1 & I1 & L1) & H3).
        assert (I1' : In c1 (pre ++ [a])) by (apply in_or_app; now left).
        assert (H3' : (exists c, In c (pre ++ [a]) /\ length (sam c) = mx) \/ mx = O) by (destruct H3 as [(c & I & Lc)|H3]; auto; left; exists c; split; auto; apply in_or_app; now left).
        assert (H1' : forall c, In c (pre ++ [a]) -> c = a \/ (mn <= length (sam c) <= mx)%nat) by (intros c Ic; apply in_app_or in Ic; destruct Ic as [Ic|[<-|[]]]; auto).
        destruct (Nat.ltb_spec (length (sam a)) mn) as [X|X]; destruct (Nat.ltb_spec mx (length (sam a))) as [Y|Y]; (split; [intros c Ic; destruct (H1' c Ic) as [->|]; lia|split; eauto]).
      + destruct H as (-> & ->). cbn [app]. destruct (Nat.ltb_spec 0 (length (sam a))) as [X|X]; (split; [intros c [<-|[]]; lia|split; [exists a; split; [now left|auto]|]]).
        * left. exists a. split; [now left|auto].
        * now right. }
  specialize (H [] cs (None, O) ltac:(cbn; auto)). cbn [app] in H. destruct (fold_left _ cs (None, O)) as ([mn|] & mx).
  - exists mn, mx. auto.
  - destruct H as (H & _). congruence.
Qed.
