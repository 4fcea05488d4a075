(** C52-C54, the rest of C61, C75 (distributions), C76 (Savitzky-Golay) and zDataSum for C09. *)
From Coq Require Import Reals Lra Lia Psatz QArith PrimFloat FloatOps SpecFloat Sorting.Sorted Permutation.
From Coquelicot Require Import Coquelicot.
From Verif Require Import Prelude Prelude_Proofs Scalar RealLib Fmat Fmat_Proofs Misc_Model IP_Model IP_Proofs IP4_Proofs Pex_Spec Curve_Model Stat_Model Stat_Proofs Stat2_Proofs Stat3_Proofs Stat4_Proofs.
Local Open Scope R_scope.

(** ** C09 *)
Theorem C09_data_sum (data : list R) size : (size <= length data)%nat -> zDataSum data size = Ok (rsum size (fun i => nth i data 0)).
Proof. apply zDataSum_ok. Qed.
(** in binary64 the correction recovers what the plain sum of 1e16, 1, 1, -1e16 loses *)
Example C09_data_sum_binary64 : (zDataSum [1e16; 1; 1; 1; -1e16] 5 = Ok 3 /\ 1e16 + 1 + 1 + 1 + -1e16 = 0)%float.
Proof. split; reflexivity. Qed.

(** ** C53 *)
(** x is the first of the extremal values, [le x y] meaning that x is at least as good as y *)
Definition first_best (key : R -> R) (le lt : R -> R -> Prop) (data : list R) (size : nat) (x : R) (i : nat) : Prop :=
  (i < size)%nat /\ x = key (nth i data 0) /\ (forall j, (j < size)%nat -> le x (key (nth j data 0))) /\ (forall j, (j < i)%nat -> lt x (key (nth j data 0))).
Lemma Rltb_iff a b : Rltb a b = true <-> a < b.
Proof. destruct (Rltb_spec a b); split; intros; auto; discriminate. Qed.
Theorem C53_extrema (data : list R) size : (0 < size <= length data)%nat ->
  (exists x i, zDataMax data size = Ok (x, i) /\ first_best (fun x => x) Rge Rgt data size x i) /\
  (exists x i, zDataMin data size = Ok (x, i) /\ first_best (fun x => x) Rle Rlt data size x i) /\
  (exists x i, zDataAbsMax data size = Ok (x, i) /\ first_best Rabs Rge Rgt data size x i) /\
  (exists x i, zDataAbsMin data size = Ok (x, i) /\ first_best Rabs Rle Rlt data size x i).
Proof.
  intros H.
  assert (GT : forall key, exists x i, extremum key (fun y m => slt m y) data size = Ok (x, i) /\ first_best key Rge Rgt data size x i).
  { intros key. destruct (extremum_ok key (fun y m => slt m y) Rlt) with (data := data) (size := size) as ((x & i) & E & A & B & D & F); auto; cbn [slt RealS]; intros; try lra.
    - apply Rltb_iff.
    - exists x, i. split; auto. cbn [fst snd] in *. split; [auto|split; [auto|split; intros j Hj; [specialize (D j Hj)|specialize (F j Hj)]; lra]]. }
  assert (LT : forall key, exists x i, extremum key (fun y m => slt y m) data size = Ok (x, i) /\ first_best key Rle Rlt data size x i).
  { intros key. destruct (extremum_ok key (fun y m => slt y m) (fun a b => b < a)) with (data := data) (size := size) as ((x & i) & E & A & B & D & F); auto; cbn [slt RealS]; intros; try lra.
    - apply Rltb_iff.
    - exists x, i. split; auto. cbn [fst snd] in *. split; [auto|split; [auto|split; intros j Hj; [specialize (D j Hj)|specialize (F j Hj)]; lra]]. }
  unfold zDataMax, zDataMin, zDataAbsMax, zDataAbsMin. cbn [sabs RealS]. auto 6.
Qed.
Theorem C53_minmax (data : list R) size : (0 < size <= length data)%nat ->
  exists x i y j, zDataMinMax data size = Ok ((x, i), (y, j)) /\ first_best (fun x => x) Rle Rlt data size x i /\ first_best (fun x => x) Rge Rgt data size y j.
Proof.
  intros H. destruct (minmax_ok data size H) as ((x & i) & (y & j) & E & (A1 & A2 & A3 & A4) & (B1 & B2 & B3 & B4)). exists x, i, y, j. split; auto. cbn [fst snd] in *.
  split; (split; [auto|split; [auto|split; intros k Hk]]); [specialize (A3 k Hk)|specialize (A4 k Hk)|specialize (B3 k Hk)|specialize (B4 k Hk)]; lra.
Qed.
(** an empty array is read *)
Theorem C53_empty_refuted : zDataMax (T := R) [] 0 = UB.
Proof. reflexivity. Qed.

(** ** C52 *)
Theorem C52_mean (data : list R) size : (0 < size <= length data)%nat -> exists mu, zDataMean data size = Ok mu /\
  mu * INR size = rsum size (fun i => nth i data 0) /\
  (forall c, rsum size (fun i => (nth i data 0 - mu) ^ 2) <= rsum size (fun i => (nth i data 0 - c) ^ 2)).
Proof.
  intros H. exists (mean data size). rewrite zDataMean_ok by lia. split; auto. pose proof (INR_pos size ltac:(lia)). split; [unfold mean; field; lra|].
  intros c. rewrite (mean_min data size c), (mean_min data size (mean data size)) by lia. pose proof (pow2_ge_0 (c - mean data size)). nra.
Qed.
Theorem C52_variance (data : list R) size : (0 < size <= length data)%nat -> exists mu v, zDataMean data size = Ok mu /\ zDataVar data size = Ok v /\
  v * INR size = rsum size (fun i => (nth i data 0 - mu) ^ 2) /\ 0 <= v /\ zDataStandardDeviation data size = Ok (R_sqrt.sqrt v) /\
  (v = 0 <-> forall i, (i < size)%nat -> nth i data 0 = mu).
Proof.
  intros H. exists (mean data size), (var data size). pose proof (INR_pos size ltac:(lia)). unfold zDataStandardDeviation. rewrite zDataMean_ok, zDataVar_ok by lia.
  assert (E : var data size * INR size = rsum size (fun i => (nth i data 0 - mean data size) ^ 2)) by (unfold var; field; lra).
  assert (NN : 0 <= rsum size (fun i => (nth i data 0 - mean data size) ^ 2)) by (apply rsum_nonneg; intros; apply pow2_ge_0).
  do 3 (split; auto). split; [nra|]. split; auto. split.
  - intros Z i Hi. rewrite Z, Rmult_0_l in E. symmetry in E.
    pose proof (rsum_nonneg_0 size (fun i => (nth i data 0 - mean data size) ^ 2) (fun i _ => pow2_ge_0 _) E i Hi) as Q. cbv beta in Q.
    assert (nth i data 0 - mean data size = 0); [|lra]. apply Rsqr_0_uniq. unfold Rsqr. lra.
  - intros Q. rewrite rsum_0 in E; [nra|]. intros i Hi. rewrite Q by auto. ring.
Qed.
(** a x + b has the mean a mean + b and the variance a^2 var *)
Theorem C52_affine (data data' : list R) size a b : (0 < size <= length data)%nat -> (size <= length data')%nat -> (forall i, (i < size)%nat -> nth i data' 0 = a * nth i data 0 + b) ->
  exists mu v, zDataMean data size = Ok mu /\ zDataVar data size = Ok v /\ zDataMean data' size = Ok (a * mu + b) /\ zDataVar data' size = Ok (a ^ 2 * v).
Proof.
  intros H H' HD. exists (mean data size), (var data size). rewrite !zDataMean_ok, !zDataVar_ok by lia. pose proof (INR_pos size ltac:(lia)).
  assert (M : mean data' size = a * mean data size + b).
  { unfold mean. rewrite (rsum_ext size _ (fun i => a * nth i data 0 + b)) by auto. rewrite rsum_add, rsum_scal, rsum_const. field. lra. }
  do 2 (split; auto). rewrite M. split; auto. f_equal. unfold var at 1. rewrite M. rewrite (rsum_ext size _ (fun i => a ^ 2 * (nth i data 0 - mean data size) ^ 2)) by (intros i Hi; rewrite HD by auto; ring).
  rewrite rsum_scal. unfold var. field. lra.
Qed.
Theorem C52_included (data : list R) size val tl : (size <= length data)%nat ->
  exists b, zDataIsIncluded data size val tl = Ok b /\ (b = true <-> exists i, (i < size)%nat /\ Rabs (nth i data 0 - val) <= tl * Rmax 1 (Rmax (Rabs (nth i data 0)) (Rabs val))).
Proof. apply included_ok. Qed.
(** vector data: mean, variance and covariance *)
Theorem C52_vectors tol (l : list (fvec R)) m buf C : 0 <= tol < 1 -> l <> [] -> (forall v, In v l -> vlen v = m) -> vlen buf = m -> nr C = m -> nc C = m ->
  exists mu v cov, zVecListMeanVar tol l buf = Ok (mu, Some v) /\ zVecListMeanCov tol l buf C = Ok (mu, Some cov) /\
    vlen mu = m /\ nr cov = m /\ nc cov = m /\
    (forall i, vel mu i = lsum (fun v => vel v i) l / INR (length l)) /\
    v = lsum (fun x => rsum m (fun i => (vel x i - vel mu i) ^ 2)) l / INR (length l) /\
    (forall i j, (i < m)%nat -> (j < m)%nat -> el cov i j = lsum (fun x => (vel x i - vel mu i) * (vel x j - vel mu j)) l / INR (length l)).
Proof.
  intros HT NE SZ LB R1 C1. unfold zVecListMeanVar, zVecListMeanCov. destruct (mean_ok tol l m HT NE SZ buf LB) as (mu & E & Lm & M). rewrite E. cbn [bind].
  rewrite (var_ok l m NE SZ mu Lm). cbn [bind]. destruct (cov_ok tol l m HT NE SZ mu C Lm M R1 C1) as (cov & EC & RC & CC & HC). rewrite EC. cbn [bind].
  eexists mu, _, cov. do 2 (split; [reflexivity|]). conjs; auto. intros i j Hi Hj. rewrite HC by auto. unfold vcov. rewrite !M. reflexivity.
Qed.
(** the covariance is symmetric and positive semidefinite, its trace is the variance; the mean is the point of the least squared distance *)
Theorem C52_covariance tol (l : list (fvec R)) m buf C mu v cov : 0 <= tol < 1 -> l <> [] -> (forall v, In v l -> vlen v = m) -> vlen buf = m -> nr C = m -> nc C = m ->
  zVecListMeanVar tol l buf = Ok (mu, Some v) -> zVecListMeanCov tol l buf C = Ok (mu, Some cov) ->
  (forall i j, (i < m)%nat -> (j < m)%nat -> el cov i j = el cov j i) /\
  (forall u : nat -> R, 0 <= rsum m (fun i => rsum m (fun j => u i * el cov i j * u j))) /\
  rsum m (fun i => el cov i i) = v /\
  (forall c : nat -> R, lsum (fun x => rsum m (fun i => (vel x i - vel mu i) ^ 2)) l <= lsum (fun x => rsum m (fun i => (vel x i - c i) ^ 2)) l).
Proof.
  intros HT NE SZ LB R1 C1. unfold zVecListMeanVar, zVecListMeanCov. destruct (mean_ok tol l m HT NE SZ buf LB) as (mu' & E & Lm & M). rewrite E. cbn [bind].
  rewrite (var_ok l m NE SZ mu' Lm). cbn [bind]. destruct (cov_ok tol l m HT NE SZ mu' C Lm M R1 C1) as (cov' & EC & RC & CC & HC). rewrite EC. cbn [bind].
  intros Q1 Q2. inversion Q1; subst mu' v. inversion Q2; subst cov'. clear Q1 Q2. split; [|split; [|split]].
  - intros i j Hi Hj. rewrite !HC by auto. apply vcov_sym.
  - intros u. rewrite (rsum_ext m _ (fun i => rsum m (fun j => u i * vcov l i j * u j))) by (intros i Hi; apply rsum_ext; intros j Hj; now rewrite HC). now apply vcov_psd.
  - rewrite (rsum_ext m _ (fun i => lsum (fun x => (vel x i - vel mu i) ^ 2) l * / INR (length l))).
    + rewrite rsum_scal_r. rewrite <- lsum_rsum. reflexivity.
    + intros i Hi. rewrite HC by auto. unfold vcov. rewrite !M. unfold Rdiv. f_equal. apply lsum_ext. intros; ring.
  - intros c. rewrite (lsum_ext (fun x => rsum m (fun i => (vel x i - vel mu i) ^ 2)) (fun x => rsum m (fun i => (vel x i - vmean l i) ^ 2))) by (intros; apply rsum_ext; intros; now rewrite M). now apply vmean_min.
Qed.
Theorem C52_range (l : list (fvec R)) m : l <> [] -> (forall v, In v l -> vlen v = m) ->
  exists mn mx, zVecListMinMax l m m = Ok (Some (mn, mx)) /\ forall i, (i < m)%nat -> exists a b, vel mn i = Some a /\ vel mx i = Some b /\
    (exists v, In v l /\ vel v i = a) /\ (exists v, In v l /\ vel v i = b) /\ forall v, In v l -> a <= vel v i <= b.
Proof.
  intros NE SZ. destruct (listminmax_ok 0 l m NE SZ) as (mn & mx & E & _ & _ & H). exists mn, mx. split; auto. intros i Hi. destruct (H i Hi) as (A & B). unfold is_best in *.
  destruct (vel mn i) as [a|]; [|congruence]. destruct (vel mx i) as [b|]; [|congruence]. exists a, b. destruct A as (A1 & A2), B as (B1 & B2). conjs; auto. intros v Iv. specialize (A2 v Iv). specialize (B2 v Iv). lra.
Qed.
(** the mean of vectors of another size is not averaged: such vectors are skipped but counted *)
Theorem C52_mixed_sizes_refuted : (rmap to_list (zVecListMean (1 # 1000) [vec_of 0 [2]; vec_of 0 [2; 2]] (vec_of 0 [0])) = Ok [1])%Q.
Proof. vm_compute. reflexivity. Qed.
(** no data: the mean of an empty list is reported as 0, the covariance of an empty list dereferences the list root *)
(** a mean or a covariance matrix of another size is refused *)
Theorem C52_sizes tol (l : list (fvec R)) m mean C : l <> [] -> (forall v, In v l -> vlen v = m) ->
  vlen mean <> m \/ nr C <> m \/ nc C <> m -> zVecListCov tol l mean C = Ok None.
Proof.
  intros NE SZ H. unfold zVecListCov. destruct (rev l) as [|hd r] eqn:E.
  { apply (f_equal (@rev _)) in E. rewrite rev_involutive in E. cbn in E. congruence. }
  assert (Lh : vlen hd = m) by (apply SZ; apply in_rev; rewrite E; left; reflexivity). rewrite Lh.
  destruct (Nat.eqb_spec (vlen mean) m) as [Em|Em]; cbn [negb]; [|reflexivity].
  destruct (Nat.eqb_spec (nr C) (nc C)); destruct (Nat.eqb_spec (nr C) m); cbn [negb andb]; try reflexivity. lia.
Qed.
Theorem C52_empty_refuted : zVecListVar (T := R) [] (vec_of 0 [0]) = UB.
Proof. reflexivity. Qed.

(** ** C54 *)
(** Each value is collected by exactly one bin; inside of [min,max) it is the bin whose interval contains it, and the votes for all data are the counts. *)
Theorem C54_tiling h val : good h -> (exists i, collects h i val) /\ (forall i j, collects h i val -> collects h j val -> i = j) /\
  (forall i, h_min h <= val < h_max h -> collects h i val -> low h i <= val < low h (S i)) /\
  low h 0 = h_min h /\ low h (length (h_bin h)) = h_max h.
Proof.
  intros G. pose proof G as (G1 & G2). assert (N : 0 < INR (length (h_bin h))) by (apply INR_pos; lia).
  assert (L0 : low h 0 = h_min h) by (unfold low; cbn; field; lra). assert (L1 : low h (length (h_bin h)) = h_max h) by (unfold low; field; lra).
  split; [|split; [|split; [|split; auto]]].
  - destruct (Rle_lt_dec (h_max h) val) as [C|C]; [exists (length (h_bin h) - 1)%nat; split; [lia|split; [|left; lia]]|].
    { right. apply low_scaled; auto. rewrite <- L1 in C. apply low_scaled in C; auto. apply Rle_trans with (2 := C). apply le_INR. lia. }
    destruct (Rlt_le_dec val (h_min h)) as [D|D].
    { exists O. split; [lia|split; [now left|]]. right. apply low_scaled; auto. rewrite <- L0 in D. apply low_scaled in D; auto. apply Rlt_le_trans with (1 := D). apply le_INR. lia. }
    set (q := scaled h val). rewrite <- L0 in D. apply low_scaled in D; auto. rewrite <- L1 in C. apply low_scaled in C; auto. fold q in C, D. cbn in D.
    destruct (Int_part_bounds q) as (I1 & I2). set (z := Int_part q) in *.
    assert (Z0 : (-1 < z)%Z) by (apply lt_IZR; lra). assert (Z1 : (z < Z.of_nat (length (h_bin h)))%Z) by (apply lt_IZR; rewrite <- INR_IZR_INZ; lra).
    assert (IZ : INR (Z.to_nat z) = IZR z) by (rewrite INR_IZR_INZ, Z2Nat.id by lia; reflexivity).
    exists (Z.to_nat z). split; [lia|split; right; apply low_scaled; auto; fold q; rewrite ?S_INR, IZ; lra].
  - intros i j. now apply collects_unique.
  - intros i V (A & B & D). split; [destruct B as [->|]; [rewrite L0|]; lra|]. destruct D as [->|]; [rewrite L1|]; lra.
Qed.
Theorem C54_counts (data : list R) size mn mx num : (size <= length data)%nat -> mn < mx -> (1 <= num)%nat ->
  let h0 := zHistogramAllocBin mn mx num in
  (forall j, (j < size)%nat -> -2147483648 < (nth j data 0 - mn) / (mx - mn) * INR num < 2147483648) ->
  exists bin, zHistogramCreate toint_R data size mn mx num = Ok (HI mn mx bin) /\ length bin = num /\ zsum bin = Z.of_nat size /\
    forall i, (i < num)%nat -> nth i bin 0%Z = counts (collectsb h0 i) data size.
Proof.
  intros H1 H2 H3 h0 HF. apply create_ok; auto. intros j Hj. unfold fits, scaled. cbn. rewrite repeat_length. auto.
Qed.
Theorem C54_one_vote h val : good h -> -2147483648 < (val - h_min h) / (h_max h - h_min h) * INR (length (h_bin h)) < 2147483648 ->
  exists i h', collects h i val /\ zHistogramVote toint_R h val = Ok h' /\ h_min h' = h_min h /\ h_max h' = h_max h /\ length (h_bin h') = length (h_bin h) /\
    nth i (h_bin h') 0%Z = (nth i (h_bin h) 0 + 1)%Z /\ forall j, j <> i -> nth j (h_bin h') 0%Z = nth j (h_bin h) 0%Z.
Proof.
  intros G F. destruct (vote_ok h val G F) as (i & C & E). eexists i, _. split; [auto|]. split; [exact E|]. pose proof C as (L & _). cbn [h_min h_max h_bin]. rewrite upd_length, nth_upd_eq by auto. conjs; auto. intros j ne. now rewrite nth_upd_neq by auto.
Qed.
(** the reported ends of the bins are right, except for the upper end of the last one *)
Theorem C54_bin_range_partial h i : (i < length (h_bin h))%nat -> zHistogramBinMin h (Z.of_nat i) = low h i /\
  ((S i < length (h_bin h))%nat -> zHistogramBinMax h (Z.of_nat i) = low h (S i) /\ zHistogramBinMid h (Z.of_nat i) = (low h i + low h (S i)) / 2).
Proof.
  intros H. assert (K : forall i, (i < length (h_bin h))%nat -> zHistogramBinMin h (Z.of_nat i) = low h i).
  { intros j Hj. unfold zHistogramBinMin, zlimit, low. destruct (Z.ltb_spec (Z.of_nat j) 0); [lia|]. destruct (Z.ltb_spec (Z.of_nat (length (h_bin h)) - 1) (Z.of_nat j)); [lia|]. rs. now rewrite <- !INR_IZR_INZ. }
  split; auto. intros H2. unfold zHistogramBinMid, zHistogramBinMax. replace (Z.of_nat i + 1)%Z with (Z.of_nat (S i)) by lia. rewrite !K by auto. rs. split; auto. field.
Qed.
Theorem C54_last_bin_refuted : (rmap h_bin (zHistogramVote (fun x => Some (Qnum x / Zpos (Qden x))%Z) (zHistogramAllocBin 0 2 2) (3 # 2)) = Ok [0; 1]%Z /\
  zHistogramBinMin (zHistogramAllocBin 0 2 2) 1 = 1 /\ zHistogramBinMax (zHistogramAllocBin 0 2 2) 1 = 1)%Q.
Proof. vm_compute. auto. Qed.
(** a value outside of [min,max) is counted, too *)
Theorem C54_outside_refuted : (rmap h_bin (zHistogramVote (fun x => Some (Qnum x / Zpos (Qden x))%Z) (zHistogramAllocBin 0 2 2) 7) = Ok [0; 1]%Z)%Q.
Proof. vm_compute. reflexivity. Qed.
(** automatic range: the smallest and the largest datum are the middles of the first and the last bins *)
Theorem C54_auto (data : list R) size num : (0 < size <= length data)%nat -> (2 <= num)%nat -> (Z.of_nat num < 2147483648)%Z ->
  (exists i j, (i < size)%nat /\ (j < size)%nat /\ nth i data 0 <> nth j data 0) ->
  exists a i b j h, zDataMinMax data size = Ok ((a, i), (b, j)) /\ zHistogramCreateAuto toint_R data size num = Ok h /\ length (h_bin h) = num /\
    (low h 0 + low h 1) / 2 = a /\ (low h (num - 1) + low h num) / 2 = b /\ zsum (h_bin h) = Z.of_nat size /\
    (forall k, (k < size)%nat -> h_min h < nth k data 0 < h_max h) /\
    (forall k, (k < num)%nat -> nth k (h_bin h) 0%Z = counts (collectsb h k) data size).
Proof.
  intros H HN HI2 (i0 & j0 & Hi0 & Hj0 & NE). destruct (C53_minmax data size H) as (a & i & b & j & E & (A1 & A2 & A3 & A4) & (B1 & B2 & B3 & B4)).
  assert (AB : a < b). { pose proof (A3 i0 Hi0). pose proof (A3 j0 Hj0). pose proof (B3 i0 Hi0). pose proof (B3 j0 Hj0). lra. }
  unfold zHistogramCreateAuto. rewrite E. cbn [bind fst]. cbn [smul sdiv ssub sadd sofZ RealS].
  set (mg := 1 / 2 * (b - a) / IZR (Z.of_nat num - 1)).
  assert (N1 : 1 <= IZR (Z.of_nat num - 1)) by (apply IZR_le; lia).
  assert (MG : 0 < mg). { unfold mg. apply Rdiv_lt_0_compat; lra. }
  destruct (C54_counts data size (a - mg) (b + mg) num) as (bin & EC & L & SU & CO); auto; try lia; try lra.
  { intros k Hk. pose proof (A3 k Hk). pose proof (B3 k Hk). set (x := nth k data 0) in *. assert (0 <= (x - (a - mg)) / (b + mg - (a - mg)) <= 1). { split; [apply Rmult_le_pos; [lra|left; apply Rinv_0_lt_compat; lra]|]. apply Rmult_le_reg_r with (b + mg - (a - mg)); [lra|]. field_simplify; lra. }
    assert (0 < INR num < 2147483648). { split; [apply INR_pos; lia|]. rewrite INR_IZR_INZ. apply IZR_lt. lia. } split; nra. }
  exists a, i, b, j, (HI (a - mg) (b + mg) bin). split; [auto|]. split; [exact EC|]. cbn [h_bin h_min h_max]. split; [auto|].
  assert (NI : IZR (Z.of_nat num - 1) = INR num - 1) by (rewrite minus_IZR, <- INR_IZR_INZ; reflexivity). rewrite NI in *.
  assert (N2 : 2 <= INR num) by (replace 2 with (INR 2) by (cbn; lra); apply le_INR; lia).
  assert (ME : mg * (INR num - 1) = (b - a) / 2) by (unfold mg; rewrite NI; field; lra).
  assert (ME2 : b - a = 2 * mg * (INR num - 1)) by lra.
  conjs; auto.
  - unfold low. cbn [h_min h_max h_bin]. rewrite L. replace (b + mg - (a - mg)) with (2 * mg * INR num) by lra. cbn [INR]. field. lra.
  - unfold low. cbn [h_min h_max h_bin]. rewrite L. replace (b + mg - (a - mg)) with (2 * mg * INR num) by lra. rewrite minus_INR by lia. cbn [INR]. transitivity (a - 2 * mg + 2 * mg * INR num); [field; lra|lra].
  - intros k Hk. specialize (A3 k Hk). specialize (B3 k Hk). lra.
  - intros k Hk. rewrite CO by auto. clear - L. induction size; cbn [counts]; auto. rewrite IHsize. f_equal. unfold collectsb, low. cbn. now rewrite L, repeat_length.
Qed.
(** double arithmetic: truncation of a double to an int *)
Definition toint_F (x : float) : option Z :=
  match Prim2SF x with
  | S754_zero _ => Some 0%Z
  | S754_finite s m e =>
      let a := (if (0 <=? e) then Zpos m * 2 ^ e else Zpos m / 2 ^ (- e))%Z in
      let z := if s then (- a)%Z else a in
      if ((-2147483648 <=? z) && (z <=? 2147483647))%Z then Some z else None
  | _ => None
  end.
(** one bin, or data that are all equal: 0/0; a far value: the conversion overflows *)
Theorem C54_auto_refuted : zHistogramCreateAuto toint_F [1; 2; 3]%float 3 1 = UB /\ zHistogramCreateAuto toint_F [2; 2; 2]%float 3 4 = UB /\
  zHistogramVote toint_F (zHistogramAllocBin 0 1 10)%float 1e9%float = UB.
Proof. vm_compute. auto. Qed.

(** ** C61 *)
Section C61.
  Variable qsort : forall A : Type, (A -> A -> Z) -> list A -> list A.
  Hypothesis SORT : sorts qsort.
  Theorem C61_select (data : list R) size k : (size <= length data)%nat ->
    ((k < size)%nat -> exists v, zDataSelect qsort data size k = Ok (Some v) /\ kth data size k v) /\
    ((size <= k)%nat -> zDataSelect qsort data size k = Ok None).
  Proof.
    intros H. split; [intros; now apply select_ok|]. intros HK. unfold zDataSelect. destruct (Nat.ltb_spec (length data) size); [lia|].
    destruct (SORT nat (index_cmp (fun x => x) data) (List.seq 0 size)) as (P & _).
    - intros a b. unfold index_cmp. rewrite !sort_cmp_le. lra.
    - intros a b c. unfold index_cmp. rewrite !sort_cmp_le. lra.
    - assert (N : nth_error (qsort nat (index_cmp (fun x => x) data) (List.seq 0 size)) k = None) by (apply nth_error_None; rewrite (Permutation_length P), seq_length; auto). now rewrite N.
  Qed.
  Theorem C61_median (data : list R) size : (size <= length data)%nat ->
    (forall h, size = (2 * h + 1)%nat -> exists v, zDataMedian qsort data size = Ok (Some v) /\ kth data size h v) /\
    (forall h, size = (2 * h)%nat -> (0 < h)%nat -> exists a b, zDataMedian qsort data size = Ok (Some ((a + b) / 2)) /\ kth data size (h - 1) a /\ kth data size h b) /\
    (size = O -> zDataMedian qsort data size = Ok None).
  Proof.
    intros H. split; [|split].
    - intros h E. unfold zDataMedian. assert (O1 : Nat.odd size = true) by (rewrite E, Nat.odd_add_mul_2 || (apply Nat.odd_spec; exists h; lia); reflexivity).
      rewrite O1. replace ((size - 1) / 2)%nat with h by (rewrite E, Nat.add_sub, Nat.mul_comm, Nat.div_mul; lia). apply select_ok; auto. lia.
    - intros h E HP. unfold zDataMedian. assert (O1 : Nat.odd size = false). { rewrite <- Nat.negb_even. apply Bool.negb_false_iff. apply Nat.even_spec. exists h. lia. }
      rewrite O1. destruct (Nat.eqb_spec size 0); [lia|]. replace (size / 2)%nat with h by (rewrite E, Nat.mul_comm, Nat.div_mul; lia).
      destruct (select_ok qsort data size (h - 1) SORT H ltac:(lia)) as (a & Ea & Ka). destruct (select_ok qsort data size h SORT H ltac:(lia)) as (b & Eb & Kb).
      rewrite Ea, Eb. cbn [bind]. exists a, b. split; auto. do 2 f_equal. rs. field.
    - intros ->. reflexivity.
  Qed.
  Theorem C61_sort (data : list R) : Permutation (zDataSort qsort data) data /\ StronglySorted Rle (zDataSort qsort data).
  Proof.
    destruct (SORT R sort_cmp data) as (P & S).
    - intros a b. rewrite !sort_cmp_le. lra.
    - intros a b c. rewrite !sort_cmp_le. lra.
    - split; auto. eapply sorted_map; [|exact S]. intros a b. now rewrite sort_cmp_le.
  Qed.
  Theorem C61_sort_index (data : list R) index : (forall i, In i index -> (i < length data)%nat) ->
    (exists l, zDataSortIndex qsort data (length index) index = Ok (Some l) /\ Permutation l index /\ StronglySorted (fun i j => nth i data 0 <= nth j data 0) l) /\
    (exists l, zDataSortAbsIndex qsort data (length index) index = Ok (Some l) /\ Permutation l index /\ StronglySorted (fun i j => Rabs (nth i data 0) <= Rabs (nth j data 0)) l).
  Proof. intros H. split; [apply (sort_index_ok qsort (fun x => x))|apply (sort_index_ok qsort Rabs)]; auto. Qed.
  Theorem C61_sort_index_size {T} {ST : Scalar T} (data : list T) size index : size <> length index ->
    zDataSortIndex qsort data size index = Ok None /\ zDataSortAbsIndex qsort data size index = Ok None.
  Proof. intros H. unfold zDataSortIndex, zDataSortAbsIndex, sort_index. apply Nat.eqb_neq in H. now rewrite H. Qed.
End C61.
(** [kth] determines the value *)
Theorem C61_kth_unique data size k v1 v2 : kth data size k v1 -> kth data size k v2 -> v1 = v2.
Proof. apply kth_unique. Qed.
Lemma SS_rev {A} (P : A -> A -> Prop) l : StronglySorted P l -> StronglySorted (fun a b => P b a) (rev l).
Proof.
  assert (AP : forall l1 l2 : list A, StronglySorted (fun a b => P b a) l1 -> StronglySorted (fun a b => P b a) l2 -> (forall a b, In a l1 -> In b l2 -> P b a) -> StronglySorted (fun a b => P b a) (l1 ++ l2)).
  { induction l1 as [|x l1 IH]; intros l2 S1 S2 H; cbn; auto. inversion S1; subst. constructor.
    - apply IH; auto. intros a b Ia Ib. apply H; auto. now right.
    - apply Forall_app. split; auto. apply Forall_forall. intros b Ib. apply H; auto. now left. }
  induction 1 as [|a l S IH F]; cbn; [constructor|]. apply AP; auto; [repeat constructor|]. intros x y Ix [<-|[]]. apply in_rev in Ix. now apply (proj1 (Forall_forall _ _) F).
Qed.
Theorem C61_peak (src : list R) size w : (size <= length src)%nat -> exists r, zDataPeak src size w = Ok r /\
  (forall i, In i r -> local_max src size i) /\
  StronglySorted (fun a b => (a < b)%nat /\ (Z.of_nat a + w < Z.of_nat b)%Z) r /\
  (forall j, local_max src size j -> exists i, In i r /\ nth j src 0 <= nth i src 0) /\
  (forall j, local_max src size j -> (forall i, local_max src size i -> i <> j -> (Z.abs (Z.of_nat i - Z.of_nat j) <= w)%Z -> nth i src 0 < nth j src 0) -> In j r) /\
  ((w <= 0)%Z -> forall i, In i r <-> local_max src size i).
Proof.
  intros H. destruct (peak_inv src size w H) as (l & E & P1 & P2 & P3 & P4 & P5). exists (rev l). split; auto.
  assert (B : forall j, local_max src size j -> (j < Nat.max 1 size)%nat) by (intros j (_ & J & _); lia).
  split; [|split; [|split; [|split]]].
  - intros i Hi. apply in_rev in Hi. now apply P1.
  - apply SS_rev in P2. revert P2. apply sorted_map. unfold far. tauto.
  - intros j Lj. destruct (P3 j Lj (B j Lj)) as (i & I & V). exists i. split; auto. now apply -> in_rev.
  - intros j Lj A. apply -> in_rev. apply P4; auto. split; auto.
  - intros W i. split; [intros Hi; apply in_rev in Hi; now apply P1|]. intros Li. apply -> in_rev. auto.
Qed.

(** ** C75 *)
Theorem C75_binomial n p : rsum (S n) (fun x => zBinDistrib x n p) = 1 /\ (0 <= p <= 1 -> forall x, (x <= n)%nat -> 0 <= zBinDistrib x n p).
Proof.
  split; [apply bin_sum|]. intros H x Hx. unfold zBinDistrib. rewrite Misc_Proofs.zCombination_correct, !Misc_Proofs.spow_R by auto. rs.
  apply Rmult_le_pos; [apply Rmult_le_pos|]; try (apply pow_le; lra). unfold Binomial.C. apply Rlt_le, Rdiv_lt_0_compat; [apply INR_fact_lt_0|]. apply Rmult_lt_0_compat; apply INR_fact_lt_0.
Qed.
Theorem C75_poisson lam : is_series (fun x => zPoissonDistrib exp x lam) 1 /\ (0 <= lam -> forall x, 0 <= zPoissonDistrib exp x lam).
Proof.
  split; [apply poisson_sum|]. intros H x. unfold zPoissonDistrib. rewrite Misc_Proofs.zFactorial_correct, Misc_Proofs.spow_R. rs.
  apply Rmult_le_pos; [|left; apply Rinv_0_lt_compat, INR_fact_lt_0]. apply Rmult_le_pos; [left; apply exp_pos|now apply pow_le].
Qed.
(** 2m degrees of freedom: the cumulative function starts at 0, is the integral of the density, does not decrease and stays in [0,1) *)
Theorem C75_chi2_even_partial m : (1 <= m)%nat -> let F x := zChi2CumDistrib_even exp x (2 * m) in
  F 0 = 0 /\ (forall x, derivable_pt_lim F x ((1 / 2) ^ m * x ^ (m - 1) * exp (- (x / 2)) / INR (fact (m - 1)))) /\
  (forall a b, 0 <= a -> a <= b -> F a <= F b) /\ (forall x, 0 <= x -> 0 <= F x < 1).
Proof.
  intros Hm F. assert (F0 : F 0 = 0). { unfold F. rewrite chi2_cum by auto. replace (0 / 2) with 0 by field. rewrite etrunc_0, Ropp_0, exp_0 by auto. ring. }
  split; auto. split; [intros x; now apply chi2_derive|]. split; [intros a b; now apply chi2_mono|].
  intros x Hx. split; [rewrite <- F0; apply chi2_mono; auto; lra|]. unfold F. rewrite chi2_cum by auto. pose proof (etrunc_pos m (x / 2) Hm ltac:(lra)). pose proof (exp_pos (- (x / 2))). nra.
Qed.

(** ** C76 *)
Theorem C76_reproduces_partial (p p' : R -> R) (src dest : list R) size h dim : ispoly (dim + 1) p -> (forall x, derivable_pt_lim p x (p' x)) ->
  (1 <= h)%nat -> (dim < 2 * h)%nat -> (2 * h <= size)%nat -> (size <= length src)%nat -> (size <= length dest)%nat ->
  (forall i, (i < size)%nat -> nth i src 0 = p (INR i)) ->
  (exists d, zDataSmoothSG 0 src size (2 * h) dim dest = Ok (Some d) /\ length d = length dest /\ (forall i, (i < size)%nat -> nth i d 0 = p (INR i)) /\ (forall i, (size <= i)%nat -> nth i d 0 = nth i dest 0)) /\
  (exists d, zDataSmoothVelSG 0 src size (2 * h) dim dest = Ok (Some d) /\ length d = length dest /\ (forall i, (i < size)%nat -> nth i d 0 = p' (INR i)) /\ (forall i, (size <= i)%nat -> nth i d 0 = nth i dest 0)).
Proof.
  intros. split; [apply (smooth_ok p p')|apply (smooth_ok p p')]; auto; intros pc st HV t; apply HV.
Qed.
(** peaks of smoothed data: where the derivative changes its sign from plus to minus *)
Theorem C76_peaks_partial (p p' : R -> R) (src : list R) size h dim : ispoly (dim + 1) p -> (forall x, derivable_pt_lim p x (p' x)) ->
  (1 <= h)%nat -> (dim < 2 * h)%nat -> (2 * h <= size)%nat -> (size <= length src)%nat -> (forall i, (i < size)%nat -> nth i src 0 = p (INR i)) ->
  exists r, zDataPeakSG 0 src size (2 * h) dim = Ok r /\ StronglySorted lt r /\ forall i, In i r <-> (1 <= i < size - 1)%nat /\ 0 < p' (INR (i - 1)) /\ p' (INR i) < 0.
Proof.
  intros HP HD H1 H2 H3 H4 HS. unfold zDataPeakSG.
  destruct (C76_reproduces_partial p p' src (repeat 0 size) size h dim) as (_ & d & E & L & V & _); auto. { now rewrite repeat_length. }
  rewrite repeat_length in L. change (@s0 R RealS) with 0. rewrite E. cbn [bind].
  match goal with |- context [for_ 1 ?hi ?f ?s] => destruct (for_inv (fun k (r : list nat) => StronglySorted lt r /\ forall i, In i r <-> (1 <= i < k)%nat /\ 0 < p' (INR (i - 1)) /\ p' (INR i) < 0) 1 hi f s) as (r & E2 & S & I); [lia| | |] end.
  - split; [constructor|]. intros i. split; [intros []|lia].
  - intros i r Hi (S & I). rewrite !get_nth by lia. cbn [bind]. rewrite !V by lia. cbn [slt RealS].
    destruct (Rltb_spec 0 (p' (INR (i - 1)))) as [A|A], (Rltb_spec (p' (INR i)) 0) as [B|B]; cbn [andb]; (eexists; split; [reflexivity|]).
    2-4: (split; [exact S|intros j; rewrite I; split; intros (J1 & J2); (split; [|exact J2]); try lia; assert (j <> i) by (intros ->; lra); lia]).
    split.
    + clear - S I. assert (B : forall x, In x r -> (x < i)%nat) by (intros x Hx; apply I in Hx; lia). clear I. induction S as [|a r S IH F]; cbn; [repeat constructor|]. constructor.
      * apply IH. intros; apply B; now right.
      * apply Forall_app. split; auto. constructor; [apply B; now left|constructor].
    + intros j. rewrite in_app_iff, I. cbn. split; [intros [(J1 & J2)|[<-|[]]]; split; auto; lia|]. intros (J1 & J2). assert (j = i \/ (j < i)%nat) as [->|K] by lia; [right; now left|left; split; auto; lia].
  - exists r. split; auto. split; auto. intros i. rewrite I. replace (Nat.max 1 (size - 1)) with (size - 1)%nat by lia. reflexivity.
Qed.
(** an odd window: the last window reads behind the data *)
Theorem C76_odd_window_refuted : (zDataSmoothSG 0 [0; 1; 2; 3; 4] 5 3 1 [0; 0; 0; 0; 0] = UB)%Q.
Proof. vm_compute. reflexivity. Qed.
(** a window of one sample: an uninitialised pointer is freed *)
Theorem C76_unit_window_refuted {T} {ST : Scalar T} (tol : T) src size dim dest : zDataSmoothSG tol src size 1 dim dest = UB.
Proof. reflexivity. Qed.

(** ** cases *)
Example C53_case : (zDataMax [1; 3; 3; 2] 4 = Ok (3, 1%nat) /\ zDataMin [1; 3; 0; 0] 4 = Ok (0, 2%nat) /\ zDataAbsMax [1; -3; 3] 3 = Ok (3, 1%nat) /\ zDataMinMax [1; 3; 0; 3] 4 = Ok ((0, 2%nat), (3, 1%nat)))%Q.
Proof. vm_compute. auto. Qed.
Example C52_case : (zDataMean [1; 2; 6] 3 = Ok 3 /\ zDataVar [1; 2; 6] 3 = Ok (14 # 3) /\
  rmap (fun r => (to_list (fst r), snd r)) (zVecListMeanVar (1 # 1000) [vec_of 0 [1; 2]; vec_of 0 [3; 6]] (vec_of 0 [0; 0])) = Ok ([2; 4], Some 5))%Q.
Proof. vm_compute. auto. Qed.
Example C54_case : (rmap h_bin (zHistogramCreate (fun x => Some (Qnum x / Zpos (Qden x))%Z) [1 # 2; 1; 3 # 2; 1 # 4] 4 0 2 2) = Ok [2; 2]%Z)%Q.
Proof. vm_compute. reflexivity. Qed.
(** insertion sort meets the contract of the sorting function *)
Fixpoint insert {A} (cmp : A -> A -> Z) (x : A) (l : list A) : list A :=
  match l with [] => [x] | y :: t => if (cmp x y <=? 0)%Z then x :: l else y :: insert cmp x t end.
Definition isort (A : Type) (cmp : A -> A -> Z) (l : list A) : list A := fold_right (insert cmp) [] l.
Lemma isort_sorts : sorts isort.
Proof.
  intros A cmp l TOT TR.
  assert (IP : forall x l, Permutation (insert cmp x l) (x :: l)). { intros x t. induction t as [|y t IH]; cbn; auto. destruct (cmp x y <=? 0)%Z; auto. rewrite IH. constructor. }
  induction l as [|a l (P & S)]; cbn; [split; constructor|]. split; [rewrite IP; auto|].
  clear P. set (s := fold_right (insert cmp) [] l) in *. change (isort A cmp l) with s in S. clearbody s. induction S as [|y t S IH F]; cbn; [repeat constructor|].
  destruct (Z.leb_spec (cmp a y) 0).
  - constructor; [now constructor|]. constructor; auto. apply Forall_forall. intros z Hz. apply TR with y; auto. now apply (proj1 (Forall_forall _ _) F).
  - constructor; auto. apply Forall_forall. intros z Hz. apply (Permutation_in _ (IP a t)) in Hz as [<-|Hz]; [destruct (TOT y a); lia|now apply (proj1 (Forall_forall _ _) F)].
Qed.
Example C61_case : (zDataSelect isort [5; 1; 4; 1] 4 1 = Ok (Some 1) /\ zDataMedian isort [5; 1; 4; 1] 4 = Ok (Some (5 # 2)) /\ zDataMedian isort [5; 1; 4] 3 = Ok (Some 4) /\
  zDataPeak [0; 2; 1; 3; 1; 2; 0] 7 0 = Ok [1; 3; 5]%nat /\ zDataPeak [0; 2; 1; 3; 1; 2; 0] 7 2 = Ok [3]%nat)%Q.
Proof. vm_compute. auto. Qed.
Example C76_case : (zDataSmoothSG 0 [0; 1; 4; 9; 16; 25] 6 4 2 [0; 0; 0; 0; 0; 0; 7] = Ok (Some [0; 1; 4; 9; 16; 25; 7]) /\ zDataSmoothVelSG 0 [0; 1; 4; 9; 16; 25] 6 4 2 [0; 0; 0; 0; 0; 0] = Ok (Some [0; 2; 4; 6; 8; 10]))%Q.
Proof. vm_compute. auto. Qed.
Print Assumptions C09_data_sum. Print Assumptions C53_extrema. Print Assumptions C53_minmax. Print Assumptions C52_mean. Print Assumptions C52_variance. Print Assumptions C52_affine. Print Assumptions C52_vectors. Print Assumptions C52_sizes. Print Assumptions C52_covariance. Print Assumptions C52_range.
Print Assumptions C54_tiling. Print Assumptions C54_counts. Print Assumptions C54_one_vote. Print Assumptions C54_bin_range_partial. Print Assumptions C54_auto. Print Assumptions C54_auto_refuted.
Print Assumptions C61_select. Print Assumptions C61_median. Print Assumptions C61_sort. Print Assumptions C61_sort_index. Print Assumptions C61_peak.
Print Assumptions C75_binomial. Print Assumptions C75_poisson. Print Assumptions C75_chi2_even_partial. Print Assumptions C76_reproduces_partial. Print Assumptions C76_peaks_partial.
