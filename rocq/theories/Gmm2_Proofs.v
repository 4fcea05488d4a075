(** One step of the EM algorithm over the reals, for C107. *)
From Coq Require Import Reals Lra Lia List.
From Verif Require Import Prelude RealLib LE_Spec Gmm_Spec Gmm_Proofs.
Local Open Scope R_scope.

Lemma rsum_pos n f : (0 < n)%nat -> (forall i, (i < n)%nat -> 0 < f i) -> 0 < rsum n f.
Proof. intros Hn H. destruct n; [lia|]. cbn. assert (0 <= rsum n f) by (apply rsum_nonneg; intros; apply Rlt_le, H; lia). specialize (H n ltac:(lia)). lra. Qed.
Lemma jensen K a b : (0 < K)%nat -> (forall k, (k < K)%nat -> 0 < a k) -> rsum K a = 1 -> (forall k, (k < K)%nat -> 0 < b k) -> rsum K (fun k => a k * ln (b k)) <= ln (rsum K (fun k => a k * b k)).
Proof.
  intros HK Ha HS Hb. set (s := rsum K (fun k => a k * b k)). assert (Hs : 0 < s) by (apply rsum_pos; auto; intros; apply Rmult_lt_0_compat; auto).
  assert (L : rsum K (fun k => a k * ln (b k)) <= rsum K (fun k => (ln s - 1) * a k + / s * (a k * b k))).
  { apply rsum_le. intros k Hk. specialize (Ha k Hk). specialize (Hb k Hk). pose proof (ln_le_sub1 (b k * / s)) as H. assert (0 < b k * / s) by (apply Rmult_lt_0_compat; auto; apply Rinv_0_lt_compat; auto). specialize (H H0).
    rewrite ln_mult, ln_Rinv in H by (auto; apply Rinv_0_lt_compat; auto). apply Rle_trans with (a k * (ln s + b k * / s - 1)); [apply Rmult_le_compat_l; lra|right; ring]. }
  rewrite rsum_add, !rsum_scal, HS in L. fold s in L. rewrite Rinv_l in L by lra. lra.
Qed.

Section Step.
Variables n K N : nat.
Variable x : nat -> nat -> R.
Variables w : nat -> R.
Variable f : nat -> nat -> R.
Hypothesis HK : (0 < K)%nat.
Hypothesis HN : (0 < N)%nat.
Hypothesis Hw : forall k, (k < K)%nat -> 0 < w k.
Hypothesis Hf : forall k i, (k < K)%nat -> (i < N)%nat -> 0 < f k i.

(** the loads, and the parameters of the next step *)
Definition mixed i := rsum K (fun k => w k * f k i).
Definition gam k i := w k * f k i / mixed i.
Definition nks k := rsum N (fun i => gam k i).
Definition mu1 k a := rsum N (fun i => gam k i * x i a) / nks k.
Definition cov1 k a b := rsum N (fun i => gam k i * (x i a - mu1 k a) * (x i b - mu1 k b)) / nks k.
Definition w1 k := nks k / INR N.

Lemma nks_eta k : rsum N (gam k) = nks k.
Proof. reflexivity. Qed.
Lemma mixed_pos i : (i < N)%nat -> 0 < mixed i.
Proof. intros Hi. apply rsum_pos; auto. intros k Hk. apply Rmult_lt_0_compat; auto. Qed.
Lemma gam_pos k i : (k < K)%nat -> (i < N)%nat -> 0 < gam k i.
Proof. intros Hk Hi. apply Rdiv_lt_0_compat; [apply Rmult_lt_0_compat; auto|apply mixed_pos; auto]. Qed.
Lemma gam_sum i : (i < N)%nat -> rsum K (fun k => gam k i) = 1.
Proof. intros Hi. unfold gam. rewrite (rsum_ext K _ (fun k => w k * f k i * / mixed i)) by (intros; reflexivity). rewrite rsum_scal_r. fold (mixed i). field. pose proof (mixed_pos i Hi). lra. Qed.
Lemma nks_pos k : (k < K)%nat -> 0 < nks k.
Proof. intros Hk. apply rsum_pos; auto. intros. apply gam_pos; auto. Qed.
Lemma nks_sum : rsum K nks = INR N.
Proof. unfold nks. rewrite rsum_swap. rewrite (rsum_ext N _ (fun _ => 1)) by (intros; apply gam_sum; auto). rewrite rsum_const. ring. Qed.
Lemma INR_N : 0 < INR N.
Proof. apply lt_0_INR. auto. Qed.
Lemma w1_pos k : (k < K)%nat -> 0 < w1 k.
Proof. intros Hk. apply Rdiv_lt_0_compat; [apply nks_pos; auto|apply INR_N]. Qed.
Lemma w1_sum : rsum K w1 = 1.
Proof. unfold w1. rewrite (rsum_ext K _ (fun k => nks k * / INR N)) by (intros; reflexivity). rewrite rsum_scal_r, nks_sum. field. pose proof INR_N. lra. Qed.
Lemma cov1_sym k : symmetric n (cov1 k).
Proof. intros a b Ha Hb. unfold cov1. f_equal. apply rsum_ext. intros. ring. Qed.
Lemma cov1_qf k v : (k < K)%nat -> qf n (cov1 k) v = rsum N (fun i => gam k i * rsum n (fun a => v a * (x i a - mu1 k a)) ^ 2) / nks k.
Proof.
  intros Hk. unfold qf, cov1. pose proof (nks_pos k Hk) as HP.
  rewrite (rsum_ext n _ (fun r => rsum N (fun i => rsum n (fun c => gam k i * ((v r * (x i r - mu1 k r)) * (v c * (x i c - mu1 k c))))) * / nks k)).
  - rewrite rsum_scal_r. unfold Rdiv. f_equal. rewrite rsum_swap. apply rsum_ext. intros i Hi.
    rewrite (rsum_ext n _ (fun r => gam k i * ((v r * (x i r - mu1 k r)) * rsum n (fun c => v c * (x i c - mu1 k c))))) by (intros; rewrite rsum_scal, rsum_scal; auto).
    rewrite rsum_scal, rsum_scal_r. ring.
  - intros r Hr. rewrite rsum_swap. rewrite <- rsum_scal_r. apply rsum_ext. intros c Hc. transitivity ((v r * v c) * rsum N (fun i => gam k i * (x i r - mu1 k r) * (x i c - mu1 k c)) * / nks k); [unfold Rdiv; ring|]. f_equal. rewrite <- rsum_scal. apply rsum_ext. intros. ring.
Qed.
Lemma cov1_pd k : spread n N x -> (k < K)%nat -> pd n (cov1 k).
Proof.
  intros SP Hk v (a & Ha & Nv). rewrite cov1_qf by auto. apply Rdiv_lt_0_compat; [|apply nks_pos; auto].
  set (h := fun i => gam k i * rsum n (fun a => v a * (x i a - mu1 k a)) ^ 2). assert (P : forall i, (i < N)%nat -> 0 <= h i).
  { intros i Hi. unfold h. apply Rmult_le_pos; [apply Rlt_le, gam_pos; auto|apply pow2_ge_0]. }
  destruct (Rle_lt_or_eq_dec 0 (rsum N h)) as [L|E]; [apply rsum_nonneg; auto|auto|]. exfalso. apply Nv.
  apply (SP v (rsum n (fun a => v a * mu1 k a))); auto. intros i Hi. pose proof (rsum_nonneg_0 N h P (eq_sym E) i Hi) as Z. unfold h in Z. pose proof (gam_pos k i Hk Hi) as G.
  assert (Z2 : rsum n (fun a => v a * (x i a - mu1 k a)) = 0). { apply Rmult_integral in Z. destruct Z as [Z|Z]; [lra|]. apply Rsqr_0_uniq. unfold Rsqr. lra. }
  rewrite (rsum_ext n _ (fun a => v a * x i a - v a * mu1 k a)) in Z2 by (intros; ring). rewrite rsum_sub in Z2. lra.
Qed.

(** ** the likelihood *)
Lemma centred k a : (k < K)%nat -> rsum N (fun i => gam k i * (x i a - mu1 k a)) = 0.
Proof.
  intros Hk. rewrite (rsum_ext N _ (fun i => gam k i * x i a - gam k i * mu1 k a)) by (intros; ring). rewrite rsum_sub, rsum_scal_r, nks_eta. unfold mu1. field. pose proof (nks_pos k Hk). lra.
Qed.
Lemma trace_gam k P : (k < K)%nat -> rsum N (fun i => gam k i * qf n P (fun a => x i a - mu1 k a)) = nks k * trace2 n P (cov1 k).
Proof.
  intros Hk. pose proof (nks_pos k Hk) as HP. unfold trace2, qf.
  rewrite (rsum_ext N _ (fun i => rsum n (fun a => rsum n (fun b => gam k i * ((x i a - mu1 k a) * P a b * (x i b - mu1 k b)))))) by (intros; rewrite <- rsum_scal; apply rsum_ext; intros; rewrite <- rsum_scal; auto).
  rewrite rsum_swap, <- rsum_scal. apply rsum_ext. intros a Ha. rewrite rsum_swap, <- rsum_scal. apply rsum_ext. intros b Hb. unfold cov1.
  transitivity (P a b * rsum N (fun i => gam k i * (x i b - mu1 k b) * (x i a - mu1 k a))); [|field; lra]. rewrite <- rsum_scal. apply rsum_ext. intros. ring.
Qed.
Lemma qf_shift P u d : qf n P (fun a => u a + d a) = qf n P u + rsum n (fun a => u a * mv n P d a) + rsum n (fun a => mv n (tr P) d a * u a) + qf n P d.
Proof.
  rewrite !qf_bf. unfold bf.
  assert (E : rsum n (fun a => mv n (tr P) d a * u a) = rsum n (fun a => d a * mv n P u a)).
  { unfold mv, tr. rewrite (rsum_ext n _ (fun a => rsum n (fun c => P c a * d c * u a))) by (intros; rewrite rsum_scal_r; auto). rewrite rsum_swap. apply rsum_ext. intros. rewrite <- rsum_scal. apply rsum_ext. intros. ring. }
  rewrite E. rewrite <- !rsum_add. apply rsum_ext. intros a Ha. replace (mv n P (fun a0 => u a0 + d a0) a) with (mv n P u a + mv n P d a); [ring|].
  unfold mv. rewrite <- rsum_add. apply rsum_ext. intros. ring.
Qed.
Lemma inv_psd C P : psd n C -> inverse n C P -> psd n P.
Proof.
  intros PC HI d. replace (qf n P d) with (qf n C (mv n P d)); [apply PC|]. rewrite !qf_bf. unfold bf. apply rsum_ext. intros r Hr. rewrite inv_sol by auto. ring.
Qed.
Lemma shift_gam k mu P : (k < K)%nat -> psd n P -> nks k * trace2 n P (cov1 k) <= rsum N (fun i => gam k i * qf n P (fun a => x i a - mu a)).
Proof.
  intros Hk PP. rewrite <- trace_gam by auto. set (d := fun a => mu1 k a - mu a).
  assert (E : rsum N (fun i => gam k i * qf n P (fun a => x i a - mu a)) = rsum N (fun i => gam k i * qf n P (fun a => x i a - mu1 k a)) + nks k * qf n P d).
  { rewrite (rsum_ext N (fun i => gam k i * qf n P (fun a => x i a - mu a)) (fun i => (gam k i * qf n P (fun a => x i a - mu1 k a) + gam k i * qf n P d) + (rsum n (fun a => gam k i * (x i a - mu1 k a) * mv n P d a) + rsum n (fun a => gam k i * (x i a - mu1 k a) * mv n (tr P) d a)))).
    - rewrite !rsum_add. rewrite rsum_scal_r, nks_eta. assert (Z : forall h, rsum N (fun i => rsum n (fun a => gam k i * (x i a - mu1 k a) * h a)) = 0) by (intros h; rewrite rsum_swap; apply rsum_0; intros a Ha; rewrite rsum_scal_r, centred by auto; ring).
      rewrite !Z. ring.
    - intros i Hi. rewrite (LE6_Proofs.qf_ext n P P (fun a => x i a - mu a) (fun a => (x i a - mu1 k a) + d a)) by (intros; unfold d; ring). rewrite (qf_shift P (fun a => x i a - mu1 k a) d).
      rewrite !Rmult_plus_distr_l. rewrite <- !(rsum_scal n (gam k i)). rewrite (rsum_ext n (fun a => gam k i * (mv n (tr P) d a * (x i a - mu1 k a))) (fun a => gam k i * (x i a - mu1 k a) * mv n (tr P) d a)) by (intros; ring).
      rewrite (rsum_ext n (fun a => gam k i * ((x i a - mu1 k a) * mv n P d a)) (fun a => gam k i * (x i a - mu1 k a) * mv n P d a)) by (intros; ring). ring. }
  rewrite E. pose proof (nks_pos k Hk). pose proof (PP d). assert (0 <= nks k * qf n P d) by (apply Rmult_le_pos; lra). lra.
Qed.
End Step.

Section Monotone.
Variables n K N : nat.
Variable x : nat -> nat -> R.
Variables w : nat -> R.
Variables mu : nat -> nat -> R.
Variables C P : nat -> nat -> nat -> R.
Hypothesis HK : (0 < K)%nat.
Hypothesis HN : (0 < N)%nat.
Hypothesis Hw : forall k, (k < K)%nat -> 0 < w k.
Hypothesis Sw : rsum K w = 1.
Hypothesis SC : forall k, (k < K)%nat -> symmetric n (C k).
Hypothesis PC : forall k, (k < K)%nat -> pd n (C k).
Hypothesis HI : forall k, (k < K)%nat -> inverse n (C k) (P k).
Definition dens k i := normal n (mu k) (C k) (P k) (x i).
Lemma two_pi_n : 0 < (2 * PI) ^ n.
Proof. apply pow_lt. pose proof PI_RGT_0. lra. Qed.
Lemma normal_pos m D Q y : 0 < det n D -> 0 < normal n m D Q y.
Proof. intros H. unfold normal. apply Rdiv_lt_0_compat; [apply exp_pos|]. apply sqrt_lt_R0. apply Rmult_lt_0_compat; auto. apply two_pi_n. Qed.
Lemma ln_normal m D Q y : 0 < det n D -> ln (normal n m D Q y) = - (1 / 2) * qf n Q (fun a => y a - m a) - (1 / 2) * (ln ((2 * PI) ^ n) + ln (det n D)).
Proof.
  intros H. pose proof two_pi_n as TP. assert (HP : 0 < (2 * PI) ^ n * det n D) by (apply Rmult_lt_0_compat; auto). pose proof (sqrt_lt_R0 _ HP) as HS. unfold normal, Rdiv. rewrite ln_mult, ln_Rinv by (auto; try apply exp_pos; apply Rinv_0_lt_compat; auto).
  rewrite ln_exp. replace (ln (sqrt ((2 * PI) ^ n * det n D))) with (/ 2 * (ln ((2 * PI) ^ n) + ln (det n D))); [lra|]. rewrite <- ln_mult by auto. rewrite <- (sqrt_sqrt ((2 * PI) ^ n * det n D)) at 1 by lra. rewrite ln_mult by auto. lra.
Qed.
Lemma trace_inv D Q : symmetric n D -> inverse n D Q -> trace2 n Q D = INR n.
Proof.
  intros SD HQ. unfold trace2. rewrite rsum_swap. rewrite (rsum_ext n _ (fun _ => 1)); [rewrite rsum_const; ring|]. intros b Hb. specialize (HQ b b Hb Hb). unfold mm in HQ. rewrite Nat.eqb_refl in HQ. rewrite <- HQ. apply rsum_ext. intros. ring.
Qed.
Lemma pd_det D : symmetric n D -> pd n D -> 0 < det n D.
Proof. intros SD PD. destruct (cholesky n D SD PD) as (L & LL & LP & LE). rewrite (det_llt n L D) by auto. pose proof (dprod_pos n _ LP). nra. Qed.

Notation g := (gam K w dens).
Variable P1 : nat -> nat -> nat -> R.
Hypothesis SP : spread n N x.
Hypothesis HI1 : forall k, (k < K)%nat -> inverse n (cov1 K N x w dens k) (P1 k).
Let f1 k i := normal n (mu1 K N x w dens k) (cov1 K N x w dens k) (P1 k) (x i).
Lemma dens_pos k i : (k < K)%nat -> 0 < dens k i.
Proof. intros Hk. apply normal_pos, pd_det; auto. Qed.
Theorem em_monotone : rsum N (fun i => ln (rsum K (fun k => w k * dens k i))) <= rsum N (fun i => ln (rsum K (fun k => w1 K N w dens k * f1 k i))).
Proof.
  assert (HF : forall k i, (k < K)%nat -> (i < N)%nat -> 0 < dens k i) by (intros; apply dens_pos; auto).
  pose proof (fun k => w1_pos K N w dens HK HN Hw HF k) as W1. pose proof (w1_sum K N w dens HK HN Hw HF) as WS.
  pose proof (fun k => nks_pos K N w dens HK HN Hw HF k) as NK. pose proof (fun k i => gam_pos K N w dens HK Hw HF k i) as GP.
  assert (PD1 : forall k, (k < K)%nat -> pd n (cov1 K N x w dens k)) by (intros; apply cov1_pd; auto).
  assert (D1 : forall k, (k < K)%nat -> 0 < det n (cov1 K N x w dens k)) by (intros; apply pd_det; auto; apply cov1_sym).
  assert (F1 : forall k i, (k < K)%nat -> 0 < f1 k i) by (intros; apply normal_pos; auto).
  apply Rle_trans with (rsum N (fun i => ln (rsum K (fun k => w k * dens k i)) + rsum K (fun k => g k i * (ln (w1 K N w dens k) + ln (f1 k i) - ln (w k) - ln (dens k i))))).
  2:{ apply rsum_le. intros i Hi. pose proof (mixed_pos K N w dens HK Hw HF i Hi) as MP. fold (mixed K w dens i).
      pose proof (jensen K (fun k => g k i) (fun k => (w1 K N w dens k * f1 k i) / (w k * dens k i)) HK) as J. cbv beta in J.
      rewrite (rsum_ext K (fun k => g k i * ln (w1 K N w dens k * f1 k i / (w k * dens k i))) (fun k => g k i * (ln (w1 K N w dens k) + ln (f1 k i) - ln (w k) - ln (dens k i)))) in J.
      2:{ intros k Hk. f_equal. specialize (Hw k Hk). specialize (HF k i Hk Hi). specialize (W1 k Hk). specialize (F1 k i Hk). unfold Rdiv. assert (A1 : 0 < w1 K N w dens k * f1 k i) by (apply Rmult_lt_0_compat; auto). assert (A2 : 0 < w k * dens k i) by (apply Rmult_lt_0_compat; auto). rewrite ln_mult, ln_Rinv by (auto; apply Rinv_0_lt_compat; auto). rewrite !ln_mult by auto. ring. }
      rewrite (rsum_ext K (fun k => g k i * (w1 K N w dens k * f1 k i / (w k * dens k i))) (fun k => / mixed K w dens i * (w1 K N w dens k * f1 k i))) in J.
      2:{ intros k Hk. unfold gam. specialize (Hw k Hk). specialize (HF k i Hk Hi). field. split; [lra|]. split; lra. }
      rewrite rsum_scal in J. rewrite ln_mult, ln_Rinv in J; auto; [|apply Rinv_0_lt_compat; auto|apply rsum_pos; auto; intros; apply Rmult_lt_0_compat; auto].
      assert (JJ := fun A B D => J A B D). assert (J2 : rsum K (fun k => g k i * (ln (w1 K N w dens k) + ln (f1 k i) - ln (w k) - ln (dens k i))) <= - ln (mixed K w dens i) + ln (rsum K (fun k => w1 K N w dens k * f1 k i))); [|lra].
      apply J; auto. - apply (gam_sum K N); auto. - intros k Hk. apply Rdiv_lt_0_compat; apply Rmult_lt_0_compat; auto. }
  rewrite rsum_add. rewrite <- (Rplus_0_r (rsum N (fun i => ln (rsum K (fun k => w k * dens k i))))) at 1. apply Rplus_le_compat_l. rewrite rsum_swap.
  rewrite (rsum_ext K _ (fun k => INR N * (w1 K N w dens k * (ln (w1 K N w dens k) - ln (w k))) + rsum N (fun i => g k i * (ln (f1 k i) - ln (dens k i))))).
  2:{ intros k Hk. rewrite (rsum_ext N _ (fun i => g k i * (ln (w1 K N w dens k) - ln (w k)) + g k i * (ln (f1 k i) - ln (dens k i)))) by (intros; ring). rewrite rsum_add, rsum_scal_r, nks_eta. f_equal. unfold w1. field. pose proof (INR_N N HN). lra. }
  rewrite rsum_add, rsum_scal. apply Rplus_le_le_0_compat.
  - apply Rmult_le_pos; [apply Rlt_le, INR_N; auto|]. assert (L : rsum K (fun k => w1 K N w dens k - w k) <= rsum K (fun k => w1 K N w dens k * (ln (w1 K N w dens k) - ln (w k)))).
    + apply rsum_le. intros k Hk. specialize (W1 k Hk). specialize (Hw k Hk). pose proof (ln_le_sub1 (w k * / w1 K N w dens k)) as H. assert (Q : 0 < w k * / w1 K N w dens k) by (apply Rmult_lt_0_compat; auto; apply Rinv_0_lt_compat; auto). specialize (H Q). rewrite ln_mult, ln_Rinv in H by (auto; apply Rinv_0_lt_compat; auto).
      apply Rle_trans with (w1 K N w dens k * (1 - w k * / w1 K N w dens k)); [right; field; lra|apply Rmult_le_compat_l; lra].
    + rewrite rsum_sub, WS, Sw in L. lra.
  - apply rsum_nonneg. intros k Hk. specialize (NK k Hk). destruct (trace_det n (C k) (P k) (cov1 K N x w dens k)) as (DC & DD & TD); auto; [apply cov1_sym|].
    rewrite (rsum_ext N _ (fun i => (1 / 2) * (g k i * qf n (P k) (fun a => x i a - mu k a) - g k i * qf n (P1 k) (fun a => x i a - mu1 K N x w dens k a) + g k i * (ln (det n (C k)) - ln (det n (cov1 K N x w dens k)))))).
    2:{ intros i Hi. change (ln (dens k i)) with (ln (normal n (mu k) (C k) (P k) (x i))). unfold f1. rewrite !ln_normal by auto. field. }
    rewrite rsum_scal, rsum_add, rsum_sub, rsum_scal_r, nks_eta. rewrite (trace_gam n K N x w dens HK HN Hw HF k) by auto. rewrite trace_inv by (auto; apply cov1_sym).
    pose proof (shift_gam n K N x w dens HK HN Hw HF k (mu k) (P k) Hk) as SG. assert (PP : psd n (P k)) by (apply (inv_psd n (C k)); auto; apply pd_psd; auto). specialize (SG PP).
    assert (0 <= nks K N w dens k * (trace2 n (P k) (cov1 K N x w dens k) - INR n + (ln (det n (C k)) - ln (det n (cov1 K N x w dens k))))) by (apply Rmult_le_pos; lra). lra.
Qed.
End Monotone.
