(** Lemmas about the oscillators (C88). *)
From Coq Require Import List Arith Lia Reals Lra ZArith Ranalysis.
From Verif Require Import Prelude Scalar RealLib Osc_Model.
Import ListNotations.
Local Open Scope R_scope.

(** sine against the sine of the locked phase *)
Lemma sin_above : forall s x, - (PI / 2) < s < PI / 2 -> s < x < PI - s -> sin s < sin x.
Proof.
  intros s x Hs Hx. assert (E : sin x - sin s = 2 * cos ((x + s) / 2) * sin ((x - s) / 2)) by apply form4.
  assert (0 < cos ((x + s) / 2)) by (apply cos_gt_0; lra). assert (0 < sin ((x - s) / 2)) by (apply sin_gt_0; lra).
  assert (0 < 2 * cos ((x + s) / 2) * sin ((x - s) / 2)) by (apply Rmult_lt_0_compat; lra). lra.
Qed.
Lemma sin_below : forall s x, - (PI / 2) < s < PI / 2 -> - PI - s < x < s -> sin x < sin s.
Proof.
  intros s x Hs Hx. pose proof (sin_above (- s) (- x)) as H. rewrite !sin_neg in H. assert (- sin s < - sin x) by (apply H; lra). lra.
Qed.
Lemma sin_lip : forall x y, x <= y -> sin y - sin x <= y - x.
Proof.
  intros x y H. destruct (Req_dec x y) as [->|]; [lra|]. destruct (MVT_cor2 sin cos x y) as [c [E _]]; [lra|intros; apply derivable_pt_lim_sin|].
  rewrite E. pose proof (COS_bound c). assert (cos c * (y - x) <= 1 * (y - x)) by (apply Rmult_le_compat_r; lra). lra.
Qed.

Section Lock.
  (** the phase difference: x -> x + (d - ke sin x) dt with d = ke sin s *)
  Variables (s k x0 : R).
  Hypothesis Hs : - (PI / 2) < s < PI / 2.
  Hypothesis Hk : 0 < k <= 1.
  Fixpoint ph (n : nat) : R := match n with O => x0 | S n => ph n - k * (sin (ph n) - sin s) end.

  Lemma above : s <= x0 < PI - s -> forall n, s <= ph n < PI - s /\ ph (S n) <= ph n.
  Proof.
    intros H0.
    assert (step : forall x, s <= x < PI - s -> s <= x - k * (sin x - sin s) <= x).
    { intros x Hx. destruct (Req_dec x s) as [->|]; [lra|]. assert (sin s < sin x) by (apply sin_above; lra). pose proof (sin_lip s x ltac:(lra)).
      assert (0 <= k * (sin x - sin s)) by (apply Rmult_le_pos; lra). assert (k * (sin x - sin s) <= 1 * (sin x - sin s)) by (apply Rmult_le_compat_r; lra). lra. }
    induction n as [|n [IH1 IH2]].
    - cbn [ph]. split; auto. apply step; auto.
    - assert (A : s <= ph (S n) < PI - s) by (cbn [ph]; pose proof (step (ph n) IH1); lra). split; auto. change (ph (S (S n))) with (ph (S n) - k * (sin (ph (S n)) - sin s)). apply step; auto.
  Qed.
  Lemma lim_fix : forall l, Un_cv ph l -> sin l = sin s.
  Proof.
    intros l Hl.
    assert (C1 : Un_cv (fun n => ph (S n)) l). { intros e He. destruct (Hl e He) as [N HN]. exists N. intros n Hn. apply HN. lia. }
    assert (C2 : Un_cv (fun n => sin (ph n)) (sin l)) by (apply (continuity_seq sin ph l); [apply continuity_sin|auto]).
    assert (C3 : Un_cv (fun n => ph n - k * (sin (ph n) - sin s)) (l - k * (sin l - sin s))).
    { apply CV_minus; auto. apply (CV_mult (fun _ => k) (fun n => sin (ph n) - sin s) k); [intros e He; exists 0%nat; intros; unfold R_dist; rewrite Rminus_diag_eq, Rabs_R0; auto|].
      apply (CV_minus (fun n => sin (ph n)) (fun _ => sin s)); auto. intros e He; exists 0%nat; intros; unfold R_dist; rewrite Rminus_diag_eq, Rabs_R0; auto. }
    pose proof (UL_sequence _ _ _ C1 C3). assert (k * (sin l - sin s) = 0) by lra. apply Rmult_integral in H0. destruct H0; lra.
  Qed.
  Lemma start_max : s <= x0 < PI - s -> forall n, ph n <= x0.
  Proof. intros H0 n. pose proof (above H0) as A. induction n as [|n IHn]; [apply Rle_refl|]. eapply Rle_trans; [apply A|exact IHn]. Qed.
  Lemma above_cv : s <= x0 < PI - s -> Un_cv ph s.
  Proof.
    intros H0. pose proof (above H0) as A.
    destruct (decreasing_cv ph) as [l Hl].
    - intros n. apply A.
    - exists (- s). intros y [n ->]. unfold opp_seq. destruct (A n). lra.
    - assert (H1 : s <= l).
      { destruct (Rle_dec s l); auto. exfalso. destruct (Hl (s - l)) as [N HN]; [lra|]. specialize (HN N (Nat.le_refl N)). unfold R_dist in HN. destruct (A N). apply Rabs_def2 in HN. lra. }
      assert (H2 : l <= x0).
      { destruct (Rle_dec l x0); auto. exfalso. pose proof (start_max H0) as M. destruct (Hl (l - x0)) as [N HN]; [lra|]. specialize (HN N (Nat.le_refl N)). unfold R_dist in HN. specialize (M N). apply Rabs_def2 in HN. lra. }
      destruct (Req_dec l s) as [->|]; auto. exfalso. assert (sin s < sin l) by (apply sin_above; lra). pose proof (lim_fix l Hl). lra.
  Qed.
End Lock.
Lemma ph_opp : forall s k x0 n, ph (- s) k (- x0) n = - ph s k x0 n.
Proof. induction n; cbn [ph]; auto. rewrite IHn, !sin_neg. lra. Qed.
Lemma below : forall s k x0, - (PI / 2) < s < PI / 2 -> 0 < k <= 1 -> - PI - s < x0 <= s -> (forall n, - PI - s < ph s k x0 n <= s /\ ph s k x0 n <= ph s k x0 (S n)) /\ Un_cv (ph s k x0) s.
Proof.
  intros s k x0 Hs Hk H0. split.
  - intros n. destruct (above (- s) k (- x0) ltac:(lra) Hk ltac:(lra) n) as [A B]. rewrite !ph_opp in *. lra.
  - pose proof (above_cv (- s) k (- x0) ltac:(lra) Hk ltac:(lra)) as C. apply CV_opp in C. rewrite Ropp_involutive in C.
    intros e He. destruct (C e He) as [N HN]. exists N. intros n Hn. specialize (HN n Hn). unfold opp_seq in HN. rewrite ph_opp, Ropp_involutive in HN. auto.
Qed.
