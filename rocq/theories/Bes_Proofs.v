From Coq Require Import Reals Lra Lia.
From Verif Require Import Prelude Prelude_Proofs Scalar RealLib Bes_Spec.
Open Scope R_scope.

(** * The series *)
Lemma bterm_step s n x k :
  bterm s n x (S k) = bterm s n x k * (s * (x / 2) ^ 2 / (INR (S k) * INR (S k + n))).
Proof.
  unfold bterm.
  replace (2 * S k + n)%nat with (2 + (2 * k + n))%nat by lia.
  rewrite pow_add. replace (S k + n)%nat with (S (k + n)) by lia.
  change (fact (S k)) with (S k * fact k)%nat. change (fact (S (k + n))) with (S (k + n) * fact (k + n))%nat.
  rewrite !mult_INR. change (s ^ S k) with (s * s ^ k).
  pose proof (INR_fact_neq_0 k). pose proof (INR_fact_neq_0 (k + n)).
  pose proof (not_0_INR (S k) ltac:(lia)). pose proof (not_0_INR (S (k + n)) ltac:(lia)).
  field. auto.
Qed.

Lemma bterm_abs s n x k : Rabs s = 1 -> Rabs (bterm s n x k) = bterm 1 n (Rabs x) k.
Proof.
  intros Hs. unfold bterm. unfold Rdiv. rewrite !Rabs_mult, <- !RPow_abs, Hs, pow1.
  rewrite (Rabs_mult x), (Rabs_right (/ 2)) by lra.
  f_equal. f_equal. rewrite Rabs_right; [reflexivity|].
  apply Rle_ge. left. apply Rinv_0_lt_compat, Rmult_lt_0_compat; apply INR_fact_lt_0.
Qed.

Lemma bterm_pos n x k : 0 < x -> 0 < bterm 1 n x k.
Proof.
  intros Hx. unfold bterm. apply Rmult_lt_0_compat; [|apply pow_lt; lra].
  rewrite pow1. apply Rdiv_lt_0_compat; [lra|]. apply Rmult_lt_0_compat; apply INR_fact_lt_0.
Qed.
Lemma bterm_nonneg n x k : 0 <= x -> 0 <= bterm 1 n x k.
Proof.
  intros Hx. unfold bterm. apply Rmult_le_pos; [|apply pow_le; lra].
  rewrite pow1. left. apply Rdiv_lt_0_compat; [lra|]. apply Rmult_lt_0_compat; apply INR_fact_lt_0.
Qed.

Lemma bterm_neg s n x k : bterm s n (- x) k = (-1) ^ n * bterm s n x k.
Proof.
  unfold bterm. replace (- x / 2) with (-1 * (x / 2)) by lra. rewrite Rpow_mult_distr.
  rewrite pow_add, pow_mult. replace ((-1) ^ 2) with 1 by lra. rewrite pow1. lra.
Qed.

Lemma isum_unique f a b : infinite_sum f a -> infinite_sum f b -> a = b.
Proof. intros A B. exact (UL_sequence _ _ _ A B). Qed.

Lemma isum_scale f a c : infinite_sum f a -> infinite_sum (fun k => c * f k) (c * a).
Proof.
  intros A. intros e He.
  assert (Cv : Un_cv (fun N => c * sum_f_R0 f N) (c * a)).
  { apply (CV_mult (fun _ => c) (sum_f_R0 f) c a).
    - intros e' He'. exists 0%nat. intros. unfold R_dist. rewrite Rminus_diag_eq, Rabs_R0; auto.
    - exact A. }
  destruct (Cv e He) as [N HN]. exists N. intros n Hn.
  replace (sum_f_R0 (fun k => c * f k) n) with (c * sum_f_R0 f n); [exact (HN n Hn)|].
  apply (scal_sum f n c) || idtac.
  clear. induction n; simpl; [reflexivity|]. rewrite <- IHn. ring.
Qed.

Lemma isum_ext f g a : (forall k, f k = g k) -> infinite_sum f a -> infinite_sum g a.
Proof.
  intros E A e He. destruct (A e He) as [N HN]. exists N. intros n Hn.
  replace (sum_f_R0 g n) with (sum_f_R0 f n); [auto|]. apply sum_eq. auto.
Qed.

Lemma is_neg s n x l : infinite_sum (bterm s n x) l -> infinite_sum (bterm s n (- x)) ((-1) ^ n * l).
Proof.
  intros A. eapply isum_ext; [|apply isum_scale; exact A]. intros k. cbn beta. now rewrite bterm_neg.
Qed.

(** existence *)
Lemma bterm_cv s n x : Rabs s = 1 -> { l | infinite_sum (bterm s n x) l }.
Proof.
  intros Hs. destruct (Req_EM_T x 0) as [->|Hx].
  - exists (bterm s n 0 0). intros e He. exists 0%nat. intros k _.
    replace (sum_f_R0 (bterm s n 0) k) with (bterm s n 0 0).
    + unfold R_dist. rewrite Rminus_diag_eq, Rabs_R0; auto.
    + induction k; [reflexivity|]. simpl sum_f_R0. rewrite <- IHk.
      rewrite bterm_step. unfold Rdiv. rewrite Rmult_0_l. simpl. ring_simplify. reflexivity.
  - assert (Hs0 : s <> 0) by (intros ->; rewrite Rabs_R0 in Hs; lra).
    apply Alembert_C2.
    + intros k. unfold bterm. apply Rmult_integral_contrapositive_currified.
      * unfold Rdiv. apply Rmult_integral_contrapositive_currified; [apply pow_nonzero; auto|].
        apply Rinv_neq_0_compat. apply Rmult_integral_contrapositive_currified; apply INR_fact_neq_0.
      * apply pow_nonzero. unfold Rdiv. apply Rmult_integral_contrapositive_currified; lra.
    + intros e He. set (c := (x / 2) ^ 2).
      assert (Hc : 0 <= c) by (unfold c; apply pow2_ge_0).
      destruct (archimed (c / e)) as [A _].
      exists (Z.to_nat (up (c / e))). intros k Hk. unfold R_dist. rewrite Rminus_0_r, Rabs_Rabsolu.
      rewrite bterm_step.
      assert (B0 : bterm s n x k <> 0).
      { unfold bterm. apply Rmult_integral_contrapositive_currified.
        - unfold Rdiv. apply Rmult_integral_contrapositive_currified; [apply pow_nonzero; auto|].
          apply Rinv_neq_0_compat. apply Rmult_integral_contrapositive_currified; apply INR_fact_neq_0.
        - apply pow_nonzero. unfold Rdiv. apply Rmult_integral_contrapositive_currified; lra. }
      pose proof (lt_0_INR (S k) ltac:(lia)) as K1. pose proof (lt_0_INR (S k + n) ltac:(lia)) as K2.
      replace (bterm s n x k * (s * (x / 2) ^ 2 / (INR (S k) * INR (S k + n))) / bterm s n x k)
        with (s * (c / (INR (S k) * INR (S k + n)))) by (unfold c; field; lra).
      rewrite Rabs_mult, Hs, Rmult_1_l, Rabs_right by
        (apply Rle_ge, Rmult_le_pos; [auto|left; apply Rinv_0_lt_compat, Rmult_lt_0_compat; auto]).
      assert (L : c / e < INR (S k)).
      { eapply Rlt_le_trans; [exact A|].
        rewrite S_INR.
        assert (IZR (up (c / e)) <= INR k); [|lra].
        rewrite INR_IZR_INZ. apply IZR_le. lia. }
      assert (K3 : 1 <= INR (S k + n)) by (rewrite plus_INR, S_INR; pose proof (pos_INR k); pose proof (pos_INR n); lra).
      apply Rmult_lt_reg_r with (INR (S k) * INR (S k + n)); [apply Rmult_lt_0_compat; auto|].
      unfold Rdiv. rewrite Rmult_assoc, Rinv_l, Rmult_1_r by (apply Rgt_not_eq, Rmult_lt_0_compat; auto).
      assert (c < e * INR (S k)).
      { apply Rmult_lt_compat_r with (r := e) in L; auto. unfold Rdiv in L.
        rewrite Rmult_assoc, Rinv_l, Rmult_1_r in L by lra. lra. }
      nra.
Qed.
Theorem J_exists n x : exists l, is_J n x l.
Proof. destruct (bterm_cv (-1) n x) as [l Hl]; [rewrite Rabs_left; lra|]. now exists l. Qed.
Theorem I_exists n x : exists l, is_I n x l.
Proof. destruct (bterm_cv 1 n x) as [l Hl]; [rewrite Rabs_right; lra|]. now exists l. Qed.

(** * Three-term recurrence *)
Lemma bterm_rec0 s n x : x <> 0 -> bterm s n x 0 = 2 * INR (S n) / x * bterm s (S n) x 0.
Proof.
  intros Hx. unfold bterm. replace (2 * 0 + n)%nat with n by lia. replace (2 * 0 + S n)%nat with (S n) by lia.
  change (0 + n)%nat with n. change (0 + S n)%nat with (S n). change (fact (S n)) with (S n * fact n)%nat.
  rewrite mult_INR. pose proof (INR_fact_neq_0 n). pose proof (not_0_INR (S n) ltac:(lia)).
  change (fact 0) with 1%nat. change (INR 1) with 1. change ((x / 2) ^ S n) with (x / 2 * (x / 2) ^ n).
  change (s ^ 0) with 1. field. auto.
Qed.
Lemma bterm_recS s n x k : x <> 0 ->
  bterm s n x (S k) - s * bterm s (S (S n)) x k = 2 * INR (S n) / x * bterm s (S n) x (S k).
Proof.
  intros Hx. unfold bterm.
  replace (2 * S k + n)%nat with (2 * k + n + 2)%nat by lia.
  replace (2 * k + S (S n))%nat with (2 * k + n + 2)%nat by lia.
  replace (2 * S k + S n)%nat with (S (2 * k + n + 2))%nat by lia.
  replace (S k + n)%nat with (S (k + n)) by lia.
  replace (k + S (S n))%nat with (S (S (k + n))) by lia.
  replace (S k + S n)%nat with (S (S (k + n))) by lia.
  set (m := (k + n)%nat).
  change (fact (S k)) with (S k * fact k)%nat.
  change (fact (S (S m))) with (S (S m) * fact (S m))%nat. 
  rewrite !mult_INR. change (s ^ S k) with (s * s ^ k).
  set (F := INR (fact (S m))).
  change ((x / 2) ^ S (2 * k + n + 2)) with (x / 2 * (x / 2) ^ (2 * k + n + 2)).
  set (X := (x / 2) ^ (2 * k + n + 2)). set (sk := s ^ k).
  pose proof (INR_fact_neq_0 k). assert (F <> 0) by apply INR_fact_neq_0.
  pose proof (not_0_INR (S k) ltac:(lia)). pose proof (not_0_INR (S (S m)) ltac:(lia)).
  assert (E : INR (S n) = INR (S (S m)) - INR (S k)).
  { unfold m. rewrite !S_INR, plus_INR. lra. }
  rewrite E. field. auto.
Qed.

Lemma bsum_rec s n x N : x <> 0 ->
  sum_f_R0 (bterm s n x) (S N) - s * sum_f_R0 (bterm s (S (S n)) x) N
  = 2 * INR (S n) / x * sum_f_R0 (bterm s (S n) x) (S N).
Proof.
  intros Hx. induction N.
  - cbn [sum_f_R0].
    pose proof (bterm_rec0 s n x Hx). pose proof (bterm_recS s n x 0 Hx). lra.
  - cbn [sum_f_R0] in IHN |- *.
    pose proof (bterm_recS s n x (S N) Hx). cbn [sum_f_R0] in *. lra.
Qed.

Lemma cv_shift u l : Un_cv u l -> Un_cv (fun N => u (S N)) l.
Proof. intros A e He. destruct (A e He) as [N HN]. exists N. intros k Hk. apply HN. lia. Qed.

Lemma b_rec s n x a b c : x <> 0 ->
  infinite_sum (bterm s n x) a -> infinite_sum (bterm s (S n) x) b -> infinite_sum (bterm s (S (S n)) x) c ->
  a - s * c = 2 * INR (S n) / x * b.
Proof.
  intros Hx A B C.
  assert (K : forall z : R, Un_cv (fun _ : nat => z) z).
  { intros z e He. exists 0%nat. intros. unfold R_dist. rewrite Rminus_diag_eq, Rabs_R0; auto. }
  assert (U1 : Un_cv (fun N => sum_f_R0 (bterm s n x) (S N) - s * sum_f_R0 (bterm s (S (S n)) x) N) (a - s * c)).
  { apply CV_minus; [apply (cv_shift _ _ A)|]. apply CV_mult; [apply K|exact C]. }
  assert (U2 : Un_cv (fun N => sum_f_R0 (bterm s n x) (S N) - s * sum_f_R0 (bterm s (S (S n)) x) N)
                     (2 * INR (S n) / x * b)).
  { intros e He.
    destruct (CV_mult _ _ _ _ (K (2 * INR (S n) / x)) (cv_shift _ _ B) e He) as [N HN].
    exists N. intros k Hk. rewrite bsum_rec by auto. apply HN. auto. }
  exact (UL_sequence _ _ _ U1 U2).
Qed.

(** * Truncation *)
Lemma tail_bound (a : nat -> R) (l : R) (M : nat) :
  infinite_sum a l ->
  (forall k, (M < k)%nat -> Rabs (a (S k)) <= Rabs (a k) / 2) ->
  Rabs (l - sum_f_R0 a M) <= 2 * Rabs (a (S M)).
Proof.
  intros A H.
  assert (P : forall K, Rabs (sum_f_R0 a (M + S K) - sum_f_R0 a M) <= 2 * Rabs (a (S M)) - Rabs (a (M + S K)%nat)).
  { induction K.
    - replace (M + 1)%nat with (S M) by lia. cbn [sum_f_R0].
      replace (sum_f_R0 a M + a (S M) - sum_f_R0 a M) with (a (S M)) by ring. lra.
    - replace (M + S (S K))%nat with (S (M + S K)) by lia. cbn [sum_f_R0].
      pose proof (H (M + S K)%nat ltac:(lia)).
      replace (sum_f_R0 a (M + S K) + a (S (M + S K)) - sum_f_R0 a M)
        with ((sum_f_R0 a (M + S K) - sum_f_R0 a M) + a (S (M + S K))) by ring.
      eapply Rle_trans; [apply Rabs_triang|]. lra. }
  apply le_epsilon. intros e He. destruct (A e He) as [N HN].
  pose proof (HN (M + S N)%nat ltac:(lia)) as Q. unfold R_dist in Q.
  pose proof (P N). pose proof (Rabs_pos (a (M + S N)%nat)).
  replace (l - sum_f_R0 a M) with (- (sum_f_R0 a (M + S N) - l) + (sum_f_R0 a (M + S N) - sum_f_R0 a M)) by ring.
  eapply Rle_trans; [apply Rabs_triang|]. rewrite Rabs_Ropp. lra.
Qed.

Lemma head_le (a : nat -> R) (l : R) (M : nat) :
  infinite_sum a l -> (forall k, 0 <= a k) -> sum_f_R0 a M <= l.
Proof.
  intros A H. apply (growing_ineq (sum_f_R0 a)); [|exact A].
  intros k. cbn [sum_f_R0]. pose proof (H (S k)). lra.
Qed.

(** the tail of the series of order [n] after the term [M], for (x/2)^2 <= z and 2 z <= (M+2)^2 *)
Lemma b_tail s n x l M z :
  Rabs s = 1 -> (x / 2) ^ 2 <= z -> 2 * z <= INR (S (S M)) ^ 2 ->
  infinite_sum (bterm s n x) l ->
  Rabs (l - sum_f_R0 (bterm s n x) M) <= 2 * bterm 1 n (Rabs x) (S M).
Proof.
  intros Hs Hz HM A. rewrite <- (bterm_abs s) by auto. apply tail_bound; auto.
  intros k Hk. rewrite bterm_step, Rabs_mult.
  pose proof (lt_0_INR (S k) ltac:(lia)) as K1. pose proof (lt_0_INR (S k + n) ltac:(lia)) as K2.
  assert (P : Rabs (s * (x / 2) ^ 2 / (INR (S k) * INR (S k + n))) <= 1 / 2).
  { unfold Rdiv at 1. rewrite Rmult_assoc, Rabs_mult, Hs, Rmult_1_l.
    rewrite Rabs_right by (apply Rle_ge, Rmult_le_pos; [apply pow2_ge_0|left; apply Rinv_0_lt_compat, Rmult_lt_0_compat; auto]).
    apply Rmult_le_reg_r with (INR (S k) * INR (S k + n)); [apply Rmult_lt_0_compat; auto|].
    rewrite Rmult_assoc, Rinv_l, Rmult_1_r by (apply Rgt_not_eq, Rmult_lt_0_compat; auto).
    assert (INR (S (S M)) <= INR (S k)) by (apply le_INR; lia).
    assert (INR (S (S M)) <= INR (S k + n)) by (apply le_INR; lia).
    pose proof (pos_INR (S (S M))).
    assert (INR (S (S M)) * INR (S (S M)) <= INR (S k) * INR (S k + n)) by (apply Rmult_le_compat; auto).
    replace (INR (S (S M)) ^ 2) with (INR (S (S M)) * INR (S (S M))) in HM by ring. lra. }
  pose proof (Rabs_pos (bterm s n x k)). nra.
Qed.
