From Coq Require Import Reals Lra Lia ZArith Binomial.
From Coquelicot Require Import Coquelicot.
From Verif Require Import Prelude_Proofs Scalar RealLib Misc_Model.
Local Open Scope R_scope.

(* ---------------------------------------------------------------- power *)
Lemma pos_to_nat_xO p : N.to_nat (Npos p~0) = (2 * N.to_nat (Npos p))%nat.
Proof. lia. Qed.

Lemma zPowN_loop_pos p : forall fuel (x ret : R),
  (2 * Pos.size_nat p <= fuel)%nat ->
  zPowN_loop fuel x (Npos p) ret = Some (ret * x ^ Pos.to_nat p).
Proof.
  induction p as [p IH|p IH|]; intros fuel x ret Hf; cbn [Pos.size_nat] in Hf.
  - destruct fuel as [|[|fuel]]; try lia. cbn.
    rewrite IH by lia. f_equal. rewrite Pos2Nat.inj_xI. cbn [pow].
    replace (2 * Pos.to_nat p)%nat with (Pos.to_nat p + Pos.to_nat p)%nat by lia.
    rewrite pow_add, Rpow_mult_distr. ring.
  - destruct fuel as [|fuel]; try lia. cbn. rewrite IH by lia. f_equal.
    rewrite Pos2Nat.inj_xO. replace (2 * Pos.to_nat p)%nat with (Pos.to_nat p + Pos.to_nat p)%nat by lia.
    rewrite pow_add, Rpow_mult_distr. ring.
  - destruct fuel as [|fuel]; try lia. change (Pos.to_nat 1) with 1%nat. cbn. destruct fuel; cbn; rewrite Rmult_1_r; reflexivity.
Qed.

Lemma zPowN_iter (x : R) n fuel : (2 * N.to_nat (N.size n) <= fuel)%nat ->
  zPowN_loop fuel x n 1 = Some (x ^ N.to_nat n).
Proof.
  destruct n as [|p]; intros Hf.
  - destruct fuel; reflexivity.
  - rewrite zPowN_loop_pos.
    + now rewrite Rmult_1_l.
    + rewrite <- Hf. cbn [N.size N.to_nat]. apply Nat.mul_le_mono_l.
      clear. induction p; cbn [Pos.size_nat Pos.size]; lia.
Qed.
Lemma zPowN_correct (x : R) n : zPowN x n = Some (x ^ N.to_nat n).
Proof. apply zPowN_iter; reflexivity. Qed.

(* ---------------------------------------------------------------- permutation *)
Lemma perm_loop_R i : forall n (r : R), (i <= n)%nat ->
  perm_loop i (Z.of_nat n) r = r * INR (fact n) / INR (fact (n - i)).
Proof.
  induction i as [|i IH]; intros n r Hi; cbn [perm_loop].
  - rewrite Nat.sub_0_r. field. apply INR_fact_neq_0.
  - destruct n as [|n]; [lia|]. replace (Z.of_nat (S n) - 1)%Z with (Z.of_nat n) by lia.
    rewrite IH by lia. rs. cbn [Nat.sub]. rewrite fact_simpl, mult_INR, <- INR_IZR_INZ.
    field. apply INR_fact_neq_0.
Qed.
Lemma zPermutation_in n i : (i <= n)%nat ->
  zPermutation (Z.of_nat n) (Z.of_nat i) = INR (fact n) / INR (fact (n - i)).
Proof.
  intros H. unfold zPermutation.
  replace (Z.of_nat i >? Z.of_nat n)%Z with false by lia.
  replace (Z.of_nat i <? 0)%Z with false by lia. cbn [orb].
  rewrite Nat2Z.id, perm_loop_R by auto. rs. field. apply INR_fact_neq_0.
Qed.
Lemma zPermutation_out n i : (i < 0 \/ n < i)%Z -> zPermutation n i = 0.
Proof.
  intros H. unfold zPermutation.
  destruct (Z.gtb_spec i n); cbn [orb]; auto. destruct (Z.ltb_spec i 0); auto. lia.
Qed.
Lemma zFactorial_correct n : zFactorial (Z.of_nat n) = INR (fact n).
Proof.
  unfold zFactorial. rewrite zPermutation_in by lia. rewrite Nat.sub_diag. cbn. lra.
Qed.

(* ---------------------------------------------------------------- combination *)
Lemma comb_loop_R cnt : forall j n i (v : R), (j + cnt = i)%nat -> (i <= n)%nat ->
  comb_loop cnt (Z.of_nat j) (Z.of_nat n) (Z.of_nat i) v
  = v * (INR (fact (n - j)) / INR (fact (n - i))) / INR (fact (i - j)).
Proof.
  induction cnt as [|c IH]; intros j n i v Hj Hi; cbn [comb_loop].
  - replace j with i by lia. rewrite Nat.sub_diag. cbn [fact INR].
    field. apply INR_fact_neq_0.
  - replace (Z.of_nat j + 1)%Z with (Z.of_nat (S j)) by lia.
    rewrite IH by lia. rs.
    replace (Z.of_nat n - Z.of_nat j)%Z with (Z.of_nat (n - j)) by lia.
    replace (Z.of_nat i - Z.of_nat j)%Z with (Z.of_nat (i - j)) by lia.
    rewrite <- !INR_IZR_INZ.
    replace (n - j)%nat with (S (n - S j)) by lia.
    replace (i - j)%nat with (S (i - S j)) by lia.
    rewrite !fact_simpl, !mult_INR. field.
    repeat split; first [apply INR_fact_neq_0 | apply not_0_INR; lia].
Qed.
Lemma zCombination_half n i : (i <= n)%nat -> (i <= n - i)%nat ->
  zCombination (Z.of_nat n) (Z.of_nat i) = C n i.
Proof.
  intros H H2. unfold zCombination.
  replace (Z.of_nat n - Z.of_nat i <? Z.of_nat i)%Z with false by lia.
  destruct i as [|i].
  - cbn. unfold C. rewrite Nat.sub_0_r. cbn [fact INR]. field. apply INR_fact_neq_0.
  - destruct (Z.eqb_spec (Z.of_nat (S i)) 0); [lia|].
    rewrite Nat2Z.id. change 0%Z with (Z.of_nat 0).
    rewrite comb_loop_R by lia. rs. unfold C. rewrite !Nat.sub_0_r.
    field. split; apply INR_fact_neq_0.
Qed.
Lemma zCombination_correct n i : (i <= n)%nat ->
  zCombination (Z.of_nat n) (Z.of_nat i) = C n i.
Proof.
  intros H. destruct (Nat.le_gt_cases i (n - i)) as [L|L].
  - now apply zCombination_half.
  - rewrite pascal_step1, <- zCombination_half by lia.
    unfold zCombination.
    replace (Z.of_nat n - Z.of_nat i <? Z.of_nat i)%Z with true by lia.
    replace (Z.of_nat n - Z.of_nat (n - i) <? Z.of_nat (n - i))%Z with false by lia.
    now replace (Z.of_nat n - Z.of_nat i)%Z with (Z.of_nat (n - i)) by lia.
Qed.

(** Outside the triangle the code answers 1 instead of 0. *)
Lemma zCombination_out n i : (0 <= n)%Z -> (i < 0 \/ n < i)%Z -> zCombination n i = 1.
Proof.
  intros Hn H. unfold zCombination.
  destruct (Z.ltb_spec (n - i) i).
  - destruct (Z.eqb_spec (n - i) 0); auto.
    replace (Z.to_nat (n - i)) with 0%nat by lia. reflexivity.
  - destruct (Z.eqb_spec i 0); auto.
    replace (Z.to_nat i) with 0%nat by lia. reflexivity.
Qed.

Lemma C_n_0 n : C n 0 = 1.
Proof. unfold C. rewrite Nat.sub_0_r. cbn [fact INR]. field. apply INR_fact_neq_0. Qed.
Lemma C_n_n n : C n n = 1.
Proof. unfold C. rewrite Nat.sub_diag. cbn [fact INR]. field. apply INR_fact_neq_0. Qed.

Lemma comb_rec_R n : forall i, (i <= n)%nat -> comb_rec n (Z.of_nat i) = Some (C n i).
Proof.
  induction n as [|n IH]; intros i Hi; cbn [comb_rec].
  - replace i with 0%nat by lia. rs. now rewrite C_n_0.
  - destruct (Z.eqb_spec (Z.of_nat i) 0) as [E|E]; cbn [orb].
    + replace i with 0%nat by lia. rs. now rewrite C_n_0.
    + destruct (Z.eqb_spec (Z.of_nat i) (Z.of_nat (S n))) as [E1|E1].
      * replace i with (S n) by lia. rs. now rewrite C_n_n.
      * replace (Z.of_nat i <? 0)%Z with false by lia.
        replace (Z.of_nat i >? Z.of_nat (S n))%Z with false by lia. cbn [orb].
        destruct i as [|i]; [lia|].
        replace (Z.of_nat (S i) - 1)%Z with (Z.of_nat i) by lia.
        rewrite !IH by lia. cbn [oadd]. rs. f_equal. apply pascal. lia.
Qed.
Lemma zCombinationRecursive_correct n i : (i <= n)%nat ->
  zCombinationRecursive (Z.of_nat n) (Z.of_nat i) = Some (C n i).
Proof. intros H. unfold zCombinationRecursive. rewrite Nat2Z.id. now apply comb_rec_R. Qed.

(* ---------------------------------------------------------------- Pascal's row in place *)
Lemma pascal_step_R i (c : list R) : (i < length c)%nat ->
  (forall k, (k < i)%nat -> nth k c 0 = C (i - 1) k) ->
  exists c', pascal_step i c = Ok c' /\ length c' = length c /\
    (forall k, (k <= i)%nat -> nth k c' 0 = C i k) /\
    (forall k, (i < k)%nat -> nth k c' 0 = nth k c 0).
Proof.
  intros Hi Hc. unfold pascal_step. rewrite set_ok by auto. cbn [bind].
  destruct (for_down_inv (fun m (s : list R) =>
      length s = length c /\
      (forall k, (k <= m)%nat -> (k < i)%nat -> nth k s 0 = C (i - 1) k) /\
      (forall k, (m < k)%nat -> (k <= i)%nat -> nth k s 0 = C i k) /\
      (forall k, (i < k)%nat -> nth k s 0 = nth k c 0))
    (i - 1)%nat (fun k c => let j := S k in
      a <- get c j ;; b <- get c (j - 1) ;; set c j (a + b)%S) (upd c i s1))
    as (c' & E & L & H1 & H2 & H3).
  - repeat split.
    + apply upd_length.
    + intros k Hk Hk'. rewrite nth_upd_neq by lia. auto.
    + intros k Hk Hk'. replace k with i by lia. rewrite nth_upd_eq by auto. rs. now rewrite C_n_n.
    + intros k Hk. now rewrite nth_upd_neq by lia.
  - intros k s Hk (L & H1 & H2 & H3). cbv zeta.
    rewrite (get_ok s (S k) 0) by lia. cbn [bind].
    rewrite (get_ok s (S k - 1) 0) by lia. cbn [bind].
    rewrite set_ok by lia. eexists; split; [reflexivity|]. rewrite upd_length.
    repeat split; auto.
    + intros k' Hk' Hk2. rewrite nth_upd_neq by lia. apply H1; lia.
    + intros k' Hk' Hk2. destruct (Nat.eq_dec k' (S k)) as [->|N].
      * rewrite nth_upd_eq by lia. rs. replace (S k - 1)%nat with k by lia.
        rewrite !H1 by lia. rewrite Rplus_comm.
        replace i with (S (i - 1)) at 3 by lia. apply pascal. lia.
      * rewrite nth_upd_neq by lia. apply H2; lia.
    + intros k' Hk'. rewrite nth_upd_neq by lia. auto.
  - exists c'. split; [exact E|]. split; [auto|]. split; [|auto].
    intros k Hk. destruct k as [|k]; [|apply H2; lia].
    destruct (Nat.eq_dec i 0) as [->|N].
    + (* i = 0: cell 0 was just set *)
      cbn in E. injection E as <-. rewrite nth_upd_eq by auto. rs. now rewrite C_n_0.
    + rewrite H1 by lia. now rewrite !C_n_0.
Qed.

Lemma zCombinationSeries_correct n size (c : list R) :
  length c = size -> (n < size)%nat ->
  exists c', zCombinationSeries n size c = Ok (Some c') /\ length c' = size /\
    (forall k, (k <= n)%nat -> nth k c' 0 = C n k) /\
    (forall k, (n < k)%nat -> nth k c' 0 = nth k c 0).
Proof.
  intros L Hn. unfold zCombinationSeries. replace (size <=? n)%nat with false by (symmetry; apply Nat.leb_gt; auto).
  destruct (for_inv (fun i (s : list R) => length s = size /\
     (forall k, (k < i)%nat -> nth k s 0 = C (i - 1) k) /\
     (forall k, (i <= k)%nat -> nth k s 0 = nth k c 0)) 0 (S n) pascal_step c)
    as (c' & E & Lc & H1 & H2); try lia.
  - repeat split; auto; lia.
  - intros k s Hk (Ls & H1 & H2).
    destruct (pascal_step_R k s) as (s' & E & Ls' & H3 & H4); [lia|auto|].
    exists s'; split; auto. split; [lia|]. split.
    + intros j Hj. replace (S k - 1)%nat with k by lia. apply H3; lia.
    + intros j Hj. rewrite H4 by lia. apply H2; lia.
  - rewrite E. cbn. exists c'; repeat split; auto.
    + intros k Hk. rewrite H1 by lia. f_equal; lia.
Qed.

Lemma zCombinationSeries_fail {T} `{Scalar T} n size (c : list T) :
  (size <= n)%nat -> zCombinationSeries n size c = Ok None.
Proof. intros H'. unfold zCombinationSeries. now rewrite (proj2 (Nat.leb_le _ _) H'). Qed.

(* ---------------------------------------------------------------- smoothstep *)
(** The polynomial evaluated between 0 and 1. *)
Definition smooth_coef (N k : nat) : R := C (N + k) k * C (2 * N + 1) (N - k).
Definition smooth_poly (N : nat) (x : R) : R :=
  rsum (S N) (fun k => (-1) ^ k * (smooth_coef N k * x ^ (N + 1 + k))).

Lemma spow_R (x : R) k : spow x k = x ^ k.
Proof. induction k as [|k IH]; cbn; [reflexivity|]. now rewrite IH. Qed.

Lemma odd_pow k : (if Nat.odd k then -1 else 1) = (-1) ^ k.
Proof.
  induction k as [|k IH]; [reflexivity|].
  rewrite Nat.odd_succ, <- Nat.negb_odd. cbn [pow]. rewrite <- IH.
  destruct (Nat.odd k); cbn; lra.
Qed.

Lemma smooth_sum_R (f : nat -> R) n : forall k v,
  smooth_sum f n k v = v + rsum n (fun i => (-1) ^ (k + i) * f (k + i)%nat).
Proof.
  induction n as [|n IH]; intros k v; cbn [smooth_sum].
  - cbn; lra.
  - rewrite IH, rsum_S_l. rs. rewrite Nat.add_0_r, <- (odd_pow k).
    rewrite (rsum_ext n _ (fun i => (-1) ^ (k + S i) * f (k + S i)%nat)).
    + destruct (Nat.odd k); lra.
    + intros i _. now replace (S k + i)%nat with (k + S i)%nat by lia.
Qed.

Lemma smooth_step_mid N x : 0 < x < 1 -> zSmoothStep x N = smooth_poly N x.
Proof.
  intros H. unfold zSmoothStep; rs.
  rewrite (Rleb_false x 0), (Rleb_false 1 x) by lra.
  rewrite smooth_sum_R, spow_R, Rplus_0_l, <- rsum_scal_r.
  unfold smooth_poly. apply rsum_ext. intros k Hk. cbn [Nat.add].
  unfold smooth_term, smooth_coef. rs. rewrite (spow_R x k), (zCombination_correct (N + k) k), (zCombination_correct (2 * N + 1) (N - k)) by lia.
  rewrite (pow_add x (N + 1) k). ring.
Qed.

Lemma smooth_dif_mid N x : 0 < x < 1 -> zSmoothStepDif x N =
  rsum (S N) (fun k => (-1) ^ k * (INR (N + k + 1) * smooth_coef N k * x ^ (N + k))).
Proof.
  intros H. unfold zSmoothStepDif; rs.
  rewrite (Rleb_false x 0), (Rleb_false 1 x) by lra. cbn [orb].
  rewrite smooth_sum_R, spow_R, Rplus_0_l, <- rsum_scal_r.
  apply rsum_ext. intros k Hk. cbn [Nat.add].
  unfold smooth_dif_term, smooth_coef. rs. rewrite (spow_R x k), (zCombination_correct (N + k) k), (zCombination_correct (2 * N + 1) (N - k)) by lia.
  rewrite <- INR_IZR_INZ. rewrite (pow_add x N k). ring.
Qed.

Lemma is_derive_rsum n (f df : nat -> R -> R) x :
  (forall k, (k < n)%nat -> is_derive (f k) x (df k x)) ->
  is_derive (fun y => rsum n (fun k => f k y)) x (rsum n (fun k => df k x)).
Proof.
  induction n as [|n IH]; intros H; cbn.
  - apply (is_derive_const 0 x).
  - apply @is_derive_plus; auto.
Qed.

Lemma smooth_poly_deriv N x : is_derive (smooth_poly N) x
  (rsum (S N) (fun k => (-1) ^ k * (INR (N + k + 1) * smooth_coef N k * x ^ (N + k)))).
Proof.
  unfold smooth_poly.
  apply (is_derive_rsum (S N) (fun k y => (-1) ^ k * (smooth_coef N k * y ^ (N + 1 + k)))
          (fun k y => (-1) ^ k * (INR (N + k + 1) * smooth_coef N k * y ^ (N + k)))).
  intros k _. auto_derive; auto.
  replace (N + 1 + k)%nat with (S (N + k)) by lia.
  replace (N + k + 1)%nat with (S (N + k)) by lia. cbn [pred]. ring.
Qed.

Lemma smooth_step_deriv N x : 0 < x < 1 ->
  is_derive (fun y => zSmoothStep y N) x (zSmoothStepDif x N).
Proof.
  intros H. rewrite smooth_dif_mid by auto.
  apply (is_derive_ext_loc (smooth_poly N)).
  - exists (mkposreal (Rmin x (1 - x)) ltac:(apply Rmin_pos; lra)).
    intros y Hy. symmetry. apply smooth_step_mid.
    unfold ball in Hy; cbn in Hy. unfold AbsRing_ball, abs, minus, plus, opp in Hy; cbn in Hy.
    pose proof (Rmin_l x (1 - x)). pose proof (Rmin_r x (1 - x)).
    apply Rabs_def2 in Hy. lra.
  - apply smooth_poly_deriv.
Qed.

Definition smooth_norm (N : nat) : R := INR (fact (2 * N + 1)) / (INR (fact N) * INR (fact N)).

Lemma smooth_dif_closed N x : 0 < x < 1 ->
  zSmoothStepDif x N = smooth_norm N * x ^ N * (1 - x) ^ N.
Proof.
  intros H. rewrite smooth_dif_mid by auto.
  rewrite (rsum_ext _ _ (fun k => smooth_norm N * x ^ N * (C N k * (- x) ^ k * 1 ^ (N - k)))).
  - rewrite rsum_scal. f_equal.
    replace (1 - x) with (- x + 1) by lra. rewrite binomial.
    clear. generalize (fun i : nat => C N i * (- x) ^ i * 1 ^ (N - i)). intros f.
    generalize N. intros m. induction m as [|m IH]; cbn [rsum sum_f_R0].
    + cbn; lra.
    + rewrite <- IH. reflexivity.
  - intros k Hk. unfold smooth_norm, smooth_coef, C. rewrite pow1.
    replace (N + k - k)%nat with N by lia.
    replace (2 * N + 1 - (N - k))%nat with (S (N + k)) by lia.
    replace (N + k + 1)%nat with (S (N + k)) by lia.
    replace (- x) with (-1 * x) by lra. rewrite (Rpow_mult_distr (-1) x k), (pow_add x N k).
    rewrite (fact_simpl (N + k)), mult_INR. field.
    repeat split; try apply INR_fact_neq_0. apply not_0_INR; lia.
Qed.

Lemma smooth_norm_pos N : 0 < smooth_norm N.
Proof.
  unfold smooth_norm. apply Rdiv_lt_0_compat; [apply INR_fact_lt_0|].
  apply Rmult_lt_0_compat; apply INR_fact_lt_0.
Qed.

(** Binomial coefficients extended by 0 and an alternating convolution. *)
Definition C0 (n k : nat) : R := if (k <=? n)%nat then C n k else 0.
Lemma C0_0 n : C0 n 0 = 1.
Proof. unfold C0. cbn. apply C_n_0. Qed.
Lemma C0_pascal n k : C0 (S n) (S k) = C0 n (S k) + C0 n k.
Proof.
  unfold C0. destruct (Nat.leb_spec (S k) (S n)).
  - destruct (Nat.leb_spec k n); [|lia]. destruct (Nat.leb_spec (S k) n).
    + rewrite Rplus_comm. symmetry. apply pascal; lia.
    + replace k with n by lia. rewrite !C_n_n. lra.
  - destruct (Nat.leb_spec k n); [lia|]. destruct (Nat.leb_spec (S k) n); [lia|]. lra.
Qed.
Definition alt (a b n : nat) : R :=
  rsum (S n) (fun k => (-1) ^ k * (C (a + k) k * C0 b (n - k))).
Lemma alt_0 a b : alt a b 0 = 1.
Proof. unfold alt. cbn [rsum]. rewrite Nat.add_0_r, C_n_0, C0_0. cbn; lra. Qed.
Lemma alt_b a b n : alt a (S b) (S n) = alt a b (S n) + alt a b n.
Proof.
  unfold alt. cbn [rsum]. rewrite Nat.sub_diag, !C0_0.
  replace (rsum n (fun k => (-1) ^ k * (C (a + k) k * C0 (S b) (S n - k))) +
           (-1) ^ n * (C (a + n) n * C0 (S b) (S n - n)))
    with (rsum (S n) (fun k => (-1) ^ k * (C (a + k) k * C0 (S b) (S n - k)))) by reflexivity.
  replace (rsum n (fun k => (-1) ^ k * (C (a + k) k * C0 b (S n - k))) +
           (-1) ^ n * (C (a + n) n * C0 b (S n - n)))
    with (rsum (S n) (fun k => (-1) ^ k * (C (a + k) k * C0 b (S n - k)))) by reflexivity.
  replace (rsum n (fun k => (-1) ^ k * (C (a + k) k * C0 b (n - k))) +
           (-1) ^ n * (C (a + n) n * C0 b (n - n)))
    with (rsum (S n) (fun k => (-1) ^ k * (C (a + k) k * C0 b (n - k)))) by reflexivity.
  assert (E : rsum (S n) (fun k => (-1) ^ k * (C (a + k) k * C0 (S b) (S n - k))) =
     rsum (S n) (fun k => (-1) ^ k * (C (a + k) k * C0 b (S n - k)))
   + rsum (S n) (fun k => (-1) ^ k * (C (a + k) k * C0 b (n - k)))).
  { rewrite <- rsum_add. apply rsum_ext. intros k Hk.
    replace (S n - k)%nat with (S (n - k)) by lia. rewrite C0_pascal. ring. }
  rewrite E. lra.
Qed.
Lemma alt_a a b n : alt a b (S n) = alt (S a) b (S n) + alt (S a) b n.
Proof.
  assert (E : alt (S a) b (S n) - alt a b (S n) = - alt (S a) b n).
  { unfold alt. rewrite <- rsum_sub, rsum_S_l, <- rsum_opp.
    rewrite ?Nat.add_0_r, ?C_n_0.
    match goal with |- ?A - ?B + ?X = ?Y => replace (A - B) with 0 by lra; rewrite Rplus_0_l end.
    apply rsum_ext. intros k Hk. cbn [Nat.sub].
    replace (S a + S k)%nat with (S (S (a + k))) by lia.
    replace (a + S k)%nat with (S (a + k)) by lia.
    replace (S a + k)%nat with (S (a + k)) by lia.
    rewrite <- (pascal (S (a + k)) k) by lia. cbn [pow]. ring. }
  lra.
Qed.
Lemma alt_shift a b n : alt (S a) (S b) n = alt a b n.
Proof.
  destruct n as [|n]; [now rewrite !alt_0|]. now rewrite alt_b, <- alt_a.
Qed.
Lemma alt_0b b n : alt 0 (S b) n = C0 b n.
Proof.
  induction n as [|n IH]; [now rewrite alt_0, C0_0|].
  unfold alt in *. rewrite rsum_S_l.
  rewrite (rsum_ext (S n) _ (fun k => (-1) * ((-1) ^ k * (C (0 + k) k * C0 (S b) (n - k))))).
  - rewrite rsum_scal, IH. cbn [pow]. rewrite Nat.sub_0_r, C0_pascal. cbn [Nat.add]. rewrite C_n_0. lra.
  - intros k Hk. cbn [Nat.add Nat.sub pow]. rewrite !C_n_n. ring.
Qed.
Lemma alt_closed a b n : alt a (S (b + a)) n = C0 b n.
Proof.
  induction a as [|a IH].
  - rewrite Nat.add_0_r. apply alt_0b.
  - replace (S (b + S a)) with (S (S (b + a))) by lia. now rewrite alt_shift.
Qed.

Lemma smooth_poly_0 N : smooth_poly N 0 = 0.
Proof.
  unfold smooth_poly. apply rsum_0. intros k _. rewrite pow_i by lia. ring.
Qed.
Lemma smooth_poly_1 N : smooth_poly N 1 = 1.
Proof.
  unfold smooth_poly.
  transitivity (alt N (S (N + N)) N).
  - unfold alt. apply rsum_ext. intros k Hk. unfold smooth_coef, C0.
    rewrite pow1. replace (2 * N + 1)%nat with (S (N + N)) by lia.
    destruct (Nat.leb_spec (N - k) (S (N + N))); [ring|lia].
  - rewrite alt_closed. unfold C0. rewrite Nat.leb_refl. apply C_n_n.
Qed.

Definition clamp (x : R) : R := Rmax 0 (Rmin 1 x).
Lemma smooth_step_clamp N x : zSmoothStep x N = smooth_poly N (clamp x).
Proof.
  unfold clamp. destruct (Rle_dec x 0) as [H|H].
  - rewrite Rmin_right, Rmax_left by lra. rewrite smooth_poly_0.
    unfold zSmoothStep; rs. now rewrite Rleb_true.
  - destruct (Rle_dec 1 x) as [H1|H1].
    + rewrite Rmin_left, Rmax_right by lra. rewrite smooth_poly_1.
      unfold zSmoothStep; rs. now rewrite Rleb_false, Rleb_true.
    + rewrite Rmin_right, Rmax_right by lra. apply smooth_step_mid; lra.
Qed.
Lemma clamp_lip x y : Rabs (clamp x - clamp y) <= Rabs (x - y).
Proof.
  unfold clamp, Rmax, Rmin.
  destruct (Rle_dec 1 x), (Rle_dec 1 y);
  repeat match goal with |- context [Rle_dec ?a ?b] => destruct (Rle_dec a b) end;
  unfold Rabs; repeat match goal with |- context [Rcase_abs ?a] => destruct (Rcase_abs a) end; lra.
Qed.
Lemma clamp_continuous x : continuous clamp x.
Proof.
  intros P [eps HP]. exists eps. intros y Hy. apply HP.
  unfold ball in *; cbn in *. unfold AbsRing_ball, abs, minus, plus, opp in *; cbn in *.
  eapply Rle_lt_trans; [|exact Hy]. apply clamp_lip.
Qed.
Lemma smooth_poly_continuous N x : continuous (smooth_poly N) x.
Proof. apply @ex_derive_continuous. eexists. apply smooth_poly_deriv. Qed.

Lemma smooth_step_continuous N x : continuous (fun y => zSmoothStep y N) x.
Proof.
  apply (continuous_ext (fun y => smooth_poly N (clamp y))).
  - intros y. now rewrite smooth_step_clamp.
  - apply (continuous_comp clamp (smooth_poly N)).
    + apply clamp_continuous.
    + apply smooth_poly_continuous.
Qed.

Lemma smooth_poly_mono N x y : 0 <= x -> x <= y -> y <= 1 -> smooth_poly N x <= smooth_poly N y.
Proof.
  intros H0 H1 H2.
  destruct (MVT_gen (smooth_poly N) x y
     (fun z => rsum (S N) (fun k => (-1) ^ k * (INR (N + k + 1) * smooth_coef N k * z ^ (N + k)))))
    as (c & Hc & E).
  - intros z _. apply smooth_poly_deriv.
  - intros z _. apply continuity_pt_filterlim. apply smooth_poly_continuous.
  - rewrite Rmin_left, Rmax_right in Hc by auto.
    assert (0 <= rsum (S N) (fun k => (-1) ^ k * (INR (N + k + 1) * smooth_coef N k * c ^ (N + k)))) as D.
    { destruct (Req_dec c 0) as [->|N0]; [|destruct (Req_dec c 1) as [->|N1]].
      - destruct N as [|N].
        + cbn. unfold smooth_coef. cbn [Nat.add Nat.sub Nat.mul]. rewrite !C_n_0. lra.
        + rewrite rsum_0; [lra|]. intros k _. rewrite pow_i by lia. ring.
      - (* continuity is not needed: evaluate the closed form as a polynomial identity *)
        assert (Hlim : forall z, 0 < z < 1 ->
          0 <= rsum (S N) (fun k => (-1) ^ k * (INR (N + k + 1) * smooth_coef N k * z ^ (N + k)))).
        { intros z Hz. rewrite <- smooth_dif_mid, smooth_dif_closed by auto.
          apply Rmult_le_pos; [apply Rmult_le_pos|]; try (apply pow_le; lra).
          left; apply smooth_norm_pos. }
        set (g := fun z => rsum (S N) (fun k => (-1) ^ k * (INR (N + k + 1) * smooth_coef N k * z ^ (N + k)))) in *.
        assert (Cg : continuous g 1).
        { apply @ex_derive_continuous. eexists.
          apply (is_derive_rsum (S N) (fun k z => (-1) ^ k * (INR (N + k + 1) * smooth_coef N k * z ^ (N + k)))
            (fun k z => (-1) ^ k * (INR (N + k + 1) * smooth_coef N k * (INR (N + k) * z ^ pred (N + k))))).
          intros k _. auto_derive; auto. ring. }
        destruct (Rle_dec 0 (g 1)) as [|Hn]; auto. exfalso.
        destruct (Cg (fun v => v < 0)) as [d Hd].
        { exists (mkposreal (- g 1) ltac:(lra)). intros v Hv.
          unfold ball in Hv; cbn in Hv. unfold AbsRing_ball, abs, minus, plus, opp in Hv; cbn in Hv.
          apply Rabs_def2 in Hv. lra. }
        set (z := 1 - Rmin (d / 2) (1 / 2)).
        assert (Hd0 : 0 < d) by apply cond_pos.
        assert (0 < Rmin (d / 2) (1 / 2)) by (apply Rmin_pos; lra).
        pose proof (Rmin_l (d / 2) (1 / 2)). pose proof (Rmin_r (d / 2) (1 / 2)).
        assert (g z < 0).
        { apply Hd. unfold ball; cbn. unfold AbsRing_ball, abs, minus, plus, opp; cbn.
          unfold z. apply Rabs_def1; lra. }
        assert (0 <= g z) by (apply Hlim; unfold z; lra). lra.
      - rewrite <- smooth_dif_mid, smooth_dif_closed by lra.
        apply Rmult_le_pos; [apply Rmult_le_pos|]; try (apply pow_le; lra).
        left; apply smooth_norm_pos. }
    nra.
Qed.

Lemma clamp_range x : 0 <= clamp x <= 1.
Proof. unfold clamp. split; [apply Rmax_l|]. apply Rmax_lub; [lra|apply Rmin_l]. Qed.
Lemma clamp_mono x y : x <= y -> clamp x <= clamp y.
Proof. intros H. unfold clamp. apply Rle_max_compat_l, Rle_min_compat_l, H. Qed.

Lemma smooth_step_mono N x y : x <= y -> zSmoothStep x N <= zSmoothStep y N.
Proof.
  intros H. rewrite !smooth_step_clamp. pose proof (clamp_range x). pose proof (clamp_range y).
  apply smooth_poly_mono; try lra. now apply clamp_mono.
Qed.
Lemma smooth_step_range N x : 0 <= zSmoothStep x N <= 1.
Proof.
  rewrite !smooth_step_clamp. pose proof (clamp_range x).
  split; [rewrite <- (smooth_poly_0 N)|rewrite <- (smooth_poly_1 N)]; apply smooth_poly_mono; lra.
Qed.

Lemma zPowN_bound (x : R) n fuel : (2 * N.to_nat (N.log2 n) + 2 <= fuel)%nat ->
  zPowN_loop fuel x n 1 = Some (x ^ N.to_nat n).
Proof.
  intros H. apply zPowN_iter. destruct n as [|p]; [cbn; lia|].
  rewrite N.size_log2 by discriminate. lia.
Qed.
Lemma zLine_defect (x x0 y0 x1 y1 : R) : x0 <> x1 ->
  zLine x x0 y0 x1 y1 = y0 + (y1 - y0) / (x1 - x0) * (x - x0) - 2 * (x1 * y0) / (x1 - x0).
Proof. intros H. unfold zLine; rs. field. lra. Qed.
Lemma zLine_iff (x x0 y0 x1 y1 : R) : x0 <> x1 ->
  (zLine x x0 y0 x1 y1 = y0 + (y1 - y0) / (x1 - x0) * (x - x0) <-> x1 * y0 = 0).
Proof.
  intros H. rewrite zLine_defect by auto.
  assert (E : 2 * (x1 * y0) / (x1 - x0) = (x1 * y0) * (2 / (x1 - x0))) by (field; lra).
  rewrite E. assert (2 / (x1 - x0) <> 0).
  { unfold Rdiv. apply Rmult_integral_contrapositive_currified; [lra|]. apply Rinv_neq_0_compat; lra. }
  split; intros K.
  - assert (x1 * y0 * (2 / (x1 - x0)) = 0) as K' by lra.
    apply Rmult_integral in K'. tauto.
  - rewrite K. lra.
Qed.
Lemma zLine_wrong : exists x0 y0 x1 y1 : R, x0 <> x1 /\ zLine x0 x0 y0 x1 y1 <> y0.
Proof.
  exists 1, 1, 2, 2. split; [lra|]. unfold zLine; rs. lra.
Qed.
Lemma zCombination_out_wrong : exists n i, (0 <= n < i)%Z /\ zCombination n i <> 0.
Proof.
  exists 5%Z, 7%Z. split; [lia|]. rewrite zCombination_out by lia. lra.
Qed.
