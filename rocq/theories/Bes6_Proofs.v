(** The downward recurrence of the modified Bessel functions, order n >= 2. *)
From Coq Require Import Reals Lra Lia ZArith List.
From Verif Require Import Prelude Prelude_Proofs Scalar RealLib Bes_Tables Bes_Model Bes_Spec Bes_Proofs Bes2_Proofs
  Bes3_Proofs Bes4_Proofs Bes5_Proofs.
Import ListNotations.
Open Scope R_scope.

(** (f_{m-d}, f_{m-d+1}) *)
Fixpoint fpair (x : R) (m d : nat) : R * R :=
  match d with
  | O => (1, 0)
  | S d' => let '(a, b) := fpair x m d' in (2 * INR (m - d') / x * a + b, a)
  end.
Definition ff (x : R) (m i : nat) : R := if (m <? i)%nat then 0 else fst (fpair x m (m - i)).
Lemma fpair_snd x m d : (d <= m)%nat -> snd (fpair x m d) = ff x m (S (m - d)).
Proof.
  intros Hd. unfold ff. destruct d as [|d].
  - rewrite Nat.sub_0_r. destruct (Nat.ltb_spec m (S m)); [reflexivity|lia].
  - cbn [fpair]. destruct (fpair x m d) as [a b] eqn:E. cbn [snd].
    destruct (Nat.ltb_spec m (S (m - S d))); [lia|]. replace (m - S (m - S d))%nat with d by lia. now rewrite E.
Qed.
Lemma ff_top x m : ff x m m = 1.
Proof. unfold ff. destruct (Nat.ltb_spec m m); [lia|]. now rewrite Nat.sub_diag. Qed.
Lemma ff_over x m : ff x m (S m) = 0.
Proof. unfold ff. destruct (Nat.ltb_spec m (S m)); [auto|lia]. Qed.
Lemma ff_rec x m i : (i < m)%nat -> ff x m i = 2 * INR (S i) / x * ff x m (S i) + ff x m (S (S i)).
Proof.
  intros Hi. unfold ff at 1. destruct (Nat.ltb_spec m i); [lia|].
  replace (m - i)%nat with (S (m - S i)) by lia. cbn [fpair].
  pose proof (fpair_snd x m (m - S i) ltac:(lia)) as E2.
  destruct (fpair x m (m - S i)) as [a b] eqn:E. cbn [fst snd] in *.
  replace (m - (m - S i))%nat with (S i) in * by lia. rewrite E2.
  f_equal. f_equal. unfold ff. destruct (Nat.ltb_spec m (S i)); [lia|]. now rewrite E.
Qed.
Lemma ff_pos x m : 0 < x -> forall d, (d <= m)%nat -> 0 < ff x m (m - d) /\ 0 <= ff x m (S (m - d)).
Proof.
  intros Hx. induction d; intros Hd.
  - rewrite Nat.sub_0_r, ff_top, ff_over. lra.
  - destruct IHd as [A B]; [lia|].
    rewrite (ff_rec x m (m - S d)) by lia. replace (S (m - S d)) with (m - d)%nat by lia.
    assert (0 < INR (m - d)) by (apply lt_0_INR; lia).
    split; [|lra]. assert (0 < 2 * INR (m - d) / x) by (apply Rdiv_lt_0_compat; lra).
    assert (0 < 2 * INR (m - d) / x * ff x m (m - d)) by (apply Rmult_lt_0_compat; auto). lra.
Qed.
Lemma ff_pos1 x m i : 0 < x -> (i <= m)%nat -> 0 < ff x m i.
Proof. intros Hx Hi. destruct (ff_pos x m Hx (m - i)) as [A _]; [lia|]. now replace (m - (m - i))%nat with i in A by lia. Qed.

Lemma I_down_ff x m n i ret : (i <= m)%nat ->
  I_down i n (2 / x) (ff x m (S i)) (ff x m i) ret
  = (if ((1 <=? n) && (n <=? i))%nat then ff x m n else ret, ff x m 0).
Proof.
  revert ret. induction i; intros ret Hi.
  - cbn [I_down]. f_equal. destruct (Nat.leb_spec 1 n), (Nat.leb_spec n 0); try reflexivity. lia.
  - cbn [I_down]. rewrite sZ_R. cbn [sadd smul RealS].
    replace (INR (S i) * (2 / x) * ff x m (S i) + ff x m (S (S i))) with (ff x m i)
      by (rewrite (ff_rec x m i) by lia; unfold Rdiv; ring).
    rewrite IHi by lia. f_equal.
    destruct (Nat.eqb_spec (S i) n) as [<-|N].
    + destruct (Nat.leb_spec 1 (S i)), (Nat.leb_spec (S i) i), (Nat.leb_spec (S i) (S i)); try lia; reflexivity.
    + destruct (Nat.leb_spec 1 n), (Nat.leb_spec n i), (Nat.leb_spec n (S i)); try lia; reflexivity.
Qed.

Section Err.
Variables (x : R) (m : nat) (I : nat -> R).
Hypothesis Hx : 0 < x.
Hypothesis Ipos : forall k, 0 < I k.
Hypothesis Irec : forall k, I k - I (S (S k)) = 2 * INR (S k) / x * I (S k).
Local Notation f := (ff x m).

Lemma qpos k : 0 < 2 * INR (S k) / x.
Proof. apply Rdiv_lt_0_compat; [|auto]. pose proof (lt_0_INR (S k) ltac:(lia)). lra. Qed.

Lemma cas d : (d <= m)%nat -> Rabs (f (m - d) * I (S (m - d)) - f (S (m - d)) * I (m - d)) = I (S m).
Proof.
  induction d; intros Hd.
  - rewrite Nat.sub_0_r, ff_top, ff_over. rewrite Rmult_1_l, Rmult_0_l, Rminus_0_r. apply Rabs_right. left. apply Ipos.
  - rewrite <- IHd by lia. rewrite (ff_rec x m (m - S d)) by lia.
    pose proof (Irec (m - S d)) as R. replace (S (m - S d)) with (m - d)%nat in * by lia.
    rewrite <- Rabs_Ropp. f_equal. replace (I (m - S d)) with (2 * INR (m - d) / x * I (m - d) + I (S (m - d))) by lra. ring.
Qed.

Fixpoint P (i : nat) : R :=
  match i with
  | O => 0
  | S O => 1
  | S (S k as i') => 2 * INR i' / x * P i' + P k
  end.
Lemma P_SS k : P (S (S k)) = 2 * INR (S k) / x * P (S k) + P k.
Proof. reflexivity. Qed.
Lemma P_pos k : 0 <= P k /\ 0 < P (S k).
Proof.
  induction k; [cbn; lra|]. destruct IHk as [A B]. rewrite P_SS. split; [lra|].
  pose proof (qpos k). assert (0 < 2 * INR (S k) / x * P (S k)) by (apply Rmult_lt_0_compat; auto). lra.
Qed.

Lemma e_bound k : (k <= m)%nat ->
  Rabs (f k * I 0 - f 0 * I k) <= I (S m) * P k /\ Rabs (f (S k) * I 0 - f 0 * I (S k)) <= I (S m) * P (S k).
Proof.
  induction k; intros Hk.
  - split; [replace (f 0 * I 0 - f 0 * I 0) with 0 by ring; rewrite Rabs_R0; cbn; lra|].
    pose proof (cas m ltac:(lia)) as C. rewrite Nat.sub_diag in C. cbn [P].
    rewrite Rmult_1_r, <- C, <- (Rabs_Ropp (f 1 * I 0 - _)). right. f_equal. ring.
  - destruct IHk as [A B]; [lia|]. split; [exact B|].
    rewrite P_SS. pose proof (ff_rec x m k ltac:(lia)) as R1. pose proof (Irec k) as R2.
    replace (f (S (S k)) * I 0 - f 0 * I (S (S k)))
      with ((f k * I 0 - f 0 * I k) - 2 * INR (S k) / x * (f (S k) * I 0 - f 0 * I (S k))).
    2: { replace (f (S (S k))) with (f k - 2 * INR (S k) / x * f (S k)) by lra.
         replace (I (S (S k))) with (I k - 2 * INR (S k) / x * I (S k)) by lra. ring. }
    eapply Rle_trans; [apply Rabs_triang|]. rewrite Rabs_Ropp, Rabs_mult, (Rabs_right (2 * INR (S k) / x)) by (left; apply qpos).
    pose proof (qpos k). apply Rmult_le_compat_l with (r := 2 * INR (S k) / x) in B; [|lra]. lra.
Qed.
Lemma f0_split k : (k <= m)%nat -> f 0 = P (S k) * f k + P k * f (S k).
Proof.
  induction k; intros Hk; [cbn; ring|].
  rewrite IHk by lia. rewrite P_SS, (ff_rec x m k) by lia. ring.
Qed.

(** product of x^2/(4 i (i+1)) for i = n, ..., n+c-1 *)
Fixpoint rho (n c : nat) : R :=
  match c with O => 1 | S c' => x * x / (4 * INR n * INR (S n)) * rho (S n) c' end.
Lemma rho_pos c : forall n, (1 <= n)%nat -> 0 < rho n c.
Proof.
  induction c; intros n Hn; cbn [rho]; [lra|].
  apply Rmult_lt_0_compat; [|apply IHc; lia].
  assert (0 < INR n) by (apply lt_0_INR; lia). assert (0 < INR (S n)) by (apply lt_0_INR; lia).
  apply Rdiv_lt_0_compat; [nra|]. apply Rmult_lt_0_compat; [lra|auto].
Qed.

(** I_{n+c} / f_{n-1} against I_n *)
Lemma rho_bound c : forall n, (1 <= n)%nat -> (n + c = S m)%nat -> I (S m) <= rho n c * (f (n - 1) * I n).
Proof.
  induction c; intros n Hn E.
  - cbn [rho]. replace (n - 1)%nat with m by lia. rewrite ff_top. replace n with (S m) by lia. lra.
  - cbn [rho]. pose proof (IHc (S n) ltac:(lia) ltac:(lia)) as B.
    replace (S n - 1)%nat with n in B by lia.
    pose proof (rho_pos c (S n) ltac:(lia)) as Rp.
    assert (Fn : 2 * INR n / x * f n <= f (n - 1)).
    { rewrite (ff_rec x m (n - 1)) by lia. replace (S (n - 1)) with n by lia.
      assert (0 <= f (S n)).
      { destruct (Nat.eq_dec n m) as [->|]; [rewrite ff_over; lra|]. left. apply ff_pos1; [auto|lia]. }
      lra. }
    assert (In : 2 * INR (S n) / x * I (S n) <= I n) by (pose proof (Irec n); pose proof (Ipos (S (S n))); lra).
    assert (N1 : 0 < INR n) by (apply lt_0_INR; lia). assert (N2 : 0 < INR (S n)) by (apply lt_0_INR; lia).
    pose proof (Ipos (S n)) as I1. pose proof (ff_pos1 x m n Hx ltac:(lia)) as F1.
    assert (Q1 : 0 < 2 * INR n / x) by (apply Rdiv_lt_0_compat; lra).
    assert (Q2 : 0 < 2 * INR (S n) / x) by (apply Rdiv_lt_0_compat; lra).
    assert (Pr : (2 * INR n / x * f n) * (2 * INR (S n) / x * I (S n)) <= f (n - 1) * I n).
    { apply Rmult_le_compat; auto; apply Rmult_le_pos; lra. }
    eapply Rle_trans; [exact B|].
    replace (x * x / (4 * INR n * INR (S n)) * rho (S n) c * (f (n - 1) * I n))
      with (rho (S n) c * (x * x / (4 * INR n * INR (S n)) * (f (n - 1) * I n))) by ring.
    apply Rmult_le_compat_l; [lra|].
    apply Rle_trans with (x * x / (4 * INR n * INR (S n)) * ((2 * INR n / x * f n) * (2 * INR (S n) / x * I (S n)))).
    + right. field. repeat split; lra.
    + apply Rmult_le_compat_l; [|auto]. left. apply Rdiv_lt_0_compat; [nra|]. apply Rmult_lt_0_compat; [lra|auto].
Qed.

Lemma ratio_err n : (1 <= n <= m)%nat -> Rabs (f n * (I 0 / f 0) - I n) <= rho n (S m - n) * I n.
Proof.
  intros Hn. destruct (e_bound n ltac:(lia)) as [E _].
  pose proof (f0_split (n - 1) ltac:(lia)) as F. replace (S (n - 1)) with n in F by lia.
  pose proof (rho_bound (S m - n) n ltac:(lia) ltac:(lia)) as B.
  pose proof (ff_pos1 x m 0 Hx ltac:(lia)) as F0. pose proof (ff_pos1 x m (n - 1) Hx ltac:(lia)) as F1.
  pose proof (ff_pos1 x m n Hx ltac:(lia)) as F2.
  pose proof (P_pos (n - 1)) as [P0 P1]. replace (S (n - 1)) with n in P1 by lia.
  replace (f n * (I 0 / f 0) - I n) with ((f n * I 0 - f 0 * I n) * / f 0) by (field; lra).
  rewrite Rabs_mult, (Rabs_right (/ f 0)) by (left; apply Rinv_0_lt_compat; auto).
  apply Rmult_le_reg_r with (f 0); [auto|]. rewrite Rmult_assoc, Rinv_l, Rmult_1_r by lra.
  eapply Rle_trans; [exact E|].
  apply Rle_trans with (rho n (S m - n) * (f (n - 1) * I n) * P n); [apply Rmult_le_compat_r; lra|].
  assert (0 <= P (n - 1) * f n) by (apply Rmult_le_pos; lra).
  assert (L : P n * f (n - 1) <= f 0) by lra.
  pose proof (rho_pos (S m - n) n ltac:(lia)). pose proof (Ipos n).
  apply Rmult_le_compat_l with (r := rho n (S m - n) * I n) in L; [lra|]. apply Rmult_le_pos; lra.
Qed.
End Err.

(** comparison of the products *)
Lemma rho_x n c : forall x X, 0 <= x <= X -> (1 <= n)%nat -> 0 <= rho x n c <= rho X n c.
Proof.
  revert n. induction c; intros n x X Hx Hn; cbn [rho]; [lra|].
  destruct (IHc (S n) x X Hx ltac:(lia)) as [A B].
  assert (N1 : 0 < INR n) by (apply lt_0_INR; lia). assert (N2 : 0 < INR (S n)) by (apply lt_0_INR; lia).
  assert (D : 0 < / (4 * INR n * INR (S n))) by (apply Rinv_0_lt_compat; apply Rmult_lt_0_compat; [lra|auto]).
  unfold Rdiv. assert (0 <= x * x <= X * X) by nra.
  assert (0 <= x * x * / (4 * INR n * INR (S n)) <= X * X * / (4 * INR n * INR (S n))).
  { split; [apply Rmult_le_pos; lra|apply Rmult_le_compat_r; lra]. }
  split; [apply Rmult_le_pos; lra|]. apply Rmult_le_compat; lra.
Qed.
Lemma rho_shift x c : forall n n', (1 <= n <= n')%nat -> 0 <= rho x n' c <= rho x n c.
Proof.
  induction c; intros n n' Hn; cbn [rho]; [lra|].
  destruct (IHc (S n) (S n') ltac:(lia)) as [A B].
  assert (N1 : 0 < INR n) by (apply lt_0_INR; lia). assert (N2 : 0 < INR (S n)) by (apply lt_0_INR; lia).
  assert (L1 : INR n <= INR n') by (apply le_INR; lia). assert (L2 : INR (S n) <= INR (S n')) by (apply le_INR; lia).
  assert (G : / (4 * INR n' * INR (S n')) <= / (4 * INR n * INR (S n))).
  { apply Rinv_le_contravar; [apply Rmult_lt_0_compat; [lra|auto]|]. apply Rmult_le_compat; lra. }
  assert (D : 0 < / (4 * INR n' * INR (S n'))) by (apply Rinv_0_lt_compat; apply Rmult_lt_0_compat; lra).
  unfold Rdiv. assert (0 <= x * x) by nra.
  assert (0 <= x * x * / (4 * INR n' * INR (S n')) <= x * x * / (4 * INR n * INR (S n))).
  { split; [apply Rmult_le_pos; lra|apply Rmult_le_compat_l; lra]. }
  split; [apply Rmult_le_pos; lra|]. apply Rmult_le_compat; lra.
Qed.
Lemma rho_app x a : forall n b, rho x n (a + b) = rho x n a * rho x (n + a) b.
Proof.
  induction a; intros n b; cbn [Nat.add rho]; [rewrite Nat.add_0_r; ring|].
  rewrite IHa. replace (S n + a)%nat with (n + S a)%nat by lia. ring.
Qed.
Lemma rho_le1 x c : forall n, (1 <= n)%nat -> x * x <= 4 * INR n * INR (S n) -> 0 <= rho x n c <= 1.
Proof.
  induction c; intros n Hn Q; cbn [rho]; [lra|].
  assert (N1 : 0 < INR n) by (apply lt_0_INR; lia). assert (N2 : 0 < INR (S n)) by (apply lt_0_INR; lia).
  assert (L1 : INR (S n) = INR n + 1) by apply S_INR. assert (L2 : INR (S (S n)) = INR (S n) + 1) by apply S_INR.
  destruct (IHc (S n) ltac:(lia)) as [A B]; [nra|].
  assert (D : 0 < 4 * INR n * INR (S n)) by (apply Rmult_lt_0_compat; lra).
  assert (0 <= x * x / (4 * INR n * INR (S n)) <= 1).
  { split; [apply Rmult_le_pos; [nra|left; apply Rinv_0_lt_compat; auto]|].
    apply Rmult_le_reg_r with (4 * INR n * INR (S n)); auto. unfold Rdiv. rewrite Rmult_assoc, Rinv_l by lra. lra. }
  nra.
Qed.
(** 19 factors from i = 2 on are the worst case *)
Lemma rho_worst x X n c : 0 <= x <= X -> X * X <= 1848 -> (2 <= n)%nat -> (19 <= c)%nat -> 0 <= rho x n c <= rho X 2 19.
Proof.
  intros Hx HX Hn Hc.
  destruct (rho_x n c x X Hx ltac:(lia)) as [A B]. split; [auto|].
  eapply Rle_trans; [exact B|].
  replace c with (19 + (c - 19))%nat by lia. rewrite rho_app.
  destruct (rho_shift X 19 2 n ltac:(lia)) as [C D].
  destruct (rho_le1 X (c - 19) (n + 19) ltac:(lia)) as [E F].
  - assert (INR 21 <= INR (n + 19)) by (apply le_INR; lia). assert (INR 22 <= INR (S (n + 19))) by (apply le_INR; lia).
    assert (INR 21 = 21) by (rewrite <- IZR_nat; reflexivity). assert (INR 22 = 22) by (rewrite <- IZR_nat; reflexivity).
    assert (21 * 22 <= INR (n + 19) * INR (S (n + 19))) by (apply Rmult_le_compat; lra). lra.
  - nra.
Qed.
Lemma sqrt40 n : (2 <= n)%nat -> (8 <= Nat.sqrt (40 * n))%nat.
Proof. intros Hn. apply Nat.sqrt_le_square. lia. Qed.
Lemma start_ge n : (2 <= n)%nat -> (n + 18 <= I_start n)%nat.
Proof. intros Hn. unfold I_start. pose proof (sqrt40 n Hn). lia. Qed.

Lemma rho_num7 : rho 7 2 19 <= 1 / 10 ^ 16.
Proof. cbn [rho]. rewrite <- !IZR_nat. cbn [Z.of_nat Pos.of_succ_nat Pos.succ]. lra. Qed.
Lemma rho_num12 : rho (25 / 2) 2 19 <= 1 / 10 ^ 7.
Proof. cbn [rho]. rewrite <- !IZR_nat. cbn [Z.of_nat Pos.of_succ_nat Pos.succ]. lra. Qed.

(** * zBesselI for n >= 2 *)
Lemma I_rec x a b c k : x <> 0 -> is_I k x a -> is_I (S k) x b -> is_I (S (S k)) x c -> a - c = 2 * INR (S k) / x * b.
Proof. intros Hx A B C. pose proof (b_rec 1 k x a b c Hx A B C). lra. Qed.
Lemma J_rec x a b c k : x <> 0 -> is_J k x a -> is_J (S k) x b -> is_J (S (S k)) x c -> a + c = 2 * INR (S k) / x * b.
Proof. intros Hx A B C. pose proof (b_rec (-1) k x a b c Hx A B C). lra. Qed.

Lemma In_pos_err fexp ztol n x y l0 l d : (2 <= n)%nat -> 0 < x -> ztol <= x ->
  besI0 fexp x = Ok y -> is_I 0 x l0 -> is_I n x l -> Rabs (y - l0) <= d * l0 -> 0 <= d ->
  exists r, besIn fexp ztol n x = Ok r /\
    Rabs (r - l) <= (rho x n (S (I_start n) - n) * (1 + d) + d) * l.
Proof.
  intros Hn Hx Hz E0 H0 H Hy Hd.
  set (V := fun k => proj1_sig (bterm_cv 1 k x ltac:(rewrite Rabs_right; lra))).
  assert (HV : forall k, is_I k x (V k)) by (intros k; exact (proj2_sig (bterm_cv 1 k x _))).
  assert (V0 : V 0%nat = l0) by (eapply isum_unique; [apply HV|exact H0]).
  assert (Vn : V n = l) by (eapply isum_unique; [apply HV|exact H]).
  assert (Vpos : forall k, 0 < V k).
  { intros k. pose proof (head_le _ (V k) 0 (HV k) (fun j => bterm_nonneg k x j ltac:(lra))) as G. cbn [sum_f_R0] in G.
    pose proof (bterm_pos k x 0 Hx). lra. }
  assert (Vrec : forall k, V k - V (S (S k)) = 2 * INR (S k) / x * V (S k)).
  { intros k. apply (I_rec x _ _ _ k); [lra|apply HV|apply HV|apply HV]. }
  set (m := I_start n). pose proof (start_ge n Hn) as Hm. fold m in Hm.
  unfold besIn. destruct (Nat.eqb_spec n 0); [lia|]. destruct (Nat.eqb_spec n 1); [lia|].
  cbv zeta. cbn [sabs RealS]. rewrite Rabs_right by lra. change (slt (Scalar := RealS)) with Rltb.
  destruct (Rltb_spec x ztol); [lra|]. fold m. cbn [sofZ sdiv s0 s1 smul RealS].
  pose proof (I_down_ff x m n m 0 ltac:(lia)) as D. rewrite ff_top, ff_over in D. rewrite D. clear D.
  destruct (Nat.leb_spec 1 n); [|lia]. destruct (Nat.leb_spec n m); [|lia]. cbn [andb]. rewrite E0. cbn [bind].
  destruct (Rltb_spec x 0); [lra|]. cbn [andb]. eexists. split; [reflexivity|].
  pose proof (ratio_err x m V Hx Vpos Vrec n ltac:(lia)) as R. rewrite V0, Vn in R.
  set (p := rho x n (S m - n)) in *.
  pose proof (ff_pos1 x m 0 Hx ltac:(lia)) as F0. pose proof (ff_pos1 x m n Hx ltac:(lia)) as F2.
  pose proof (Vpos 0%nat) as L0. rewrite V0 in L0. pose proof (Vpos n) as Ln. rewrite Vn in Ln.
  replace (ff x m n * (y / ff x m 0) - l)
    with ((ff x m n * (l0 / ff x m 0) - l) + ff x m n / ff x m 0 * (y - l0)) by (field; lra).
  eapply Rle_trans; [apply Rabs_triang|].
  assert (Q : 0 < ff x m n / ff x m 0) by (apply Rdiv_lt_0_compat; auto).
  rewrite (Rabs_mult (ff x m n / ff x m 0)), (Rabs_right (ff x m n / ff x m 0)) by lra.
  assert (U : ff x m n * (l0 / ff x m 0) <= (1 + p) * l).
  { pose proof (Rle_abs (ff x m n * (l0 / ff x m 0) - l)). lra. }
  assert (W : ff x m n / ff x m 0 * Rabs (y - l0) <= d * ((1 + p) * l)).
  { apply Rle_trans with (ff x m n / ff x m 0 * (d * l0)); [apply Rmult_le_compat_l; lra|].
    replace (ff x m n / ff x m 0 * (d * l0)) with (d * (ff x m n * (l0 / ff x m 0))) by (field; lra).
    apply Rmult_le_compat_l; auto. }
  lra.
Qed.

Theorem In_err fexp ztol n x l X b : (2 <= n)%nat -> 0 < ztol -> ztol <= Rabs x -> Rabs x < 25 / 2 -> Rabs x <= X -> X * X <= 1848 ->
  rho X 2 19 <= b -> is_I n x l ->
  exists r, besIn fexp ztol n x = Ok r /\ Rabs (r - l) <= (2 * b + 1 / 10 ^ 16) * Rabs l.
Proof.
  intros Hn Hz Zx Hx HX X2 Hb H.
  assert (Px : 0 < Rabs x) by lra.
  destruct (I_exists 0 (Rabs x)) as [l0 H0]. destruct (I_exists n (Rabs x)) as [la Ha].
  destruct (I0_acc fexp (Rabs x) l0) as [y [Ey Hy]]; [rewrite Rabs_Rabsolu; auto|auto|].
  destruct (In_pos_err fexp ztol n (Rabs x) y l0 la (1 / 10 ^ 16) Hn Px Zx Ey H0 Ha Hy ltac:(lra)) as [r [Er Hr]].
  assert (Lp : 0 <= la).
  { pose proof (head_le _ la 0 Ha (fun j => bterm_nonneg n (Rabs x) j ltac:(lra))) as G. cbn [sum_f_R0] in G.
    pose proof (bterm_nonneg n (Rabs x) 0 ltac:(lra)). lra. }
  pose proof (start_ge n Hn) as Hm.
  destruct (rho_worst (Rabs x) X n (S (I_start n) - n) ltac:(lra) X2 Hn ltac:(lia)) as [R0 R1].
  set (p := rho (Rabs x) n (S (I_start n) - n)) in *.
  assert (B : Rabs (r - la) <= (2 * b + 1 / 10 ^ 16) * la).
  { eapply Rle_trans; [exact Hr|]. apply Rmult_le_compat_r; [auto|]. nra. }
  unfold Rabs in Er, Ha. destruct (Rcase_abs x) as [N|N].
  - exists ((-1) ^ n * r). pose proof (In_parity fexp ztol n (- x) r Hz Er) as E2. rewrite Ropp_involutive in E2.
    split; [exact E2|].
    pose proof (is_neg _ _ _ _ Ha) as G. rewrite Ropp_involutive in G.
    rewrite (isum_unique _ _ _ H G).
    replace ((-1) ^ n * r - (-1) ^ n * la) with ((-1) ^ n * (r - la)) by ring.
    rewrite !Rabs_mult, pow_1_abs, !Rmult_1_l, (Rabs_right la) by lra. exact B.
  - exists r. split; [exact Er|]. rewrite (isum_unique _ _ _ H Ha), (Rabs_right la) by lra. exact B.
Qed.

(** * zBesselJ for n < |x| < 12.5 *)
Lemma Jn_pos_err fsin fcos ztol n x l : (2 <= n)%nat -> ztol <= x -> INR n < x -> x < 25 / 2 -> is_J n x l ->
  exists r, besJn fsin fcos ztol n x = Ok r /\ Rabs (r - l) <= 3 ^ n / 10 ^ 17.
Proof.
  intros Hn Hz L Hx H.
  assert (Px : 0 < x) by (pose proof (pos_INR n); lra).
  set (V := fun k => proj1_sig (bterm_cv (-1) k x ltac:(rewrite Rabs_left; lra))).
  assert (HV : forall k, is_J k x (V k)) by (intros k; exact (proj2_sig (bterm_cv (-1) k x _))).
  assert (Vn : V n = l) by (eapply isum_unique; [apply HV|exact H]).
  assert (Vrec : forall k, V k + V (S (S k)) = 2 * INR (S k) / x * V (S k)).
  { intros k. apply (J_rec x _ _ _ k); [lra|apply HV|apply HV|apply HV]. }
  destruct (J0_acc fcos x (V 0%nat)) as [y0 [E0 B0]]; [rewrite Rabs_right; lra|apply HV|].
  destruct (J1_acc fsin x (V 1%nat)) as [y1 [E1 B1]]; [rewrite Rabs_right; lra|apply HV|].
  exists (J_up (n - 1) 1 (2 / x) y0 y1). split.
  - replace n with (S (n - 1)) at 1 by lia. apply Jn_up; auto. now replace (S (n - 1)) with n by lia.
  - rewrite <- Vn. replace n with (1 + (n - 1))%nat at 2 by lia.
    eapply Rle_trans; [apply (up_err (n - 1) 1 x y0 y1 V (1 / 10 ^ 17)); auto; try lra|].
    + intros k Hk. apply Rmult_le_reg_r with x; auto. unfold Rdiv. rewrite Rmult_assoc, Rinv_l, Rmult_1_r by lra.
      assert (INR k <= INR n) by (apply le_INR; lia). lra.
    + replace n with (S (n - 1)) at 2 by lia. cbn [pow]. lra.
Qed.
Theorem Jn_err fsin fcos ztol n x l : (2 <= n)%nat -> 0 < ztol -> ztol <= Rabs x -> INR n < Rabs x -> Rabs x < 25 / 2 -> is_J n x l ->
  exists r, besJn fsin fcos ztol n x = Ok r /\ Rabs (r - l) <= 3 ^ n / 10 ^ 17.
Proof.
  intros Hn Hz Zx L Hx H. destruct (J_exists n (Rabs x)) as [la Ha].
  destruct (Jn_pos_err fsin fcos ztol n (Rabs x) la Hn Zx L Hx Ha) as [r [Er B]].
  unfold Rabs in Er, Ha. destruct (Rcase_abs x) as [N|N].
  - exists ((-1) ^ n * r). pose proof (Jn_parity fsin fcos ztol n (- x) r Hz Er) as E2. rewrite Ropp_involutive in E2.
    split; [exact E2|].
    pose proof (is_neg _ _ _ _ Ha) as G. rewrite Ropp_involutive in G.
    rewrite (isum_unique _ _ _ H G).
    replace ((-1) ^ n * r - (-1) ^ n * la) with ((-1) ^ n * (r - la)) by ring.
    rewrite !Rabs_mult, pow_1_abs, !Rmult_1_l. exact B.
  - exists r. split; [exact Er|]. rewrite (isum_unique _ _ _ H Ha). exact B.
Qed.
