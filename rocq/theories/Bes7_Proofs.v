(** Wrong values of zBesselJ for |x| <= n and of zBesselI for large x. *)
From Coq Require Import Reals Lra Lia ZArith List.
From Verif Require Import Prelude Prelude_Proofs Scalar RealLib Bes_Tables Bes_Model Bes_Spec Bes_Proofs Bes2_Proofs
  Bes3_Proofs Bes4_Proofs Bes5_Proofs Bes6_Proofs.
Import ListNotations.
Open Scope R_scope.

(** * partial sums of the series at even integers, in integers *)
Definition hz (l : list Z) (z acc : Z) : Z := fold_left (fun r a => (r * z + a)%Z) l acc.
Lemma hz_ok l z : forall acc, IZR (hz l z acc) = heval (map IZR l) (IZR z) (IZR acc).
Proof.
  induction l as [|a l IH]; intros acc; [reflexivity|].
  change (hz (a :: l) z acc) with (hz l z (acc * z + a)). rewrite IH. cbn [map heval fold_left].
  now rewrite plus_IZR, mult_IZR.
Qed.
Lemma bsum_Z s n h M : (s * s)%Z = 1%Z ->
  sum_f_R0 (bterm (IZR s) n (2 * IZR h)) M * IZR (qd n M) = IZR (h ^ Z.of_nat n * hz (ql n s M) (h * h) 0).
Proof.
  intros Hs. rewrite bsum_csum. replace (2 * IZR h / 2) with (IZR h) by lra.
  rewrite <- (ql_ok n s M) by auto.
  rewrite mult_IZR, <- pow_IZR, hz_ok, mult_IZR.
  replace (IZR h ^ 2) with (IZR h * IZR h) by ring. field.
  apply not_0_IZR. unfold qd. pose proof (zfact_pos M). pose proof (zfact_pos (M + n)). nia.
Qed.
Lemma bterm_Z n h k : bterm 1 n (2 * IZR h) k * IZR (zfact k * zfact (k + n)) = IZR (h ^ Z.of_nat (2 * k + n)).
Proof.
  unfold bterm. replace (2 * IZR h / 2) with (IZR h) by lra. rewrite pow1, mult_IZR, !zfact_fact, <- pow_IZR.
  field. split; apply INR_fact_neq_0.
Qed.
Lemma qd_pos n M : 0 < IZR (qd n M).
Proof. apply IZR_lt. unfold qd. pose proof (zfact_pos M). pose proof (zfact_pos (M + n)). nia. Qed.
Lemma bsum_ge s n h M a b : (s * s)%Z = 1%Z -> (0 < b)%Z ->
  (a * qd n M <=? b * (h ^ Z.of_nat n * hz (ql n s M) (h * h) 0))%Z = true ->
  IZR a / IZR b <= sum_f_R0 (bterm (IZR s) n (2 * IZR h)) M.
Proof.
  intros Hs Hb H. apply Z.leb_le, IZR_le in H. rewrite (mult_IZR a), (mult_IZR b), <- (bsum_Z s) in H by auto.
  apply IZR_lt in Hb. pose proof (qd_pos n M) as Q.
  apply Rmult_le_reg_r with (IZR b); auto. unfold Rdiv. rewrite Rmult_assoc, Rinv_l, Rmult_1_r by lra.
  apply Rmult_le_reg_r with (IZR (qd n M)); auto. lra.
Qed.
Lemma bsum_le s n h M a b : (s * s)%Z = 1%Z -> (0 < b)%Z ->
  (b * (h ^ Z.of_nat n * hz (ql n s M) (h * h) 0) <=? a * qd n M)%Z = true ->
  sum_f_R0 (bterm (IZR s) n (2 * IZR h)) M <= IZR a / IZR b.
Proof.
  intros Hs Hb H. apply Z.leb_le, IZR_le in H. rewrite (mult_IZR a), (mult_IZR b), <- (bsum_Z s) in H by auto.
  apply IZR_lt in Hb. pose proof (qd_pos n M) as Q.
  apply Rmult_le_reg_r with (IZR b); auto. unfold Rdiv. rewrite Rmult_assoc, Rinv_l, Rmult_1_r by lra.
  apply Rmult_le_reg_r with (IZR (qd n M)); auto. lra.
Qed.
Lemma bterm_le n h k a b : (0 < b)%Z ->
  (b * h ^ Z.of_nat (2 * k + n) <=? a * (zfact k * zfact (k + n)))%Z = true ->
  bterm 1 n (2 * IZR h) k <= IZR a / IZR b.
Proof.
  intros Hb H. apply Z.leb_le, IZR_le in H. rewrite (mult_IZR a), (mult_IZR b), <- bterm_Z in H.
  apply IZR_lt in Hb. assert (Q : 0 < IZR (zfact k * zfact (k + n))).
  { apply IZR_lt. pose proof (zfact_pos k). pose proof (zfact_pos (k + n)). nia. }
  apply Rmult_le_reg_r with (IZR b); auto. unfold Rdiv. rewrite Rmult_assoc, Rinv_l, Rmult_1_r by lra.
  apply Rmult_le_reg_r with (IZR (zfact k * zfact (k + n))); auto. lra.
Qed.

(** * zBesselJ(2,2) *)
Fixpoint zJ (i n : nat) (j0 j1 s ret : Z) (sw : bool) : Z * Z * Z :=
  match i with
  | O => (ret, s, j1)
  | S i' => let j := (Z.of_nat i * j1 - j0)%Z in
            zJ i' n j1 j (if sw then s + j else s)%Z (if (i =? n)%nat then j1 else ret) (negb sw)
  end.
Lemma zJ_ok i n : forall j0 j1 s ret sw,
  J_down i n 1 (IZR j0) (IZR j1) (IZR s) (IZR ret) sw
  = (let '(a, b, c) := zJ i n j0 j1 s ret sw in (IZR a, IZR b, IZR c)).
Proof.
  induction i as [|i IH]; intros; [reflexivity|].
  cbn [J_down zJ]. rewrite sZ_R. cbn [sadd ssub smul RealS].
  replace (INR (S i) * 1 * IZR j1 - IZR j0) with (IZR (Z.of_nat (S i) * j1 - j0))
    by (rewrite minus_IZR, mult_IZR, INR_IZR_INZ; ring).
  rewrite <- IH. f_equal; [destruct sw; [now rewrite plus_IZR|reflexivity]|].
  now destruct (S i =? n)%nat.
Qed.

Lemma J22_wrong fsin fcos ztol l : ztol <= 2 -> is_J 2 2 l ->
  exists r, besJn fsin fcos ztol 2 2 = Ok r /\ 1 / 10 ^ 7 <= r - l.
Proof.
  intros Hz H.
  assert (U : l <= 35283403 / 100000000).
  { pose proof (b_tail (-1) 2 2 l 9 1 ltac:(rewrite Rabs_left; lra) ltac:(lra)) as T.
    assert (2 * 1 <= INR 11 ^ 2) as P by (rewrite <- IZR_nat; cbn [Z.of_nat Pos.of_succ_nat Pos.succ]; lra).
    specialize (T P H). rewrite (Rabs_right 2) in T by lra.
    pose proof (bsum_le (-1) 2 1 9 35283402863 100000000000 eq_refl eq_refl ltac:(vm_compute; reflexivity)) as S.
    pose proof (bterm_le 2 1 10 1 1000000000000 eq_refl ltac:(vm_compute; reflexivity)) as B.
    replace (2 * 1) with 2 in S, B by lra.
    pose proof (Rle_abs (l - sum_f_R0 (bterm (-1) 2 2) 9)). lra. }
  unfold besJn. cbn [Nat.eqb]. cbv zeta. cbn [sabs RealS]. rewrite Rabs_right by lra.
  change (slt (Scalar := RealS)) with Rltb. destruct (Rltb_spec 2 ztol); [lra|].
  rewrite sZ_R. change (INR 2) with 2%R. destruct (Rltb_spec 2 2); [lra|].
  cbn [sofZ sdiv s0 s1 RealS]. replace (2 / 2) with 1 by lra.
  rewrite (zJ_ok (J_start 2) 2 0 1 0 0 false).
  destruct (zJ (J_start 2) 2 0 1 0 0 false) as [[a b] c] eqn:E. vm_compute in E. injection E as <- <- <-.
  cbn [bind]. destruct (Rltb_spec 2 0); [lra|]. cbn [andb]. eexists. split; [reflexivity|].
  cbn [sdiv ssub smul RealS]. lra.
Qed.

(** * zBesselI(3,100) *)
Fixpoint zpair (m d : nat) : Z * Z :=
  match d with
  | O => (1, 0)%Z
  | S d' => let '(a, b) := zpair m d' in (Z.of_nat (m - d') * a + 50 * b, 50 * a)%Z
  end.
Lemma zpair_ok m d : fst (fpair 100 m d) * 50 ^ d = IZR (fst (zpair m d)) /\ snd (fpair 100 m d) * 50 ^ d = IZR (snd (zpair m d)).
Proof.
  induction d; [cbn; lra|]. cbn [fpair zpair]. destruct (fpair 100 m d) as [a b], (zpair m d) as [A B].
  cbn [fst snd] in *. destruct IHd as [E F]. rewrite plus_IZR, !mult_IZR, <- E, <- F, <- INR_IZR_INZ. cbn [pow].
  split; field.
Qed.
Lemma ff_Z m i : (i <= m)%nat -> ff 100 m i * 50 ^ (m - i) = IZR (fst (zpair m (m - i))).
Proof. intros Hi. unfold ff. destruct (Nat.ltb_spec m i); [lia|]. apply zpair_ok. Qed.

Lemma In_value fexp ztol n x y : (2 <= n)%nat -> 0 < x -> ztol <= x -> besI0 fexp x = Ok y ->
  besIn fexp ztol n x = Ok (ff x (I_start n) n * (y / ff x (I_start n) 0)).
Proof.
  intros Hn Hx Hz E0. set (m := I_start n). pose proof (start_ge n Hn) as Hm. fold m in Hm.
  unfold besIn. destruct (Nat.eqb_spec n 0); [lia|]. destruct (Nat.eqb_spec n 1); [lia|].
  cbv zeta. cbn [sabs RealS]. rewrite Rabs_right by lra. change (slt (Scalar := RealS)) with Rltb.
  destruct (Rltb_spec x ztol); [lra|]. fold m. cbn [sofZ sdiv s0 s1 smul RealS].
  pose proof (I_down_ff x m n m 0 ltac:(lia)) as D. rewrite ff_top, ff_over in D. rewrite D. clear D.
  destruct (Nat.leb_spec 1 n); [|lia]. destruct (Nat.leb_spec n m); [|lia]. cbn [andb]. rewrite E0. cbn [bind].
  destruct (Rltb_spec x 0); [lra|]. reflexivity.
Qed.

Lemma I3_100 fexp ztol l0 l3 y r : ztol <= 100 -> is_I 0 100 l0 -> is_I 3 100 l3 ->
  besIn fexp ztol 0 100 = Ok y -> besIn fexp ztol 3 100 = Ok r ->
  ~ (Rabs (y - l0) <= 1 / 2000 * l0 /\ Rabs (r - l3) <= 1 / 2000 * l3).
Proof.
  intros Hz H0 H3 E0 E3 [A B].
  change (besIn fexp ztol 0 100) with (besI0 fexp 100) in E0.
  rewrite (In_value fexp ztol 3 100 y ltac:(lia) ltac:(lra) Hz E0) in E3. injection E3 as E3.
  change (I_start 3) with 26%nat in E3.
  assert (Q : ff 100 26 3 <= 9544 / 10000 * ff 100 26 0).
  { pose proof (ff_Z 26 3 ltac:(lia)) as F3. pose proof (ff_Z 26 0 ltac:(lia)) as F0.
    cbn [Nat.sub] in F3, F0.
    assert (C : (10000 * 125000 * fst (zpair 26 23) <= 9544 * fst (zpair 26 26))%Z)
      by (apply Z.leb_le; vm_compute; reflexivity).
    apply IZR_le in C. rewrite !mult_IZR, <- F3, <- F0 in C.
    assert (W : 50 ^ 26 = 50 ^ 3 * 50 ^ 23) by (rewrite <- pow_add; reflexivity). rewrite W in C. clear W.
    assert (0 < 50 ^ 23) by (apply pow_lt; lra).
    apply Rmult_le_reg_r with (50 ^ 23); auto. lra. }
  assert (P0 : 0 < ff 100 26 0) by (apply ff_pos1; [lra|lia]).
  assert (P3 : 0 < ff 100 26 3) by (apply ff_pos1; [lra|lia]).
  pose proof (b_tail 1 0 100 l0 100 2500 ltac:(rewrite Rabs_right; lra) ltac:(lra)) as T.
  assert (N : 2 * 2500 <= INR 102 ^ 2) by (rewrite <- IZR_nat; cbn [Z.of_nat Pos.of_succ_nat Pos.succ]; lra).
  specialize (T N H0). clear N. rewrite (Rabs_right 100) in T by lra.
  pose proof (bsum_le 1 0 50 100 (107375172 * 10 ^ 34) 1 eq_refl eq_refl ltac:(vm_compute; reflexivity)) as S.
  pose proof (bterm_le 0 50 101 (10 ^ 34) 1 eq_refl ltac:(vm_compute; reflexivity)) as Bt.
  pose proof (bsum_ge 1 3 50 100 (102627400 * 10 ^ 34) 1 eq_refl eq_refl ltac:(vm_compute; reflexivity)) as S3.
  replace (2 * 50) with 100 in S, Bt, S3 by lra. unfold Rdiv in S, Bt, S3. rewrite Rinv_1, Rmult_1_r in S, Bt, S3. rewrite mult_IZR in S, S3.
  pose proof (head_le _ l3 100 H3 (fun j => bterm_nonneg 3 100 j ltac:(lra))) as G3.
  assert (U : 0 < IZR (10 ^ 34)) by (apply IZR_lt; reflexivity).
  set (u := IZR (10 ^ 34)) in *. clearbody u.
  set (s0 := sum_f_R0 (bterm 1 0 100) 100) in *. set (s3 := sum_f_R0 (bterm 1 3 100) 100) in *.
  set (bt := bterm 1 0 100 101) in *. clearbody s0 s3 bt.
  assert (L0 : l0 <= 107375174 * u) by (pose proof (Rle_abs (l0 - s0)); lra).
  assert (L3 : 102627400 * u <= l3) by lra.
  set (f0 := ff 100 26 0) in *. set (f3 := ff 100 26 3) in *. clearbody f0 f3.
  assert (q : f3 / f0 <= 9544 / 10000).
  { apply Rmult_le_reg_r with f0; auto. unfold Rdiv at 1. rewrite Rmult_assoc, Rinv_l, Rmult_1_r by lra. exact Q. }
  assert (q0 : 0 < f3 / f0) by (apply Rdiv_lt_0_compat; auto).
  assert (R : r = f3 / f0 * y) by (rewrite <- E3; cbn; field; lra).
  pose proof (Rle_abs (y - l0)). pose proof (Rle_abs (- (r - l3))) as M. rewrite Rabs_Ropp in M.
  assert (Y : y <= 10005 / 10000 * (107375174 * u)) by lra.
  assert (K : r <= 9544 / 10000 * (10005 / 10000 * (107375174 * u))).
  { rewrite R. apply Rle_trans with (f3 / f0 * (10005 / 10000 * (107375174 * u))).
    - apply Rmult_le_compat_l; lra.
    - apply Rmult_le_compat_r; lra. }
  lra.
Qed.
