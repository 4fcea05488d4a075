(** Accuracy for |x| < 12.5, continued: the functions of order 0 and 1. *)
From Coq Require Import Reals Lra Lia ZArith List.
From Verif Require Import Prelude Prelude_Proofs Scalar RealLib Bes_Tables Bes_Model Bes_Spec Bes_Proofs Bes2_Proofs
  Bes3_Proofs.
Import ListNotations.
Open Scope R_scope.

Lemma dec_R m e : (0 <= e)%Z -> dec (T:=R) (m, e) = IZR m / IZR (10 ^ e).
Proof. reflexivity. Qed.
Lemma dec85 : dec (T:=R) (85, 1)%Z = 17 / 2.
Proof. unfold dec. cbn [fst snd sofZ sdiv RealS]. change (10 ^ 1)%Z with 10%Z. lra. Qed.
Lemma dec125 : dec (T:=R) (125, 1)%Z = 25 / 2.
Proof. unfold dec. cbn [fst snd sofZ sdiv RealS]. change (10 ^ 1)%Z with 10%Z. lra. Qed.
Lemma dec625 : dec (T:=R) (625, 4)%Z = 1 / 16.
Proof. unfold dec. cbn [fst snd sofZ sdiv RealS]. change (10 ^ 4)%Z with 10000%Z. lra. Qed.
Lemma half_R : half (T:=R) = 1 / 2.
Proof. unfold half, dec. cbn [fst snd sofZ sdiv RealS]. change (10 ^ 1)%Z with 10%Z. lra. Qed.

(** the tail beyond (x/2)^(2*32) *)
Lemma tail_num : (2 * 625 ^ 33 * 10 ^ 20 <= 16 ^ 33 * (zfact 33 * zfact 33))%Z.
Proof. vm_compute. discriminate. Qed.
Lemma tail_gen M : (2 * 625 ^ Z.of_nat (S M) * 10 ^ 20 <= 16 ^ Z.of_nat (S M) * (zfact (S M) * zfact (S M)))%Z ->
  forall n x, Rabs x <= 25 / 2 -> 2 * bterm 1 n (Rabs x) (S M) <= (Rabs x / 2) ^ n / 10 ^ 20.
Proof.
  intros Hn n x Hx. unfold bterm. rewrite pow1, pow_add, pow_mult.
  set (z := (Rabs x / 2) ^ 2). set (y := (Rabs x / 2) ^ n).
  pose proof (Rabs_pos x) as Px.
  assert (Hy : 0 <= y) by (unfold y; apply pow_le; lra).
  assert (Hz : 0 <= z <= 625 / 16).
  { unfold z. split; [apply pow2_ge_0|]. replace (625 / 16) with ((25 / 4) ^ 2) by lra. apply pow_incr. lra. }
  assert (Zp : z ^ S M <= (625 / 16) ^ S M) by (apply pow_incr; auto).
  assert (F1 : 0 < INR (fact (S M))) by apply INR_fact_lt_0.
  assert (F2 : INR (fact (S M)) <= INR (fact (S M + n))) by (apply le_INR, fact_le; lia).
  apply IZR_le in Hn. rewrite !mult_IZR, <- !pow_IZR, !zfact_fact in Hn.
  assert (H10 : IZR (10 ^ 20) = 10 ^ 20) by (change 20%Z with (Z.of_nat 20); rewrite <- pow_IZR; reflexivity).
  rewrite H10 in Hn.
  set (F := INR (fact (S M))) in *. set (G := INR (fact (S M + n))) in *.
  assert (N : 2 * (625 / 16) ^ S M * 10 ^ 20 <= F * F).
  { unfold Rdiv. rewrite Rpow_mult_distr, pow_inv by lra.
    assert (P16 : 0 < 16 ^ S M) by (apply pow_lt; lra).
    apply Rmult_le_reg_r with (16 ^ S M); auto.
    replace (2 * (625 ^ S M * / 16 ^ S M) * 10 ^ 20 * 16 ^ S M) with (2 * 625 ^ S M * 10 ^ 20) by (field; lra).
    lra. }
  assert (FG : F * F <= F * G) by (apply Rmult_le_compat_l; lra).
  assert (T20 : 0 < 10 ^ 20) by (apply pow_lt; lra).
  assert (FGp : 0 < F * G) by nra.
  apply Rmult_le_reg_r with (F * G * 10 ^ 20); [apply Rmult_lt_0_compat; auto|].
  replace (2 * (1 / (F * G) * (z ^ S M * y)) * (F * G * 10 ^ 20)) with (2 * z ^ S M * 10 ^ 20 * y) by (field; lra).
  replace (y / 10 ^ 20 * (F * G * 10 ^ 20)) with (F * G * y) by (field; lra).
  apply Rmult_le_compat_r; [auto|].
  apply Rle_trans with (2 * (625 / 16) ^ S M * 10 ^ 20); [|lra].
  apply Rmult_le_compat_r; [lra|]. lra.
Qed.

Lemma trunc_err s n x l : Rabs s = 1 -> Rabs x <= 25 / 2 -> infinite_sum (bterm s n x) l ->
  Rabs (l - (x / 2) ^ n * csum s n MM ((x / 2) ^ 2)) <= (Rabs x / 2) ^ n / 10 ^ 20.
Proof.
  intros Hs Hx A. rewrite <- bsum_csum.
  eapply Rle_trans; [apply (b_tail s n x l MM (625 / 16)); auto|].
  - replace (625 / 16) with ((25 / 4) ^ 2) by lra.
    rewrite <- (pow2_abs (x / 2)). apply pow_incr. split; [apply Rabs_pos|].
    unfold Rdiv. rewrite Rabs_mult, (Rabs_right (/ 2)) by lra. lra.
  - unfold MM. rewrite <- (IZR_nat 34). cbn [Z.of_nat Pos.of_succ_nat Pos.succ]. lra.
  - apply tail_gen; auto. exact tail_num.
Qed.

Lemma fine_tabs : fine J0a = true /\ fine J0b = true /\ fine J0c = true /\ fine J1a = true /\ fine J1b = true /\
  fine J1c = true /\ fine I0a = true /\ fine I0b = true /\ fine I1a = true /\ fine I1b = true.
Proof. vm_compute. tauto. Qed.
Lemma len_tabs : length J0a = 8%nat /\ length J0b = 65%nat /\ length J0c = 70%nat /\ length J1a = 8%nat /\
  length J1b = 65%nat /\ length J1c = 70%nat /\ length I0a = 65%nat /\ length I0b = 70%nat /\ length I1a = 60%nat /\
  length I1b = 70%nat.
Proof. vm_compute. tauto. Qed.

Lemma qd_two n (two : Z) h : IZR two <> 0 -> h / IZR (two * qd n MM) = h / IZR (qd n MM) / IZR two.
Proof.
  intros Ht. rewrite mult_IZR. field. split; auto. apply not_0_IZR. unfold qd.
  pose proof (zfact_pos MM). pose proof (zfact_pos (MM + n)). nia.
Qed.

(** the three kinds of blocks of J *)
Lemma blockJa c n two den x : chkJa c n two den = true -> fine c = true -> (8 <= length c)%nat -> IZR two <> 0 ->
  0 <= x < 1 ->
  exists r, bes_rec c 0 8 (x * x) = Ok r /\ Rabs (r - csum (-1) n MM ((x / 2) ^ 2) / IZR two) <= 1 / IZR den.
Proof.
  intros C F L Ht Hx. rewrite bes_rec_ok by (auto; lia). eexists. split; [reflexivity|].
  destruct (cell 0 (x * x)) as [j [v [Hj [Hv E]]]]; [cbn; nra|].
  pose proof (all45_at _ _ _ 0 j C ltac:(lia) Hj) as K. cbv beta in K.
  pose proof (chk_ok _ _ _ _ _ _ _ _ _ _ v K Hv) as G. rewrite <- E in G.
  rewrite qd_two, ql_ok in G by (auto; reflexivity).
  replace (8 * (x * x) / 8) with (x * x) in G by lra.
  replace (8 * (x * x) / 32) with ((x / 2) ^ 2) in G by lra. exact G.
Qed.

Lemma sZ_R k : sZ (T:=R) k = INR k.
Proof. apply IZR_nat. Qed.

Lemma blockJb c n two den x : chkJb c n two den = true -> fine c = true -> (65 <= length c)%nat -> IZR two <> 0 ->
  0 <= x < 17 / 2 ->
  exists r, (k <- cint 5 (x * x * (1 / 16)) ;; bes_rec c (k * 13) 13 ((x * x * (1 / 16))%R - sZ k - half)%S) = Ok r /\
    Rabs (r - csum (-1) n MM ((x / 2) ^ 2) / IZR two) <= 1 / IZR den.
Proof.
  intros C F L Ht Hx. set (t := x * x * (1 / 16)).
  assert (Tt : 0 <= t < INR 5) by (unfold t; cbn; nra).
  destruct (cint_ok 5 t Tt) as [k [Ek [Hk Kt]]]. rewrite Ek. cbn [bind].
  rewrite bes_rec_ok by (auto; lia). eexists. split; [reflexivity|].
  destruct (cell k t Kt) as [j [v [Hj [Hv E]]]].
  pose proof (all45_at _ _ _ k j C ltac:(lia) Hj) as K. cbv beta in K.
  pose proof (chk_ok _ _ _ _ _ _ _ _ _ _ v K Hv) as G.
  rewrite qd_two, ql_ok in G by (auto; reflexivity). rewrite <- E in G.
  rewrite half_R, sZ_R. cbn [ssub RealS].
  replace (t - INR k - 1 / 2) with ((IZR (cellz 0 j - 4) + v) / 8).
  - replace ((x / 2) ^ 2) with (8 * t / 2); [exact G|]. unfold t. field.
  - assert (E2 : IZR (cellz k j) = 8 * INR k + IZR (cellz 0 j)).
    { unfold cellz. rewrite !plus_IZR, !mult_IZR, !IZR_nat. cbn. lra. }
    rewrite minus_IZR. lra.
Qed.

Lemma blockJc c n den x : chkJc c n den = true -> fine c = true -> (70 <= length c)%nat ->
  17 / 2 <= x < 25 / 2 ->
  exists r, (k <- cint 13 x ;; b <- from 8 k ;; bes_rec c (b * 14) 14 (x - sZ k - half)%S) = Ok r /\
    Rabs (r - (x / 2) ^ n * csum (-1) n MM ((x / 2) ^ 2)) <= 1 / IZR den.
Proof.
  intros C F L Hx.
  assert (Tt : 0 <= x < INR 13) by (rewrite <- IZR_nat; cbn; lra).
  destruct (cint_ok 13 x Tt) as [k [Ek [Hk Kt]]]. rewrite Ek. cbn [bind].
  assert (K8 : (8 <= k)%nat).
  { apply INR_lt with (n := 7%nat). rewrite <- IZR_nat. cbn. lra. }
  unfold from. destruct (Nat.ltb_spec k 8); [lia|]. cbn [bind].
  rewrite bes_rec_ok by (auto; lia). eexists. split; [reflexivity|].
  destruct (cell k x Kt) as [j [v [Hj [Hv E]]]].
  pose proof (all45_at _ _ _ k j C ltac:(lia) Hj) as K. cbv beta in K.
  pose proof (chk_ok _ _ _ _ _ _ _ _ _ _ v K Hv) as G.
  rewrite qx_ok in G by (auto; reflexivity). rewrite <- E in G.
  rewrite half_R, sZ_R. cbn [ssub RealS].
  replace (x - INR k - 1 / 2) with ((IZR (cellz 0 j - 4) + v) / 8).
  - replace (x / 2) with (8 * x / 16) by lra. exact G.
  - assert (E2 : IZR (cellz k j) = 8 * INR k + IZR (cellz 0 j)).
    { unfold cellz. rewrite !plus_IZR, !mult_IZR, !IZR_nat. cbn. lra. }
    rewrite minus_IZR. lra.
Qed.

(** the two kinds of blocks of I *)
Lemma blockIa c n two den x : chkIa c n two den = true -> fine c = true -> (5 * (13 - n) <= length c)%nat -> (n < 13)%nat ->
  IZR two <> 0 -> 0 <= x < 17 / 2 ->
  exists r, (k <- cint 5 (x * x * (1 / 16)) ;; bes_rec c (k * (13 - n)) (13 - n) (x * x * (1 / 16))) = Ok r /\
    Rabs (r - csum 1 n MM ((x / 2) ^ 2) / IZR two) <= 1 / IZR den * (csum 1 n MM ((x / 2) ^ 2) / IZR two).
Proof.
  intros C F L Ln Ht Hx. set (t := x * x * (1 / 16)).
  assert (Tt : 0 <= t < INR 5) by (unfold t; cbn; nra).
  destruct (cint_ok 5 t Tt) as [k [Ek [Hk Kt]]]. rewrite Ek. cbn [bind].
  rewrite bes_rec_ok by (auto; nia). eexists. split; [reflexivity|].
  destruct (cell k t Kt) as [j [v [Hj [Hv E]]]].
  pose proof (all45_at _ _ _ k j C ltac:(lia) Hj) as K. cbv beta in K.
  pose proof (chkr_ok _ _ _ _ _ _ _ _ _ _ v K Hv) as G.
  rewrite qd_two, ql_ok in G by (auto; reflexivity). rewrite <- E in G.
  replace (8 * t / 8) with t in G by lra.
  replace ((x / 2) ^ 2) with (8 * t / 2); [exact G|]. unfold t. field.
Qed.

Lemma blockIb c n den x : chkIb c n den = true -> fine c = true -> (70 <= length c)%nat ->
  17 / 2 <= x < 25 / 2 ->
  exists r, (k <- cint 13 x ;; b <- from 8 k ;; bes_rec c (b * 14) 14 (x - sZ k)%S) = Ok r /\
    Rabs (r - (x / 2) ^ n * csum 1 n MM ((x / 2) ^ 2)) <= 1 / IZR den * ((x / 2) ^ n * csum 1 n MM ((x / 2) ^ 2)).
Proof.
  intros C F L Hx.
  assert (Tt : 0 <= x < INR 13) by (rewrite <- IZR_nat; cbn; lra).
  destruct (cint_ok 13 x Tt) as [k [Ek [Hk Kt]]]. rewrite Ek. cbn [bind].
  assert (K8 : (8 <= k)%nat).
  { apply INR_lt with (n := 7%nat). rewrite <- IZR_nat. cbn. lra. }
  unfold from. destruct (Nat.ltb_spec k 8); [lia|]. cbn [bind].
  rewrite bes_rec_ok by (auto; lia). eexists. split; [reflexivity|].
  destruct (cell k x Kt) as [j [v [Hj [Hv E]]]].
  pose proof (all45_at _ _ _ k j C ltac:(lia) Hj) as K. cbv beta in K.
  pose proof (chkr_ok _ _ _ _ _ _ _ _ _ _ v K Hv) as G.
  rewrite qx_ok in G by (auto; reflexivity). rewrite <- E in G.
  rewrite sZ_R. cbn [ssub RealS].
  replace (x - INR k) with ((IZR (cellz 0 j) + v) / 8).
  - replace (x / 2) with (8 * x / 16) by lra. exact G.
  - assert (E2 : IZR (cellz k j) = 8 * INR k + IZR (cellz 0 j)).
    { unfold cellz. rewrite !plus_IZR, !mult_IZR, !IZR_nat. cbn. lra. }
    lra.
Qed.

Lemma Rdiv_1_r' x : x / 1 = x.
Proof. lra. Qed.
Lemma ten_R k : (0 <= k)%Z -> IZR (ten k) = 10 ^ (Z.to_nat k).
Proof. intros Hk. unfold ten. rewrite pow_IZR, Z2Nat.id by auto. reflexivity. Qed.

(** * The functions *)
Section Fun.
Variables fexp fsin fcos : R -> R.

Lemma den2_17 : 1 / IZR (2 * ten 17) = / 2 / 10 ^ 17.
Proof. clear fexp fsin fcos. rewrite mult_IZR, ten_R by lia. change (Z.to_nat 17) with 17%nat. field. Qed.
Lemma den20_17 : 1 / IZR (20 * ten 17) = / 20 / 10 ^ 17.
Proof. clear fexp fsin fcos. rewrite mult_IZR, ten_R by lia. change (Z.to_nat 17) with 17%nat. field. Qed.
Lemma den2_16 : 1 / IZR (2 * ten 16) = / 2 / 10 ^ 16.
Proof. clear fexp fsin fcos. rewrite mult_IZR, ten_R by lia. change (Z.to_nat 16) with 16%nat. field. Qed.

Lemma J0_pos x l : 0 <= x < 25 / 2 -> is_J 0 x l ->
  exists r, besJ0 fcos x = Ok r /\ Rabs (r - l) <= 1 / 10 ^ 17.
Proof. clear fexp fsin.
  intros Hx Hl.
  pose proof (trunc_err (-1) 0 x l ltac:(rewrite Rabs_left; lra) ltac:(rewrite Rabs_right; lra) Hl) as Tr.
  rewrite !pow_O, !Rmult_1_l in Tr.
  destruct fine_tabs as [Fa [Fb [Fc _]]]. destruct len_tabs as [La [Lb [Lc _]]].
  assert (Q : exists r, besJ0 fcos x = Ok r /\ Rabs (r - csum (-1) 0 MM ((x / 2) ^ 2)) <= 1 / IZR (2 * ten 17)).
  { unfold besJ0. cbn [sabs RealS]. rewrite (Rabs_right x) by lra. cbv zeta.
    change (slt (Scalar := RealS)) with Rltb. rewrite dec85, dec125, dec625. cbn [smul s1 RealS].
    destruct (Rltb_spec x 1) as [A|A].
    - destruct (blockJa J0a 0 1 (2 * ten 17) x J0a_chk Fa) as [r [E B]]; [lia|lra|lra|].
      exists r. split; [exact E|]. rewrite Rdiv_1_r' in B. exact B.
    - destruct (Rltb_spec x (17 / 2)) as [A2|A2].
      + destruct (blockJb J0b 0 1 (2 * ten 17) x J0b_chk Fb) as [r [E B]]; [lia|lra|lra|].
        exists r. split; [exact E|]. rewrite Rdiv_1_r' in B. exact B.
      + destruct (Rltb_spec x (25 / 2)) as [A3|A3]; [|lra].
        destruct (blockJc J0c 0 (2 * ten 17) x J0c_chk Fc) as [r [E B]]; [lia|lra|].
        exists r. split; [exact E|]. rewrite pow_O, Rmult_1_l in B. exact B. }
  destruct Q as [r [E B]]. exists r. split; [exact E|]. rewrite den2_17 in B.
  replace (r - l) with ((r - csum (-1) 0 MM ((x / 2) ^ 2)) - (l - csum (-1) 0 MM ((x / 2) ^ 2))) by ring.
  eapply Rle_trans; [apply Rabs_triang|]. rewrite Rabs_Ropp. lra.
Qed.

Theorem J0_acc x l : Rabs x < 25 / 2 -> is_J 0 x l ->
  exists r, besJ0 fcos x = Ok r /\ Rabs (r - l) <= 1 / 10 ^ 17.
Proof. clear fexp fsin.
  intros Hx Hl.
  assert (E : besJ0 fcos x = besJ0 fcos (Rabs x)).
  { unfold besJ0. cbn [sabs RealS]. now rewrite Rabs_Rabsolu. }
  rewrite E. apply J0_pos; [split; [apply Rabs_pos|auto]|].
  unfold Rabs. destruct (Rcase_abs x); [|auto].
  pose proof (is_neg _ _ _ _ Hl) as G. rewrite pow_O, Rmult_1_l in G. exact G.
Qed.

Lemma J1_pos x l : 0 <= x < 25 / 2 -> is_J 1 x l ->
  exists r, besJ1p fsin x = Ok r /\ Rabs (r - l) <= 1 / 10 ^ 17.
Proof. clear fexp fcos.
  intros Hx Hl.
  pose proof (trunc_err (-1) 1 x l ltac:(rewrite Rabs_left; lra) ltac:(rewrite Rabs_right; lra) Hl) as Tr.
  rewrite !pow_1, (Rabs_right x) in Tr by lra.
  destruct fine_tabs as [_ [_ [_ [Fa [Fb [Fc _]]]]]]. destruct len_tabs as [_ [_ [_ [La [Lb [Lc _]]]]]].
  set (S1 := csum (-1) 1 MM ((x / 2) ^ 2)) in *.
  assert (Sc : forall r, Rabs (r - S1 / 2) <= / 20 / 10 ^ 17 -> Rabs (r * x - x / 2 * S1) <= / 2 / 10 ^ 17 * (17 / 20) + 
     (if Rlt_dec x (17 / 2) then 0 else 100)).
  { intros r B. destruct (Rlt_dec x (17 / 2)).
    - replace (r * x - x / 2 * S1) with ((r - S1 / 2) * x) by field. rewrite Rabs_mult, (Rabs_right x) by lra.
      pose proof (Rabs_pos (r - S1 / 2)).
      apply Rle_trans with (/ 20 / 10 ^ 17 * (17 / 2)); [|lra]. apply Rmult_le_compat; lra.
    - replace (r * x - x / 2 * S1) with ((r - S1 / 2) * x) by field. rewrite Rabs_mult, (Rabs_right x) by lra.
      pose proof (Rabs_pos (r - S1 / 2)).
      assert (/ 20 / 10 ^ 17 <= 1) by lra.
      apply Rle_trans with (1 * 100); [apply Rmult_le_compat; lra|]. lra. }
  assert (Q : exists r, besJ1p fsin x = Ok r /\ Rabs (r - x / 2 * S1) <= / 2 / 10 ^ 17).
  { unfold besJ1p. cbv zeta.
    change (slt (Scalar := RealS)) with Rltb. rewrite dec85, dec125, dec625. cbn [smul s1 RealS].
    destruct (Rltb_spec x 1) as [A|A].
    - destruct (blockJa J1a 1 2 (20 * ten 17) x J1a_chk Fa) as [r [E B]]; [lia|lra|lra|].
      exists (r * x). rewrite E. split; [reflexivity|]. rewrite den20_17 in B. fold S1 in B.
      specialize (Sc r B). destruct (Rlt_dec x (17 / 2)); [|lra]. lra.
    - destruct (Rltb_spec x (17 / 2)) as [A2|A2].
      + destruct (blockJb J1b 1 2 (20 * ten 17) x J1b_chk Fb) as [r [E B]]; [lia|lra|lra|].
        exists (r * x). split.
        * destruct (cint 5 (x * x * (1 / 16))) as [k|]; [|discriminate]. cbn [bind] in E |- *. rewrite E. reflexivity.
        * rewrite den20_17 in B. fold S1 in B. specialize (Sc r B). destruct (Rlt_dec x (17 / 2)); [|lra]. lra.
      + destruct (Rltb_spec x (25 / 2)) as [A3|A3]; [|lra].
        destruct (blockJc J1c 1 (2 * ten 17) x J1c_chk Fc) as [r [E B]]; [lia|lra|].
        exists r. split; [exact E|]. rewrite pow_1, den2_17 in B. exact B. }
  destruct Q as [r [E B]]. exists r. split; [exact E|].
  replace (r - l) with ((r - x / 2 * S1) - (l - x / 2 * S1)) by ring.
  eapply Rle_trans; [apply Rabs_triang|]. rewrite Rabs_Ropp. lra.
Qed.

Theorem J1_acc x l : Rabs x < 25 / 2 -> is_J 1 x l ->
  exists r, besJ1 fsin x = Ok r /\ Rabs (r - l) <= 1 / 10 ^ 17.
Proof. clear fexp fcos.
  intros Hx Hl. unfold besJ1. change (slt (Scalar := RealS)) with Rltb. cbn [s0 sopp RealS].
  destruct (Rltb_spec x 0) as [A|A].
  - rewrite Rabs_left in Hx by auto.
    pose proof (is_neg _ _ _ _ Hl) as G. rewrite pow_1 in G.
    destruct (J1_pos (- x) (-1 * l)) as [r [E B]]; [lra|exact G|].
    exists (- r). rewrite E. split; [reflexivity|].
    replace (- r - l) with (- (r - -1 * l)) by ring. now rewrite Rabs_Ropp.
  - apply J1_pos; auto. rewrite Rabs_right in Hx by lra. lra.
Qed.

Lemma csum1_ge n z M : 0 <= z -> / INR (fact n) <= csum 1 n M z.
Proof. clear fexp fsin fcos.
  intros Hz. unfold csum.
  assert (T : forall j, 0 <= 1 ^ j / (INR (fact j) * INR (fact (j + n))) * z ^ j).
  { intros j. apply Rmult_le_pos; [|apply pow_le; auto]. rewrite pow1. left. apply Rdiv_lt_0_compat; [lra|].
    apply Rmult_lt_0_compat; apply INR_fact_lt_0. }
  induction M.
  - cbn [sum_f_R0]. change (fact 0) with 1%nat. change (0 + n)%nat with n. change (INR 1) with 1.
    rewrite !pow_O. right. field. apply INR_fact_neq_0.
  - cbn [sum_f_R0]. specialize (T (S M)). lra.
Qed.

Lemma I_fin c b l r : Rabs (r - c * b) <= / 2 / 10 ^ 16 * (c * b) -> Rabs (l - c * b) <= c / 10 ^ 20 -> 0 <= c -> 1 / 2 <= b -> 
  c * b <= l -> Rabs (r - l) <= 1 / 10 ^ 16 * l.
Proof. clear fexp fsin fcos.
  intros A B C D E.
  replace (r - l) with ((r - c * b) - (l - c * b)) by ring.
  eapply Rle_trans; [apply Rabs_triang|]. rewrite Rabs_Ropp.
  assert (c / 10 ^ 20 <= / 4 / 10 ^ 16 * (c * b)) by nra.
  assert (0 <= c * b) by nra. lra.
Qed.

Lemma I0_acc x l : Rabs x < 25 / 2 -> is_I 0 x l ->
  exists r, besI0 fexp x = Ok r /\ Rabs (r - l) <= 1 / 10 ^ 16 * l.
Proof. clear fsin fcos.
  intros Hx Hl0. unfold besI0. cbn [sabs RealS]. cbv zeta.
  assert (Hl : is_I 0 (Rabs x) l).
  { unfold Rabs. destruct (Rcase_abs x); [|auto].
    pose proof (is_neg _ _ _ _ Hl0) as G. rewrite pow_O, Rmult_1_l in G. exact G. }
  pose proof (Rabs_pos x) as Px. revert Hl Hx Px. clear Hl0. generalize (Rabs x). clear x. intros x Hl Hx Px.
  pose proof (trunc_err 1 0 x l ltac:(rewrite Rabs_right; lra) ltac:(rewrite Rabs_right; lra) Hl) as Tr.
  pose proof (head_le _ l MM Hl (fun k => bterm_nonneg 0 x k Px)) as Hd. rewrite bsum_csum in Hd.
  rewrite (Rabs_right x) in Tr by lra.
  destruct fine_tabs as [_ [_ [_ [_ [_ [_ [Fa [Fb _]]]]]]]]. destruct len_tabs as [_ [_ [_ [_ [_ [_ [La [Lb _]]]]]]]].
  pose proof (csum1_ge 0 ((x / 2) ^ 2) MM (pow2_ge_0 _)) as Cg. change (fact 0) with 1%nat in Cg. change (INR 1) with 1 in Cg.
  change (slt (Scalar := RealS)) with Rltb. rewrite dec85, dec125, dec625. cbn [smul s1 RealS].
  destruct (Rltb_spec x (17 / 2)) as [A2|A2].
  - destruct (blockIa I0a 0 1 (2 * ten 16) x I0a_chk Fa) as [r [E B]]; [cbn; lia|lia|lra|lra|].
    exists r. split; [exact E|]. rewrite den2_16, Rdiv_1_r' in B.
    rewrite !pow_O, ?Rmult_1_l in *. apply (I_fin 1 (csum 1 0 MM ((x / 2) ^ 2))); rewrite ?Rmult_1_l; first [exact B|exact Tr|lra].
  - destruct (Rltb_spec x (25 / 2)) as [A3|A3]; [|lra].
    destruct (blockIb I0b 0 (2 * ten 16) x I0b_chk Fb) as [r [E B]]; [lia|lra|].
    exists r. split; [exact E|]. rewrite den2_16 in B.
    rewrite !pow_O, ?Rmult_1_l in *. apply (I_fin 1 (csum 1 0 MM ((x / 2) ^ 2))); rewrite ?Rmult_1_l; first [exact B|exact Tr|lra].
Qed.

Lemma I1_pos x l : 0 <= x < 25 / 2 -> is_I 1 x l ->
  exists r, besI1p fexp x = Ok r /\ Rabs (r - l) <= 1 / 10 ^ 16 * l.
Proof. clear fsin fcos.
  intros Hx Hl. unfold besI1p. cbv zeta.
  pose proof (trunc_err 1 1 x l ltac:(rewrite Rabs_right; lra) ltac:(rewrite Rabs_right; lra) Hl) as Tr.
  pose proof (head_le _ l MM Hl (fun k => bterm_nonneg 1 x k ltac:(lra))) as Hd. rewrite bsum_csum in Hd.
  rewrite (Rabs_right x) in Tr by lra.
  destruct fine_tabs as [_ [_ [_ [_ [_ [_ [_ [_ [Fa Fb]]]]]]]]]. destruct len_tabs as [_ [_ [_ [_ [_ [_ [_ [_ [La Lb]]]]]]]]].
  pose proof (csum1_ge 1 ((x / 2) ^ 2) MM (pow2_ge_0 _)) as Cg. change (fact 1) with 1%nat in Cg. change (INR 1) with 1 in Cg.
  change (slt (Scalar := RealS)) with Rltb. rewrite dec85, dec125, dec625. cbn [smul s1 RealS].
  destruct (Rltb_spec x (17 / 2)) as [A2|A2].
  - destruct (blockIa I1a 1 2 (2 * ten 16) x I1a_chk Fa) as [r [E B]]; [cbn; lia|lia|lra|lra|].
    exists (r * x). split.
    + destruct (cint 5 (x * x * (1 / 16))) as [k|]; [|discriminate]. cbn [bind] in E |- *.
      change (13 - 1)%nat with 12%nat in E. rewrite E. reflexivity.
    + rewrite den2_16 in B. rewrite !pow_1 in *.
      apply (I_fin (x / 2) (csum 1 1 MM ((x / 2) ^ 2))); try lra.
      set (c := csum 1 1 MM ((x / 2) ^ 2)) in *.
      replace (r * x - x / 2 * c) with ((r - c / 2) * x) by field. rewrite Rabs_mult, (Rabs_right x) by lra.
      apply Rmult_le_compat_r with (r := x) in B; [|lra].
      eapply Rle_trans; [exact B|]. right. field.
  - destruct (Rltb_spec x (25 / 2)) as [A3|A3]; [|lra].
    destruct (blockIb I1b 1 (2 * ten 16) x I1b_chk Fb) as [r [E B]]; [lia|lra|].
    exists r. split; [exact E|]. rewrite den2_16 in B.
    rewrite !pow_1 in *. apply (I_fin (x / 2) (csum 1 1 MM ((x / 2) ^ 2))); try lra.
Qed.

Theorem I1_acc x l : Rabs x < 25 / 2 -> is_I 1 x l ->
  exists r, besI1 fexp x = Ok r /\ Rabs (r - l) <= 1 / 10 ^ 16 * Rabs l.
Proof. clear fsin fcos.
  intros Hx Hl. unfold besI1. change (slt (Scalar := RealS)) with Rltb. cbn [s0 sopp RealS].
  destruct (Rltb_spec x 0) as [A|A].
  - rewrite Rabs_left in Hx by auto.
    pose proof (is_neg _ _ _ _ Hl) as G. rewrite pow_1 in G.
    destruct (I1_pos (- x) (-1 * l)) as [r [E B]]; [lra|exact G|].
    exists (- r). rewrite E. split; [reflexivity|].
    replace (- r - l) with (- (r - -1 * l)) by ring. rewrite Rabs_Ropp.
    eapply Rle_trans; [exact B|]. apply Rmult_le_compat_l; [lra|].
    replace (-1 * l) with (- l) by ring. rewrite <- Rabs_Ropp. apply Rle_abs.
  - destruct (I1_pos x l) as [r [E B]]; auto. { rewrite Rabs_right in Hx by lra. lra. }
    exists r. split; [exact E|]. eapply Rle_trans; [exact B|]. apply Rmult_le_compat_l; [lra|]. apply Rle_abs.
Qed.
End Fun.
