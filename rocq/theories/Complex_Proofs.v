(** Complex numbers: proofs. *)
From Coq Require Import Reals Lra Permutation.
From Verif Require Import Prelude Prelude_Proofs Scalar RealLib Pex_Model Pex_Spec Pex_Proofs Complex_Model Complex_Spec.
From Coquelicot Require Import Coquelicot.
Local Open Scope R_scope.

Lemma C_eq (a b : C) : fst a = fst b -> snd a = snd b -> a = b.
Proof. destruct a, b; cbn; congruence. Qed.
Ltac ceq := apply C_eq; cbn.

(** ** stores *)
Lemma create_stored (m : cmem R) c r i z : r m = fst z ->
  i (wr_re m c (r m)) = snd z -> stored m c z (create m c r i).
Proof.
  intros Hr Hi k. unfold create, wr_im. destruct (Nat.eqb_spec k c) as [->|N]; unfold wr_re at 1.
  - rewrite Nat.eqb_refl. cbn. rewrite Hi, Hr. now destruct z.
  - now replace (k =? c)%nat with false by lia.
Qed.
Lemma wr_stored (m : cmem R) c z : stored m c z (wr m c z).
Proof. intros k. reflexivity. Qed.
Ltac wre := unfold wr_re; repeat match goal with |- context [(?a =? ?b)%nat] => destruct (Nat.eqb_spec a b) end; subst; cbn; try reflexivity.

Lemma zComplexConj_ok (m : cmem R) c cc : stored m cc (Cconj (m c)) (zComplexConj m c cc).
Proof. apply create_stored; auto. wre. Qed.
Lemma zComplexAdd_ok (m : cmem R) c1 c2 c : stored m c (Cplus (m c1) (m c2)) (zComplexAdd m c1 c2 c).
Proof. apply create_stored; auto. wre. Qed.
Lemma zComplexSub_ok (m : cmem R) c1 c2 c : stored m c (Cminus (m c1) (m c2)) (zComplexSub m c1 c2 c).
Proof. apply create_stored; auto. wre. Qed.
Lemma zComplexRev_ok (m : cmem R) c rc : stored m rc (Copp (m c)) (zComplexRev m c rc).
Proof. apply create_stored; auto. wre. Qed.
Lemma zComplexMul_ok (m : cmem R) c k ec : stored m ec (Cmult (m c) (RtoC k)) (zComplexMul m c k ec).
Proof. apply create_stored; cbn; rs; [ring|]. wre; rs; ring. Qed.
Lemma zComplexDiv_ok tol (m : cmem R) c k rc : 0 <= tol ->
  (tol < Rabs k -> exists m', zComplexDiv tol m c k rc = (true, m') /\ stored m rc (Cdiv (m c) (RtoC k)) m') /\
  (Rabs k <= tol -> zComplexDiv tol m c k rc = (false, m)).
Proof.
  intros Ht. unfold zComplexDiv. rewrite is_tol_R. destruct (Rleb_spec (Rabs k) tol); split; intros H; try lra; auto.
  eexists; split; auto. assert (k <> 0) by (intros ->; rewrite Rabs_R0 in *; lra).
  unfold Cdiv. rewrite <- RtoC_inv by auto. rs. replace (1 / k) with (/ k) by (field; auto). apply zComplexMul_ok.
Qed.
Lemma zComplexCMul_ok (m : cmem R) c1 c2 c : c <> c1 -> c <> c2 -> stored m c (Cmult (m c1) (m c2)) (zComplexCMul m c1 c2 c).
Proof. intros N1 N2. apply create_stored; auto. wre; congruence. Qed.
Lemma zComplexCMulConj_ok (m : cmem R) c1 c2 c : c <> c1 -> c <> c2 ->
  stored m c (Cmult (m c1) (Cconj (m c2))) (zComplexCMulConj m c1 c2 c).
Proof. intros N1 N2. apply create_stored; cbn; rs; [ring|]. wre; try congruence. rs. ring. Qed.
Lemma zComplexCMulDRC_ok (m : cmem R) c1 c2 : stored m c1 (Cmult (m c1) (m c2)) (zComplexCMulDRC m c1 c2).
Proof. apply wr_stored. Qed.
Lemma zComplexCMulConjDRC_ok (m : cmem R) c1 c2 : stored m c1 (Cmult (m c1) (Cconj (m c2))) (zComplexCMulConjDRC m c1 c2).
Proof.
  unfold zComplexCMulConjDRC. replace (cmulconjv (m c1) (m c2)) with (Cmult (m c1) (Cconj (m c2))); [apply wr_stored|].
  ceq; rs; ring.
Qed.
Lemma sqrabs_Cmod (z : C) : sqrabs z = Cmod z * Cmod z.
Proof. unfold Cmod. rewrite sqrt_sqrt; [unfold sqrabs; rs; ring|nra]. Qed.
Lemma sqrabs_nonneg (z : C) : 0 <= sqrabs z. Proof. rewrite sqrabs_Cmod. apply Rle_0_sqr. Qed.
Lemma Cinv_eq (z : C) : sqrabs z <> 0 -> Cinv z = (fst z * (1 / sqrabs z), - snd z * (1 / sqrabs z)).
Proof.
  intros H. unfold Cinv. unfold sqrabs in *. rs. replace (fst z ^ 2 + snd z ^ 2) with (fst z * fst z + snd z * snd z) by ring.
  f_equal; field; auto.
Qed.
Lemma zComplexInv_ok tol (m : cmem R) c ic : 0 <= tol ->
  (tol < Cmod (m c) * Cmod (m c) -> exists m', zComplexInv tol m c ic = (true, m') /\ stored m ic (Cinv (m c)) m') /\
  (Cmod (m c) * Cmod (m c) <= tol -> zComplexInv tol m c ic = (false, m)).
Proof.
  intros Ht. unfold zComplexInv. rewrite is_tol_R. rewrite <- sqrabs_Cmod. rewrite (Rabs_pos_eq (sqrabs (m c))) by apply sqrabs_nonneg.
  destruct (Rleb_spec (sqrabs (m c)) tol); split; intros H; try lra; auto.
  eexists; split; auto. rewrite Cinv_eq by lra. apply create_stored; cbn; rs; auto.
Qed.
Lemma inv_local_ok tol (z : C) : 0 <= tol ->
  inv_local tol z = if Rleb (Cmod z * Cmod z) tol then None else Some (Cinv z).
Proof.
  intros Ht. unfold inv_local. rewrite is_tol_R, <- sqrabs_Cmod. rewrite (Rabs_pos_eq (sqrabs z)) by apply sqrabs_nonneg.
  destruct (Rleb_spec (sqrabs z) tol); auto. rewrite Cinv_eq by lra. reflexivity.
Qed.
Lemma zComplexCDiv_ok tol (m : cmem R) c1 c2 c : 0 <= tol -> tol < Cmod (m c2) * Cmod (m c2) -> c <> c1 ->
  exists m', zComplexCDiv tol m c1 c2 c = Ok m' /\ stored m c (Cdiv (m c1) (m c2)) m'.
Proof.
  intros Ht H N. unfold zComplexCDiv. rewrite inv_local_ok by auto. destruct (Rleb_spec (Cmod (m c2) * Cmod (m c2)) tol); [lra|].
  eexists; split; [reflexivity|]. apply create_stored; auto. wre. congruence.
Qed.
Lemma zComplexCDiv_UB tol (m : cmem R) c1 c2 c : 0 <= tol -> Cmod (m c2) * Cmod (m c2) <= tol -> zComplexCDiv tol m c1 c2 c = UB.
Proof.
  intros Ht H. unfold zComplexCDiv. rewrite inv_local_ok by auto. destruct (Rleb_spec (Cmod (m c2) * Cmod (m c2)) tol); [auto|lra].
Qed.
Lemma zComplexCDivDRC_ok tol (m : cmem R) c1 c2 : 0 <= tol -> tol < Cmod (m c2) * Cmod (m c2) ->
  exists m', zComplexCDivDRC tol m c1 c2 = Ok m' /\ stored m c1 (Cdiv (m c1) (m c2)) m'.
Proof.
  intros Ht H. unfold zComplexCDivDRC. rewrite inv_local_ok by auto. destruct (Rleb_spec (Cmod (m c2) * Cmod (m c2)) tol); [lra|].
  eexists; split; [reflexivity|]. apply wr_stored.
Qed.

(** ** polar form *)
Lemma atan2_polar (c : C) : polar (cabs c) (carg c) = c.
Proof.
  destruct c as (x, y). unfold polar, cabs, carg, atan2, sqrabs. cbn [fst snd]. rs.
  assert (0 <= y * y) by apply Rle_0_sqr. assert (0 <= x * x) by apply Rle_0_sqr.
  assert (forall s, s * s = 1 -> 0 < s * x -> sqrt (x * x + y * y) = s * x * sqrt (1 + (y / x)²)) as Q.
  { intros s Hs Hx. assert (x <> 0) by (intros ->; lra).
    replace (x * x + y * y) with ((s * x) * (s * x) * (1 + (y / x)²)).
    2:{ unfold Rsqr. transitivity ((s * s) * (x * x + y * y)); [field; auto|rewrite Hs; ring]. }
    rewrite sqrt_mult; [rewrite sqrt_square by lra; ring|nra|unfold Rsqr; nra]. }
  assert (0 < sqrt (1 + (y / x)²)) as P by (apply sqrt_lt_R0; pose proof (Rle_0_sqr (y / x)); lra).
  destruct (Rltb_spec 0 x) as [Hx|Hx].
  - rewrite cos_atan, sin_atan, (Q 1) by lra. ceq; field; lra.
  - destruct (Rltb_spec x 0) as [Hx'|Hx'].
    + assert (forall k, cos (atan (y / x) + k * PI) = - cos (atan (y / x)) -> True) by auto.
      assert (cos (atan (y / x) - PI) = - cos (atan (y / x)) /\ sin (atan (y / x) - PI) = - sin (atan (y / x))) as (E1 & E2).
      { rewrite cos_minus, sin_minus, cos_PI, sin_PI. split; ring. }
      destruct (Rleb 0 y); [rewrite neg_cos, neg_sin|rewrite E1, E2];
        rewrite cos_atan, sin_atan, (Q (-1)) by lra; ceq; field; lra.
    + assert (x = 0) by lra. subst x. replace (0 * 0 + y * y) with (y * y) by ring.
      destruct (Rltb_spec 0 y).
      * rewrite cos_PI2, sin_PI2, sqrt_square by lra. ceq; ring.
      * destruct (Rltb_spec y 0).
        { rewrite cos_neg, sin_neg, cos_PI2, sin_PI2. replace (y * y) with ((- y) * (- y)) by ring.
          rewrite sqrt_square by lra. ceq; ring. }
        { replace y with 0 by lra. replace (0 * 0) with 0 by ring. rewrite sqrt_0. ceq; ring. }
Qed.
Lemma cabs_Cmod (c : C) : cabs c = Cmod c.
Proof. unfold cabs, Cmod, sqrabs. rs. f_equal. ring. Qed.
Lemma polar_mult r1 t1 r2 t2 : Cmult (polar r1 t1) (polar r2 t2) = polar (r1 * r2) (t1 + t2).
Proof. unfold polar. ceq; rewrite ?cos_plus, ?sin_plus; ring. Qed.
Lemma polar_pown r t n : Cpown (polar r t) n = polar (r ^ n) (t * INR n).
Proof.
  induction n as [|n IH].
  - cbn. rewrite Rmult_0_r. unfold polar. rewrite cos_0, sin_0. ceq; ring.
  - cbn [Cpown]. rewrite IH, polar_mult, S_INR. cbn [pow]. f_equal. ring.
Qed.
Lemma libpow_pos r z : 0 < r -> libpow r z = exp (z * ln r).
Proof. intros H. unfold libpow. destruct (Reqb_spec r 0); [lra|reflexivity]. Qed.
Lemma libpow_nat r n : 0 <= r -> libpow r (INR n) = r ^ n.
Proof.
  intros H. unfold libpow. destruct (Reqb_spec r 0) as [->|N].
  - destruct n as [|n].
    + cbn [INR]. destruct (Reqb_spec 0 0); [reflexivity|lra].
    + destruct (Reqb_spec (INR (S n)) 0) as [E|_]; [exfalso; revert E; apply not_0_INR; lia|].
      symmetry. apply pow_i. lia.
  - apply Rpower_pow. lra.
Qed.
Lemma zComplexPow_nat (c : C) n : zComplexPow c (INR n) = Cpown c n.
Proof.
  unfold zComplexPow. rewrite libpow_nat by apply sqrt_pos. rewrite <- polar_pown. now rewrite atan2_polar.
Qed.
Lemma cabs_pos (c : C) : c <> RtoC 0 -> 0 < cabs c.
Proof. intros H. rewrite cabs_Cmod. now apply Cmod_gt_0. Qed.
Lemma Cexp_log (c : C) : c <> RtoC 0 -> Cexp (ln (cabs c), carg c) = c.
Proof.
  intros H. unfold Cexp. cbn. rewrite exp_ln by now apply cabs_pos. apply (atan2_polar c).
Qed.
(** c^z is e^(z log c) for the logarithm with argument in [-pi,pi] *)
Lemma zComplexCPow_exp (c z : C) : c <> RtoC 0 -> zComplexCPow c z = Cexp (Cmult z (ln (cabs c), carg c)).
Proof.
  intros H. unfold zComplexCPow, Cexp, polar. rewrite libpow_pos by now apply cabs_pos. rewrite <- exp_plus.
  cbn [fst snd Cmult]. ceq; f_equal; f_equal; ring.
Qed.
Lemma zComplexCLog_inverse (c b l : C) : c <> RtoC 0 -> zComplexCLog c b = Some l -> zComplexCPow b l = c.
Proof.
  intros Hc. unfold zComplexCLog. destruct (Reqb_spec (cabs b) 0) as [|Nb]; [discriminate|].
  set (lrb := ln (cabs b)). set (tb := carg b). destruct (Reqb_spec (lrb * lrb + tb * tb) 0) as [|Nd]; [discriminate|].
  intros [= <-]. assert (b <> RtoC 0) as Hb by (intros ->; apply Nb; rewrite cabs_Cmod; apply Cmod_0).
  rewrite zComplexCPow_exp by auto. fold lrb tb. rewrite <- (Cexp_log c Hc) at 5. f_equal.
  ceq; field; auto.
Qed.
Lemma zComplexCLog_null (c b : C) : zComplexCLog c b = None <-> b = RtoC 0 \/ (ln (cabs b) = 0 /\ carg b = 0).
Proof.
  unfold zComplexCLog. assert (cabs b = 0 <-> b = RtoC 0) as E.
  { rewrite cabs_Cmod. split; [apply Cmod_eq_0|intros ->; apply Cmod_0]. }
  destruct (Reqb_spec (cabs b) 0) as [E0|N0]; [tauto|].
  destruct (Reqb_spec (ln (cabs b) * ln (cabs b) + carg b * carg b) 0) as [E1|N1]; split; auto; try discriminate.
  - intros _. right. split; nra.
  - intros [F|(F1 & F2)]; [tauto|]. rewrite F1, F2 in N1. lra.
Qed.
Lemma zComplexLog_inverse (c : C) b l : c <> RtoC 0 -> zComplexLog c b = Some l -> Cexp (Cmult l (RtoC (ln b))) = c.
Proof.
  intros Hc. unfold zComplexLog. destruct (Rleb_spec b 0); [discriminate|]. destruct (Reqb_spec b 1); [discriminate|].
  cbn [orb]. intros [= <-]. rewrite <- (Cexp_log c Hc) at 3. f_equal.
  assert (ln b <> 0) by (intros E; apply ln_inv in E || (rewrite <- ln_1 in E; apply ln_inv in E); lra).
  ceq; field; auto.
Qed.
Lemma zComplexLog_null (c : C) b : zComplexLog c b = None <-> b <= 0 \/ b = 1.
Proof.
  unfold zComplexLog. destruct (Rleb_spec b 0), (Reqb_spec b 1); cbn; split; auto; try discriminate; intros [|]; lra.
Qed.
Lemma cos_period_Z x (k : Z) : cos (x + 2 * IZR k * PI) = cos x /\ sin (x + 2 * IZR k * PI) = sin x.
Proof.
  assert (forall x n, cos (x + 2 * INR n * PI) = cos x /\ sin (x + 2 * INR n * PI) = sin x) as P
    by (intros; split; [apply cos_period|apply sin_period]).
  destruct (Z_le_gt_dec 0 k).
  - rewrite <- (Z2Nat.id k) by auto. rewrite <- INR_IZR_INZ. apply P.
  - destruct (P (x + 2 * IZR k * PI) (Z.to_nat (- k))) as (E1 & E2).
    rewrite <- E1, <- E2. rewrite INR_IZR_INZ, Z2Nat.id by lia. rewrite opp_IZR. split; f_equal; ring.
Qed.
(** the result of zComplexPowRef is a z-th power for another branch of the argument, and its argument
    comes at or just beyond that of the reference *)
Lemma Rceil_spec x : x <= Rceil x < x + 1.
Proof.
  unfold Rceil. rewrite opp_IZR, minus_IZR. destruct (archimed (- x)). lra.
Qed.
Lemma zComplexPowRef_ok tol (c : C) z (f : C) : 0 <= tol -> tol < z ->
  exists (k : Z) t, zComplexPowRef tol c z (Some f) = polar (libpow (cabs c) z) t /\
    t = (carg c + 2 * IZR k * PI) * z /\ carg f <= t < carg f + 2 * PI * z.
Proof.
  intros Ht Hz. unfold zComplexPowRef. rewrite is_tol_R. rewrite (Rabs_pos_eq z) by lra.
  destruct (Rleb_spec z tol); [lra|]. cbn [negb]. pose proof PI_RGT_0.
  set (x := (carg f - carg c * z) / (2 * PI * z)). exists (- (up (- x) - 1))%Z.
  fold (Rceil x). eexists. split; [reflexivity|]. split; [ring|].
  destruct (Rceil_spec x) as (L & U). assert (carg f - carg c * z = 2 * PI * z * x) as E by (unfold x; field; split; lra).
  assert (0 < 2 * PI * z) by nra. split; nra.
Qed.
Lemma zComplexPow_root (c : C) n : (0 < n)%nat -> Cpown (zComplexPow c (/ INR n)) n = c.
Proof.
  intros Hn. assert (INR n <> 0) by (apply not_0_INR; lia). unfold zComplexPow. rewrite polar_pown.
  replace (carg c * / INR n * INR n) with (carg c) by (field; auto).
  replace (libpow (cabs c) (/ INR n) ^ n) with (cabs c); [apply atan2_polar|].
  assert (0 <= cabs c) as [P|E] by apply sqrt_pos.
  - rewrite libpow_pos by auto. rewrite <- Rpower_pow by apply exp_pos. unfold Rpower. rewrite ln_exp.
    replace (INR n * (/ INR n * ln (cabs c))) with (ln (cabs c)) by (field; auto). now rewrite exp_ln.
  - rewrite <- E. unfold libpow. destruct (Reqb_spec 0 0); [|lra].
    destruct (Reqb_spec (/ INR n) 0) as [F|_]; [exfalso; revert F; now apply Rinv_neq_0_compat|].
    symmetry. apply pow_i. lia.
Qed.

(** ** quadratic and cubic equations *)
Lemma zQESolve_ok a b c : a <> 0 -> (b <> 0 \/ c <> 0) ->
  exists x1 x2, zQESolve (1 / 2) 4 a b c = Some (x1, x2) /\
    forall x : C, Cmult (RtoC a) (Cmult (Cminus x x1) (Cminus x x2))
      = Cplus (Cplus (Cmult (RtoC a) (Cmult x x)) (Cmult (RtoC b) x)) (RtoC c).
Proof.
  intros Ha Hbc. unfold zQESolve. rs. destruct (Reqb_spec a 0); [contradiction|].
  set (d := b * b - 4 * a * c). destruct (Rleb_spec 0 d) as [Hd|Hd].
  - set (s := if Rleb 0 b then sqrt d else - sqrt d). assert (s * s = d) as Es.
    { unfold s. destruct (Rleb 0 b); [now apply sqrt_sqrt|]. replace (- sqrt d * - sqrt d) with (sqrt d * sqrt d) by ring. now apply sqrt_sqrt. }
    set (q := - (1 / 2) * (b + s)). assert (q <> 0) as Hq.
    { unfold q. intros E. assert (b + s = 0) as E1 by lra. pose proof (sqrt_pos d). unfold s in E1.
      destruct (Rleb_spec 0 b); assert (b = 0) by lra; subst b; assert (sqrt d = 0) as E2 by lra;
        apply sqrt_eq_0 in E2; auto; unfold d in E2; destruct Hbc as [|Hc]; try lra; apply Hc; nra. }
    assert (q * q + b * q + a * c = 0) as Eq. { unfold q. unfold d in Es. nra. }
    exists (q / a, 0), (c / q, 0). split; auto. intros (u, v).
    assert (q / a + c / q = - b / a) as S1.
    { apply (Rmult_eq_reg_r (a * q)); [|now apply Rmult_integral_contrapositive].
      replace ((q / a + c / q) * (a * q)) with (q * q + a * c) by (field; auto).
      replace (- b / a * (a * q)) with (- b * q) by (field; auto). lra. }
    assert (q / a * (c / q) = c / a) as S2 by (field; auto).
    set (x1 := q / a) in *. set (x2 := c / q) in *.
    assert (a * (x1 + x2) = - b) as T1 by (rewrite S1; field; auto).
    assert (a * (x1 * x2) = c) as T2 by (rewrite S2; field; auto).
    ceq; rewrite <- ?T2; replace b with (- (a * (x1 + x2))) by lra; ring.
  - assert (a * (1 + 1) <> 0) by lra. set (e := sqrt (- d) / (a * (1 + 1))). set (f := b / - (a * (1 + 1))).
    exists (f, e), (f, - e). split; auto. intros (u, v).
    assert (a * (f + f) = - b) as T1 by (unfold f; field; auto).
    assert (a * (f * f + e * e) = c) as T2.
    { unfold e, f. replace (sqrt (- d) / (a * (1 + 1)) * (sqrt (- d) / (a * (1 + 1)))) with ((sqrt (- d) * sqrt (- d)) / (4 * a * a)) by (field; auto).
      rewrite sqrt_sqrt by lra. unfold d. field. auto. }
    ceq; rewrite <- ?T2; replace b with (- (a * (f + f))) by lra; ring.
Qed.
Lemma zQESolve_null b c : zQESolve (1 / 2) 4 0 b c = None.
Proof. unfold zQESolve. rs. destruct (Reqb_spec 0 0); [auto|lra]. Qed.

Lemma zCbrt_cube x : zCbrt x * zCbrt x * zCbrt x = x.
Proof.
  unfold zCbrt. destruct (Reqb_spec x 0) as [->|N]; [ring|].
  assert (forall y, 0 < y -> libpow y (1 / 3) ^ 3 = y /\ 0 < libpow y (1 / 3)) as P.
  { intros y Hy. rewrite libpow_pos by auto. split; [|apply exp_pos]. rewrite <- Rpower_pow by apply exp_pos.
    unfold Rpower. rewrite ln_exp. replace (INR 3 * (1 / 3 * ln y)) with (ln y) by (cbn; field). now apply exp_ln. }
  set (w := if Rltb 0 x then libpow x (1 / 3) else - libpow (- x) (1 / 3)).
  assert (w * w * w = x /\ w <> 0) as (E & Nw).
  { unfold w. destruct (Rltb_spec 0 x) as [H|H].
    - destruct (P x H) as (E & L). split; [rewrite <- E at 4; ring|lra].
    - destruct (P (- x) ltac:(lra)) as (E & L). split; [|lra]. assert (libpow (- x) (1/3) ^ 3 = - x) by auto. nra. }
  replace (1 / 2 * (w + 3 * x / (2 * w * w + x / w))) with w; auto.
  rewrite <- E. field. split; [auto|]. assert (0 < w * w) by (apply Rsqr_pos_lt in Nw; exact Nw). lra.
Qed.
Lemma cube_inj x y : x * x * x = y * y * y -> x = y.
Proof.
  intros H. assert ((x - y) * (x * x + x * y + y * y) = 0) as E.
  { replace ((x - y) * (x * x + x * y + y * y)) with (x * x * x - y * y * y) by ring. lra. }
  apply Rmult_integral in E. destruct E as [E|E]; [lra|].
  pose proof (Rle_0_sqr (2 * x + y)). pose proof (Rle_0_sqr y). unfold Rsqr in *.
  assert (y * y = 0) as Y by lra. apply Rmult_integral in Y. assert (y = 0) by tauto. subst y.
  assert (x * x = 0) as X by lra. apply Rmult_integral in X. tauto.
Qed.
Lemma cubic_vieta a b c d (x1 x2 x3 : C) :
  Cplus (Cplus x1 x2) x3 = RtoC (- b / a) ->
  Cplus (Cplus (Cmult x1 x2) (Cmult x2 x3)) (Cmult x3 x1) = RtoC (c / a) ->
  Cmult (Cmult x1 x2) x3 = RtoC (- d / a) -> a <> 0 ->
  forall x : C, Cmult (RtoC a) (Cmult (Cmult (Cminus x x1) (Cminus x x2)) (Cminus x x3))
    = Cplus (Cplus (Cplus (Cmult (RtoC a) (Cmult x (Cmult x x))) (Cmult (RtoC b) (Cmult x x))) (Cmult (RtoC c) x)) (RtoC d).
Proof.
  intros E1 E2 E3 Ha x.
  replace (Cmult (RtoC a) (Cmult (Cmult (Cminus x x1) (Cminus x x2)) (Cminus x x3)))
    with (Cminus (Cplus (Cminus (Cmult (RtoC a) (Cmult x (Cmult x x))) (Cmult (Cmult (RtoC a) (Cplus (Cplus x1 x2) x3)) (Cmult x x)))
            (Cmult (Cmult (RtoC a) (Cplus (Cplus (Cmult x1 x2) (Cmult x2 x3)) (Cmult x3 x1))) x))
            (Cmult (RtoC a) (Cmult (Cmult x1 x2) x3))) by ring.
  rewrite E1, E2, E3, <- !RtoC_mult.
  replace (a * (- b / a)) with (- b) by (field; auto). replace (a * (c / a)) with c by (field; auto).
  replace (a * (- d / a)) with (- d) by (field; auto). rewrite !RtoC_opp. ring.
Qed.
Lemma atan2_cos y x : 0 < x * x + y * y -> cos (atan2 y x) = x / sqrt (x * x + y * y).
Proof.
  intros H. pose proof (atan2_polar (x, y)) as E. unfold polar, cabs, carg, sqrabs in E. cbn [fst snd] in E. rs.
  injection E as E1 E2. pose proof (sqrt_lt_R0 _ H).
  apply (Rmult_eq_reg_l (sqrt (x * x + y * y))); [|lra]. rewrite E1. field. lra.
Qed.
Lemma cos_3 x : cos (3 * x) = 4 * cos x * cos x * cos x - 3 * cos x.
Proof.
  replace (3 * x) with (x + 2 * x) by ring. rewrite cos_plus, cos_2a, sin_2a.
  pose proof (sin2_cos2 x) as E. unfold Rsqr in E. replace (sin x * sin x) with (1 - cos x * cos x) by lra.
  replace (sin x * (2 * sin x * cos x)) with (2 * (sin x * sin x) * cos x) by ring.
  replace (sin x * sin x) with (1 - cos x * cos x) by lra. ring.
Qed.
Lemma zCESolve_ok a b c d : a <> 0 ->
  exists x1 x2 x3, zCESolve a b c d = Some (x1, x2, x3) /\
    forall x : C, Cmult (RtoC a) (Cmult (Cmult (Cminus x x1) (Cminus x x2)) (Cminus x x3))
      = Cplus (Cplus (Cplus (Cmult (RtoC a) (Cmult x (Cmult x x))) (Cmult (RtoC b) (Cmult x x))) (Cmult (RtoC c) x)) (RtoC d).
Proof.
  intros Ha. unfold zCESolve. destruct (Reqb_spec a 0); [contradiction|].
  set (b' := b / (3 * a)). set (c' := c / a). set (d' := d / a). set (p := c' / 3 - b' * b').
  set (q := - b' * (2 * b' * b' - c') - d'). set (g := q * q + 4 * p * p * p).
  assert (- b / a = - 3 * b') as Eb by (unfold b'; field; auto).
  assert (- d / a = - d') as Ed by (unfold d'; field; auto).
  assert (3 * p = c' - 3 * b' * b') as Ep by (unfold p; field).
  destruct (Rltb_spec 0 g) as [Hg|Hg].
  - set (w := sqrt g). set (z1 := zCbrt (1 / 2 * (q + w))). set (z2 := zCbrt (1 / 2 * (q - w))).
    assert (w * w = g) as Ew by (apply sqrt_sqrt; lra).
    assert (z1 * z1 * z1 = 1 / 2 * (q + w)) as E1 by apply zCbrt_cube.
    assert (z2 * z2 * z2 = 1 / 2 * (q - w)) as E2 by apply zCbrt_cube.
    assert (z1 * z2 = - p) as E12.
    { apply cube_inj. replace (z1 * z2 * (z1 * z2) * (z1 * z2)) with ((z1 * z1 * z1) * (z2 * z2 * z2)) by ring.
      rewrite E1, E2. replace (1 / 2 * (q + w) * (1 / 2 * (q - w))) with (1 / 4 * (q * q - w * w)) by field. rewrite Ew. unfold g. field. }
    assert (sqrt 3 * sqrt 3 = 3) as E3 by (apply sqrt_sqrt; lra).
    eexists _, _, _; split; [reflexivity|]. apply cubic_vieta; auto; rewrite ?Eb, ?Ed; fold c'; ceq.
    + field.
    + ring.
    + replace c' with (3 * p + 3 * b' * b') by lra. replace p with (- (z1 * z2)) by lra.
      transitivity (- 3 / 4 * (z1 + z2) * (z1 + z2) + 3 * b' * b' + 1 / 4 * (sqrt 3 * sqrt 3) * (z1 - z2) * (z1 - z2)); [field|].
      rewrite E3. field.
    + field.
    + transitivity ((z1 * z1 * z1 + z2 * z2 * z2) * (1/4 + 1/4 * (sqrt 3 * sqrt 3)) + (z1 * z2) * (z1 + z2) * (3/4 - 1/4 * (sqrt 3 * sqrt 3))
         - b' * b' * b' - b' * (- (z1 + z2) * (z1 + z2) + 1 / 4 * (z1 + z2) * (z1 + z2) + 1 / 4 * (sqrt 3 * sqrt 3) * (z1 - z2) * (z1 - z2))).
      * field.
      * rewrite E3, E1, E2. replace (- (z1 + z2) * (z1 + z2) + 1 / 4 * (z1 + z2) * (z1 + z2) + 1 / 4 * 3 * (z1 - z2) * (z1 - z2))
          with (- 3 * (z1 * z2)) by field. rewrite E12. unfold q.  replace c' with (3 * p + 3 * b' * b') by lra. field.
    + field.
  - set (th := if negb (Reqb q 0) then atan2 (sqrt (- g)) q else PI / 2). set (s := sqrt (- p)). set (w := 2 * s).
    assert (p <= 0) as Hp.
    { destruct (Rle_or_lt p 0); auto. exfalso. unfold g in Hg. assert (0 < p * p * p) by (apply Rmult_lt_0_compat; [nra|auto]).
      pose proof (Rle_0_sqr q). unfold Rsqr in *. nra. }
    assert (s * s = - p) as Es by (apply sqrt_sqrt; lra). assert (0 <= s) as Ps by apply sqrt_pos.
    assert (q = 2 * s * s * s * cos th) as Eq.
    { unfold th. destruct (Reqb_spec q 0) as [E|N]; cbn [negb].
      - rewrite E, cos_PI2. ring.
      - assert (q * q + sqrt (- g) * sqrt (- g) = (2 * s * s * s) * (2 * s * s * s)) as E.
        { rewrite sqrt_sqrt by lra. unfold g. replace (2 * s * s * s * (2 * s * s * s)) with (4 * (s * s) * (s * s) * (s * s)) by ring.
          rewrite Es. ring. }
        assert (0 < q * q) by (apply Rsqr_pos_lt in N; exact N).
        rewrite atan2_cos.
        + rewrite E, sqrt_square by nra. field. intros ->. rewrite !Rmult_0_r in E. pose proof (Rle_0_sqr (sqrt (- g))). unfold Rsqr in *. lra.
        + pose proof (Rle_0_sqr (sqrt (- g))). unfold Rsqr in *. lra. }
    set (al := th / 3). assert (cos th = 4 * cos al * cos al * cos al - 3 * cos al) as E3.
    { rewrite <- cos_3. f_equal. unfold al. field. }
    set (C := cos al) in *. set (S := sin al).
    assert (C * C + S * S = 1) as CS by (pose proof (sin2_cos2 al) as X; unfold Rsqr in X; fold C S in X; lra).
    assert (sqrt 3 * sqrt 3 = 3) as Q3 by (apply sqrt_sqrt; lra). set (r := sqrt 3) in *.
    assert (cos ((PI - th) / 3) = 1 / 2 * C + r / 2 * S) as F1.
    { replace ((PI - th) / 3) with (PI / 3 - al) by (unfold al; field). rewrite cos_minus, cos_PI3, sin_PI3. unfold C, S, r. field. }
    assert (cos ((PI + th) / 3) = 1 / 2 * C - r / 2 * S) as F2.
    { replace ((PI + th) / 3) with (PI / 3 + al) by (unfold al; field). rewrite cos_plus, cos_PI3, sin_PI3. unfold C, S, r. field. }
    rewrite F1, F2.
    eexists _, _, _; split; [reflexivity|]. apply cubic_vieta; auto; rewrite ?Eb, ?Ed; fold c'; ceq; try ring; unfold w.
    + field.
    + replace c' with (3 * p + 3 * b' * b') by lra. replace p with (- (s * s)) by lra.
      transitivity (s * s * (- 3 * (C * C) - r * r * (S * S)) + 3 * b' * b'); [field|]. rewrite Q3.
      replace (S * S) with (1 - C * C) by lra. ring.
    + transitivity (2 * s * s * s * (C * (C * C) - C * (r * r) * (S * S)) + b' * (s * s * (3 * (C * C) + r * r * (S * S))) - b' * b' * b'); [field|].
      rewrite Q3. replace (S * S) with (1 - C * C) by lra.
      replace (2 * s * s * s * (C * (C * C) - C * 3 * (1 - C * C))) with (2 * s * s * s * cos th) by (rewrite E3; ring).
      rewrite <- Eq, Es. unfold q. replace c' with (3 * p + 3 * b' * b') by lra. ring.
Qed.
