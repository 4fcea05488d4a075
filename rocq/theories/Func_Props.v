(** C120: scalar functions.  The statements use only functions of the standard library of real numbers. *)
From Coq Require Import Reals Lra PrimFloat.
From Verif Require Import Prelude Prelude_Proofs Scalar RealLib Complex_Model Complex_Proofs Complex_Props Func_Model.
From Coquelicot Require Import Coquelicot.
From Coq Require Import List ZArith.
Local Open Scope R_scope.

(** ** phase *)
(** atan2 of Complex_Model is libm's: the angle of a point *)
Lemma atan2_range y x : - PI < atan2 y x <= PI.
Proof.
  pose proof PI_RGT_0. unfold atan2. destruct (Rltb_spec 0 x).
  - pose proof (atan_bound (y / x)). lra.
  - destruct (Rltb_spec x 0).
    + pose proof (atan_bound (y / x)). destruct (Rleb_spec 0 y).
      * assert (y / x <= 0) as Q. { unfold Rdiv. assert (/ x < 0) by now apply Rinv_lt_0_compat. nra. }
        assert (atan (y / x) <= 0). { destruct Q as [Q|Q]; [left; rewrite <- atan_0; now apply atan_increasing|rewrite Q, atan_0; lra]. } lra.
      * assert (0 < y / x) as Q. { unfold Rdiv. assert (/ x < 0) by now apply Rinv_lt_0_compat. nra. }
        assert (0 < atan (y / x)). { rewrite <- atan_0 at 1. now apply atan_increasing. } lra.
    + destruct (Rltb_spec 0 y); [lra|]. destruct (Rltb_spec y 0); lra.
Qed.
Lemma cos_eq_1 t : - (2 * PI) < t < 2 * PI -> cos t = 1 -> t = 0.
Proof.
  intros H E. pose proof PI_RGT_0. destruct (Req_dec t 0) as [|N]; auto. exfalso.
  assert (forall u, 0 < u < 2 * PI -> cos u <> 1) as G.
  { intros u Hu Eu. assert (0 < sin (u / 2)) as S1 by (apply sin_gt_0; lra).
    assert (cos u = 1 - 2 * sin (u / 2) * sin (u / 2)) as C by (rewrite <- cos_2a_sin; f_equal; field). nra. }
  destruct (Rlt_le_dec 0 t); [apply (G t); auto; lra|]. apply (G (- t)); [lra|]. now rewrite cos_neg.
Qed.
Lemma same_angle s t : - PI < s <= PI -> - PI < t <= PI -> cos s = cos t -> sin s = sin t -> s = t.
Proof.
  intros H1 H2 C S1. assert (s - t = 0); [|lra]. apply cos_eq_1; [lra|]. rewrite cos_minus, C, S1.
  pose proof (sin2_cos2 t) as Q. unfold Rsqr in Q. lra.
Qed.
Lemma sin_per a (k : Z) : sin (a + IZR k * (2 * PI)) = sin a /\ cos (a + IZR k * (2 * PI)) = cos a.
Proof.
  assert (forall n b, sin (b + INR n * (2 * PI)) = sin b /\ cos (b + INR n * (2 * PI)) = cos b) as G.
  { intros n b. replace (b + INR n * (2 * PI)) with (b + 2 * INR n * PI) by ring. split; [apply sin_period|apply cos_period]. }
  destruct (Z_le_gt_dec 0 k) as [H|H].
  - rewrite <- (Z2Nat.id k) by auto. rewrite <- INR_IZR_INZ. apply G.
  - destruct (G (Z.to_nat (- k)) (a + IZR k * (2 * PI))) as (E1 & E2). rewrite INR_IZR_INZ, Z2Nat.id, opp_IZR in E1, E2 by lia.
    replace (a + IZR k * (2 * PI) + - IZR k * (2 * PI)) with a in E1, E2 by ring. auto.
Qed.
(** the value between -pi and pi that differs from the angle by whole turns: it exists, and there is one *)
Theorem C120_phase angle : let p := zPhaseNormalize sin cos atan2 angle in
  - PI < p <= PI /\ (exists k : Z, angle = p + IZR k * (2 * PI)) /\
  (forall q (k : Z), - PI < q <= PI -> angle = q + IZR k * (2 * PI) -> q = p).
Proof.
  cbv zeta. unfold zPhaseNormalize. set (p := atan2 (sin angle) (cos angle)).
  assert (- PI < p <= PI) as R1 by apply atan2_range.
  assert (polar 1 p = (cos angle, sin angle)) as E.
  { pose proof (atan2_polar (cos angle, sin angle)) as E. unfold cabs, carg, sqrabs in E. cbn [fst snd] in E. rs.
    assert (sqrt (cos angle * cos angle + sin angle * sin angle) = 1) as Q.
    { pose proof (sin2_cos2 angle) as Q. unfold Rsqr in Q. replace (cos angle * cos angle + sin angle * sin angle) with 1 by lra. apply sqrt_1. }
    rewrite Q in E. exact E. }
  unfold polar in E. injection E as E1 E2. rewrite Rmult_1_l in E1, E2.
  assert (forall q (k : Z), - PI < q <= PI -> angle = q + IZR k * (2 * PI) -> q = p) as U.
  { intros q k Hq Ek. destruct (sin_per q k) as (S1 & C1). rewrite <- Ek in S1, C1. apply same_angle; auto; congruence. }
  split; auto. split; auto.
  (* existence: take whole turns off *)
  pose proof PI_RGT_0 as HP. set (x := (angle + PI) / (2 * PI)). destruct (archimed (- x)) as (A1 & A2).
  set (k := (- up (- x))%Z). assert (x - 1 <= IZR k < x) as (K1 & K2) by (unfold k; rewrite opp_IZR; lra).
  exists k. assert (angle = 2 * PI * x - PI) as EA by (unfold x; field; lra).
  rewrite <- (U (angle - IZR k * (2 * PI)) k); [ring| |ring].
  assert (2 * PI * (x - 1) <= 2 * PI * IZR k) by (apply Rmult_le_compat_l; lra).
  assert (2 * PI * IZR k < 2 * PI * x) by (apply Rmult_lt_compat_l; lra). lra.
Qed.
Example C120_phase_case : zPhaseNormalize sin cos atan2 (5 * PI) = PI.
Proof.
  destruct (C120_phase (5 * PI)) as (_ & _ & U). symmetry. apply (U PI 2%Z); [pose proof PI_RGT_0; lra|ring].
Qed.

(** ** cycloid *)
Theorem C120_cycloid p : let X := zCycloidX sin (2 * PI) in let Y := zCycloidY cos (2 * PI) (/ 2) in
  X 0 = 0 /\ X 1 = 1 /\ Y 0 = 0 /\ Y 1 = 0 /\ Y (1/2) = 1 /\ 0 <= Y p <= 1 /\
  (** the trace of a point of a rolling wheel whose centre is at p *)
  ((X p - p) * (2 * PI)) ^ 2 + (1 - 2 * Y p) ^ 2 = 1 /\
  (** it starts and ends at rest, and moves forward *)
  is_derive X p (2 * Y p) /\ is_derive Y p (PI * sin (2 * PI * p)) /\ (forall q, p < q -> X p < X q) /\
  X (1 - p) = 1 - X p /\ Y (1 - p) = Y p /\ X (p + 1) = X p + 1 /\ Y (p + 1) = Y p.
Proof.
  cbv zeta. pose proof PI_RGT_0 as HP. unfold zCycloidX, zCycloidY. rs.
  pose proof (COS_bound (2 * PI * p)) as CB.
  assert (forall t, is_derive (fun phase => phase - sin (2 * PI * phase) / (2 * PI)) t (2 * (/ 2 * (1 - cos (2 * PI * t))))) as DX.
  { intros t. auto_derive; auto. field. lra. }
  assert (sin (2 * PI * (1 - p)) = - sin (2 * PI * p) /\ cos (2 * PI * (1 - p)) = cos (2 * PI * p)) as (R1 & R2).
  { destruct (sin_per (- (2 * PI * p)) 1) as (A & B). replace (2 * PI * (1 - p)) with (- (2 * PI * p) + 1 * (2 * PI)) by ring.
    rewrite A, B, sin_neg, cos_neg. auto. }
  assert (sin (2 * PI * (p + 1)) = sin (2 * PI * p) /\ cos (2 * PI * (p + 1)) = cos (2 * PI * p)) as (T1 & T2).
  { destruct (sin_per (2 * PI * p) 1) as (A & B). replace (2 * PI * (p + 1)) with (2 * PI * p + 1 * (2 * PI)) by ring. auto. }
  split. { rewrite Rmult_0_r, sin_0. field. lra. }
  split. { rewrite Rmult_1_r, sin_2PI. field. lra. }
  split. { rewrite Rmult_0_r, cos_0. ring. }
  split. { rewrite Rmult_1_r, cos_2PI. ring. }
  split. { replace (2 * PI * (1/2)) with PI by field. rewrite cos_PI. field. }
  split; [lra|].
  split. { pose proof (sin2_cos2 (2 * PI * p)) as Q. unfold Rsqr in Q. 
    replace ((p - sin (2 * PI * p) / (2 * PI) - p) * (2 * PI)) with (- sin (2 * PI * p)) by (field; lra).
    replace (1 - 2 * (/ 2 * (1 - cos (2 * PI * p)))) with (cos (2 * PI * p)) by field. rewrite <- Q. ring. }
  split; [apply DX|]. split. { auto_derive; auto. field. }
  split.
  { (* X is increasing: X q - X p = (q - p) - (sin b - sin a)/2pi and |sin b - sin a| < b - a *)
    intros q Hq. assert (0 < PI * (q - p)) as HD by (apply Rmult_lt_0_compat; lra).
    assert (sin (2 * PI * q) - sin (2 * PI * p) < 2 * (PI * (q - p))) as B.
    { rewrite form4. replace ((2 * PI * q - 2 * PI * p) / 2) with (PI * (q - p)) by field.
      set (u := PI * (q - p)) in *. pose proof (COS_bound ((2 * PI * q + 2 * PI * p) / 2)) as C2. set (w := cos ((2 * PI * q + 2 * PI * p) / 2)) in *.
      assert (sin u < u) by now apply sin_lt_x. assert (- u < sin u).
      { destruct (Rle_lt_dec u PI); [pose proof (sin_ge_0 u ltac:(lra) ltac:(lra)); lra|pose proof (SIN_bound u); pose proof PI2_3_2; unfold PI2 in *; lra]. }
      assert (w * sin u <= Rabs (sin u)).
      { eapply Rle_trans; [apply Rle_abs|]. rewrite Rabs_mult. assert (Rabs w <= 1) by (apply Rabs_le; lra). pose proof (Rabs_pos (sin u)). nra. }
      assert (Rabs (sin u) < u) by (apply Rabs_def1; lra). lra. }
    assert ((sin (2 * PI * q) - sin (2 * PI * p)) / (2 * PI) < q - p); [|unfold Rdiv in *; lra].
    apply (Rmult_lt_reg_r (2 * PI)); [lra|]. unfold Rdiv. rewrite Rmult_assoc, Rinv_l by lra. lra. }
  rewrite R1, R2, T1, T2. split; [field; lra|]. split; auto. split; [field; lra|auto].
Qed.

(** ** sigmoid *)
Theorem C120_sigmoid x : let s := zSigmoid exp in
  0 < s x < 1 /\ s 0 = / 2 /\ s (- x) = 1 - s x /\ is_derive s x (s x * (1 - s x)) /\ (forall y, x < y -> s x < s y) /\
  ln (s x / (1 - s x)) = x.
Proof.
  cbv zeta. unfold zSigmoid. rs. pose proof (exp_pos (- x)) as E. pose proof (exp_pos x) as E'.
  assert (0 < / (1 + exp (- x))) as I by (apply Rinv_0_lt_compat; lra).
  assert (1 / (1 + exp (- x)) * (1 + exp (- x)) = 1) as K by (field; lra).
  assert (exp x * exp (- x) = 1) as EE by (rewrite <- exp_plus, Rplus_opp_r; apply exp_0).
  split. { unfold Rdiv in *. rewrite Rmult_1_l in *. split; auto. nra. }
  split. { rewrite Ropp_0, exp_0. field. }
  split. { rewrite Ropp_involutive. apply (Rmult_eq_reg_r ((1 + exp x) * (1 + exp (- x)))); [field_simplify; nra|nra]. }
  split. { auto_derive; [lra|]. field. lra. }
  split. { intros y H. pose proof (exp_pos (- y)). assert (exp (- y) < exp (- x)) by (apply exp_increasing; lra).
    unfold Rdiv. rewrite !Rmult_1_l. apply Rinv_lt_contravar; nra. }
  replace (1 / (1 + exp (- x)) / (1 - 1 / (1 + exp (- x)))) with (exp x); [apply ln_exp|].
  replace (1 - 1 / (1 + exp (- x))) with (exp (- x) / (1 + exp (- x))) by (field; lra).
  apply (Rmult_eq_reg_r (exp (- x))); [rewrite EE; field; lra|lra].
Qed.

(** ** cube root: the correction cubes the relative error of the power function *)
Theorem C120_cube_root third x c d : c * c * c = x -> 0 <= d <= / 10 ->
  Rabs (third (Rabs x) - Rabs c) <= d * Rabs c -> Rabs (zCbrtBy third (/ 2) x - c) <= d ^ 3 * Rabs c.
Proof.
  intros EC Hd H. unfold zCbrtBy. rs.
  (* the positive case *)
  assert (forall w a, 0 < a -> Rabs (w - a) <= d * a ->
    Rabs (/ 2 * (w + 3 * (a * a * a) / (2 * w * w + a * a * a / w)) - a) <= d ^ 3 * a) as POS.
  { intros w a Ha HW. apply Rabs_le_between in HW. assert (9/10 * a <= w) as W1 by nra. assert (0 < w) by lra. assert (w <= 11/10 * a) as W2 by nra.
    assert (0 < w * w * w) by (repeat apply Rmult_lt_0_compat; auto). assert (0 < a * a * a) by (repeat apply Rmult_lt_0_compat; auto).
    assert (/ 2 * (w + 3 * (a * a * a) / (2 * w * w + a * a * a / w)) - a = (w - a) * (w - a) * (w - a) * ((w + a) / (2 * (w * w * w) + a * a * a))) as ->.
    { field. repeat split; try lra. }
    assert (0 <= (w + a) / (2 * (w * w * w) + a * a * a) * (a * a) <= 1) as (Q1 & Q2).
    { split.
      - apply Rmult_le_pos; [|nra]. unfold Rdiv. apply Rmult_le_pos; [lra|]. left. apply Rinv_0_lt_compat. lra.
      - apply (Rmult_le_reg_r (2 * (w * w * w) + a * a * a)); [lra|].
        replace ((w + a) / (2 * (w * w * w) + a * a * a) * (a * a) * (2 * (w * w * w) + a * a * a)) with ((w + a) * (a * a)) by (field; lra).
        assert (729/1000 * (a * a * a) <= w * w * w).
        { assert (81/100 * (a * a) <= w * w) by nra. nra. }
        assert (w * (a * a) <= 11/10 * (a * a * a)) by nra. lra. }
    set (k := (w + a) / (2 * (w * w * w) + a * a * a)) in *. clearbody k.
    rewrite !Rabs_mult. set (t := Rabs (w - a)). assert (0 <= t <= d * a) as (T0 & T1).
    { unfold t. split; [apply Rabs_pos|]. apply Rabs_le. lra. }
    assert (0 <= k) as K0. { assert (0 < a * a) by nra. destruct (Rle_lt_dec 0 k); auto. exfalso. nra. }
    rewrite (Rabs_pos_eq k) by auto.
    assert (t * t * t <= d * a * (d * a) * (d * a)). { assert (t * t <= d * a * (d * a)) by nra. assert (0 <= t * t) by nra. nra. }
    assert (t * t * t * k <= d * a * (d * a) * (d * a) * k) by nra.
    assert (d * a * (d * a) * (d * a) * k = d ^ 3 * a * (k * (a * a))) as QQ by ring.
    assert (0 <= d ^ 3 * a). { apply Rmult_le_pos; [apply pow_le|]; lra. }
    nra. }
  destruct (Reqb_spec x 0) as [Z|N].
  - assert (c = 0) as ->. { rewrite Z in EC. apply Rmult_integral in EC. destruct EC as [EC| ]; auto. apply Rmult_integral in EC. tauto. }
    rewrite Rminus_0_r, Rabs_R0. lra.
  - destruct (Rltb_spec 0 x) as [P|P].
    + assert (0 < c) as HC. { destruct (Rle_lt_dec c 0) as [L|]; auto. exfalso. assert (0 <= c * c) by nra. nra. }
      rewrite (Rabs_pos_eq x), (Rabs_pos_eq c) in H by lra. rewrite (Rabs_pos_eq c) by lra. rewrite <- EC in *. now apply POS.
    + assert (c < 0) as HC. { destruct (Rle_lt_dec 0 c) as [L|]; auto. exfalso. assert (0 <= c * c) by nra. nra. }
      rewrite (Rabs_left x), (Rabs_left c) in H by lra. rewrite (Rabs_left c) by lra.
      pose proof (POS (third (- x)) (- c) ltac:(lra) H) as Q.
      set (w := third (- x)) in *. assert (0 < w). { apply Rabs_le_between in H. nra. }
      match goal with |- Rabs ?u <= _ => match type of Q with Rabs ?v <= _ => replace u with (- v); [now rewrite Rabs_Ropp|] end end.
      rewrite <- EC. assert (0 < - (c * c * c)) by (rewrite EC; lra). assert (0 < w * w * w) by (repeat apply Rmult_lt_0_compat; auto).
      field. repeat split; nra.
Qed.
Example C120_cube_root_case : let third := fun _ : R => 2.01 in 2 * 2 * 2 = 8 /\ Rabs (third (Rabs 8) - Rabs 2) <= / 100 * Rabs 2 /\ third (Rabs 8) <> 2 /\
  Rabs (zCbrtBy third (/ 2) 8 - 2) <= (/ 100) ^ 3 * 2.
Proof.
  cbv zeta. assert (Rabs (2.01 - Rabs 2) <= / 100 * Rabs 2) as H. { rewrite (Rabs_pos_eq 2) by lra. rewrite Rabs_pos_eq; lra. }
  split; [ring|]. split; auto. split; [lra|]. rewrite <- (Rabs_pos_eq 2) at 3 by lra. apply C120_cube_root; auto; lra.
Qed.
(** exactly the cube root, when the power is exact *)
Theorem C120_cube_root_exact x : zCbrtBy (fun a => libpow a (1 / 3)) (/ 2) x * zCbrtBy (fun a => libpow a (1 / 3)) (/ 2) x * zCbrtBy (fun a => libpow a (1 / 3)) (/ 2) x = x.
Proof.
  assert (forall a, 0 < a -> libpow a (1/3) * libpow a (1/3) * libpow a (1/3) = a) as L.
  { intros a Ha. unfold libpow. destruct (Reqb_spec a 0); [lra|]. rewrite <- !Rpower_plus. replace (1/3 + 1/3 + 1/3) with 1 by field. now apply Rpower_1. }
  assert (exists c, c * c * c = x /\ libpow (Rabs x) (1/3) = Rabs c) as (c & EC & EL).
  { destruct (Rtotal_order x 0) as [G|[G|G]].
    - exists (- libpow (- x) (1/3)). pose proof (L (- x) ltac:(lra)). split; [lra|]. rewrite Rabs_left by auto.
      rewrite Rabs_Ropp, Rabs_pos_eq; auto. unfold libpow. destruct (Reqb_spec (- x) 0); [lra|]. left. apply exp_pos.
    - exists 0. subst. split; [ring|]. rewrite Rabs_R0. unfold libpow. destruct (Reqb_spec 0 0); [|lra]. destruct (Reqb_spec (1/3) 0); lra.
    - exists (libpow x (1/3)). pose proof (L x G). split; [lra|]. rewrite Rabs_pos_eq by lra.
      rewrite Rabs_pos_eq; auto. unfold libpow. destruct (Reqb_spec x 0); [lra|]. left. apply exp_pos. }
  pose proof (C120_cube_root (fun a => libpow a (1/3)) x c 0 EC ltac:(lra)) as H. cbv beta in H. rewrite EL, Rminus_eq_0, Rabs_R0, Rmult_0_l in H.
  specialize (H (Rle_refl 0)). replace (0 ^ 3) with 0 in H by ring. rewrite Rmult_0_l in H.
  pose proof (Rabs_pos (zCbrtBy (fun a => libpow a (1/3)) (/ 2) x - c)). destruct (Req_dec (zCbrtBy (fun a => libpow a (1/3)) (/ 2) x - c) 0) as [Q|Q].
  - apply Rminus_diag_uniq in Q. rewrite Q. exact EC.
  - apply Rabs_no_R0 in Q. lra.
Qed.

(** ** integer parts; [Rfloor] is the largest integer not above a number *)
Definition Rfloor (x : R) : R := IZR (up x - 1).
Lemma Rfloor_spec x : Rfloor x <= x < Rfloor x + 1.
Proof. unfold Rfloor. rewrite minus_IZR. destruct (archimed x). lra. Qed.
Definition Rtrunc (x : R) : Z := if Rle_dec 0 x then (up x - 1)%Z else (- (up (- x) - 1))%Z.
(** the rest of a division lies between 0 and the divisor *)
Theorem C120_fraction x y : y <> 0 -> let r := zFruct Rfloor x y in
  (exists k : Z, x = r + IZR k * y) /\ (0 < y -> 0 <= r < y) /\ (y < 0 -> y < r <= 0).
Proof.
  cbv zeta. intros N. unfold zFruct. rs. split; [exists (up (x / y) - 1)%Z; unfold Rfloor; ring|].
  pose proof (Rfloor_spec (x / y)) as (A & B). assert (x = x / y * y) as E by (field; auto). split; intros H; nra.
Qed.
(** the next integer away from zero *)
Theorem C120_ceil x : let r := zCeil (fun x => - Rfloor (- x)) Rfloor x in
  (exists k : Z, r = IZR k) /\ Rabs x <= Rabs r < Rabs x + 1 /\ 0 <= r * x.
Proof.
  cbv zeta. unfold zCeil. rs. pose proof (Rfloor_spec x) as (A & B). pose proof (Rfloor_spec (- x)) as (A' & B'). destruct (Rleb_spec 0 x).
  - split; [exists (- (up (- x) - 1))%Z; unfold Rfloor; rewrite opp_IZR; reflexivity|]. rewrite !Rabs_pos_eq by lra. split; [lra|nra].
  - split; [exists (up x - 1)%Z; reflexivity|]. rewrite (Rabs_left x), (Rabs_left (Rfloor x)) by lra. split; [lra|nra].
Qed.
(** rounding: a nearest integer, halves away from zero, the same for both signs; numbers that fit in int *)
Theorem C120_round_partial x : Rabs x < 2147483647 -> exists (k : Z), zRound Rtrunc (/ 2) x = Ok (IZR k) /\ Rabs (IZR k - x) <= / 2 /\
  (Rabs (IZR k - x) = / 2 -> Rabs x < Rabs (IZR k)) /\ zRound Rtrunc (/ 2) (- x) = Ok (IZR (- k)).
Proof.
  intros H.
  assert (forall a, 0 <= a -> a < 2147483647 -> exists k : Z, (0 <= k <= 2147483647)%Z /\ Rtrunc (a + / 2) = k /\ IZR k <= a + / 2 < IZR k + 1 /\ (a <> 0 -> Rtrunc (- a - / 2) = (- k)%Z)) as G.
  { intros a H0 H1. pose proof (Rfloor_spec (a + / 2)) as (A & B). exists (up (a + / 2) - 1)%Z. unfold Rfloor in *.
    split. { split; [apply Z.lt_succ_r; apply lt_IZR; rewrite succ_IZR; lra|apply Z.lt_succ_r; apply lt_IZR; rewrite succ_IZR; lra]. }
    split; [unfold Rtrunc; destruct (Rle_dec 0 (a + / 2)); auto; lra|]. split; auto.
    intros Na. unfold Rtrunc. destruct (Rle_dec 0 (- a - / 2)); [lra|]. do 3 f_equal. lra. }
  destruct (G (Rabs x) (Rabs_pos x) H) as (k & Hk & E & (B1 & B2) & EN).
  assert (forall y, 0 <= y -> y = Rabs x -> zRound Rtrunc (/ 2) y = Ok (IZR k)) as P1.
  { intros y Hy ->. unfold zRound, to_int. rs. destruct (Rleb_spec 0 (Rabs x)); [|lra]. rewrite E.
    destruct (Z.leb_spec (-2147483648) k); [|lia]. destruct (Z.leb_spec k 2147483647); [reflexivity|lia]. }
  assert (forall y, y < 0 -> - y = Rabs x -> zRound Rtrunc (/ 2) y = Ok (IZR (- k))) as P2.
  { intros y Hy EY. unfold zRound, to_int. rs. destruct (Rleb_spec 0 y); [lra|]. replace y with (- Rabs x) by lra. rewrite EN by lra.
    destruct (Z.leb_spec (-2147483648) (- k)); [|lia]. destruct (Z.leb_spec (- k) 2147483647); [reflexivity|lia]. }
  assert (0 <= IZR k) as K0 by (apply IZR_le; lia).
  destruct (Rtotal_order x 0) as [L|[L|L]].
  - assert (Rabs x = - x) as EX by now apply Rabs_left. exists (- k)%Z. split; [apply P2; lra|]. rewrite opp_IZR, EX in *.
    split; [apply Rabs_le; lra|]. split; [|rewrite Z.opp_involutive; apply P1; lra].
    rewrite Rabs_Ropp, (Rabs_pos_eq (IZR k)) by auto. unfold Rabs. destruct (Rcase_abs (- IZR k - x)); intros; lra.
  - subst x. rewrite Rabs_R0 in *. assert (k = 0)%Z as ->. { apply Z.le_antisymm; [|lia]. apply Z.lt_succ_r. apply lt_IZR. rewrite succ_IZR. lra. }
    exists 0%Z. split; [apply P1; auto; lra|]. rewrite Rminus_0_r, Rabs_R0. split; [lra|]. split; [lra|]. rewrite Ropp_0. apply P1; auto; lra.
  - assert (Rabs x = x) as EX by (apply Rabs_pos_eq; lra). exists k. split; [apply P1; lra|]. rewrite EX in *.
    split; [apply Rabs_le; lra|]. split; [|apply P2; lra]. rewrite (Rabs_pos_eq (IZR k)) by auto. unfold Rabs. destruct (Rcase_abs (IZR k - x)); intros; lra.
Qed.
Theorem C120_sign x : (0 <= x -> zSgn x = 1%Z) /\ (x < 0 -> zSgn x = (-1)%Z) /\ IZR (zSgn x) * Rabs x = x.
Proof.
  unfold zSgn. rs. destruct (Rleb_spec 0 x); split; intros; auto; try lra; split; intros; auto; try lra; [rewrite Rabs_pos_eq|rewrite Rabs_left]; lra.
Qed.

(** equality up to a tolerance is reflexive and symmetric, and equality for tolerance 0 *)
Theorem C120_equal a b tol : 0 <= tol -> zEqual a a tol = true /\ zEqual a b tol = zEqual b a tol /\
  (zEqual a b tol = true <-> Rabs (a - b) <= tol * Rmax 1 (Rmax (Rabs a) (Rabs b))) /\ (zEqual a b 0 = true <-> a = b).
Proof.
  intros H. assert (forall a b t, zEqual a b t = true <-> Rabs (a - b) <= t * Rmax 1 (Rmax (Rabs a) (Rabs b))) as E by exact zEqual_R.
  split. { apply E. rewrite Rminus_eq_0, Rabs_R0. apply Rmult_le_pos; auto. eapply Rle_trans; [|apply Rmax_l]. lra. }
  split. { pose proof (E a b tol) as E1. pose proof (E b a tol) as E2. rewrite Rabs_minus_sym, (Rmax_comm (Rabs b)) in E2.
    destruct (zEqual a b tol), (zEqual b a tol); auto; [symmetry; apply E2, E1|apply E1, E2]; auto. }
  split; [apply E|]. rewrite E, Rmult_0_l. split; intros Q.
  - apply Rminus_diag_uniq. pose proof (Rabs_pos (a - b)). destruct (Req_dec (a - b) 0) as [|N]; auto. apply Rabs_no_R0 in N. lra.
  - subst. rewrite Rminus_eq_0, Rabs_R0. lra.
Qed.
(** but not transitive *)
Theorem C120_equal_refuted : exists a b c tol : R, 0 < tol /\ zEqual a b tol = true /\ zEqual b c tol = true /\ zEqual a c tol = false.
Proof.
  exists 0, (1/2), 1, (1/2). split; [lra|]. assert (forall a b t, zEqual a b t = true <-> Rabs (a - b) <= t * Rmax 1 (Rmax (Rabs a) (Rabs b))) as E by exact zEqual_R.
  assert (Rmax 1 (Rmax (Rabs 0) (Rabs (1/2))) = 1) as M1. { rewrite Rabs_R0, Rabs_pos_eq by lra. rewrite (Rmax_right 0) by lra. apply Rmax_left. lra. }
  assert (Rmax 1 (Rmax (Rabs (1/2)) (Rabs 1)) = 1) as M2. { rewrite !Rabs_pos_eq by lra. rewrite (Rmax_right (1/2)) by lra. apply Rmax_left. lra. }
  assert (Rmax 1 (Rmax (Rabs 0) (Rabs 1)) = 1) as M3. { rewrite Rabs_R0, Rabs_pos_eq by lra. rewrite (Rmax_right 0) by lra. apply Rmax_left. lra. }
  split; [apply E; rewrite M1, Rabs_minus_sym, Rabs_pos_eq; lra|]. split; [apply E; rewrite M2, Rabs_minus_sym, Rabs_pos_eq; lra|].
  apply Bool.not_true_iff_false. rewrite E, M3, Rabs_minus_sym, Rabs_pos_eq; lra.
Qed.

(** ** what floating-point numbers do to them *)
(** the largest number below one half is rounded to one *)
Theorem C120_round_refuted (trunc : float -> Z) : trunc 1%float = 1%Z ->
  zRound trunc 0x1p-1%float 0x1.fffffffffffffp-2%float = Ok 1%float /\ PrimFloat.ltb 0x1.fffffffffffffp-2 0x1p-1 = true.
Proof.
  intros H. split; [|reflexivity]. unfold zRound, to_int. change (sle _ _) with true. cbv iota.
  change (@sadd float FloatS 0x1.fffffffffffffp-2 0x1p-1)%float with 1%float. rewrite H. reflexivity.
Qed.
(** numbers out of the range of int are not rounded *)
Theorem C120_round_range_refuted : zRound Rtrunc (/ 2) 3000000000 = UB.
Proof.
  unfold zRound, to_int. rs. destruct (Rleb_spec 0 3000000000); [|lra]. unfold Rtrunc. destruct (Rle_dec 0 (3000000000 + / 2)); [|lra].
  destruct (archimed (3000000000 + / 2)) as (A & B). destruct (Z.leb_spec (up (3000000000 + / 2) - 1) 2147483647) as [Q|Q]; [|rewrite Bool.andb_false_r; reflexivity].
  exfalso. apply IZR_le in Q. rewrite minus_IZR in Q. lra.
Qed.
(** the rest of a tiny negative number divided by one is one, not less *)
Theorem C120_fraction_refuted (ffloor : float -> float) : ffloor (-0x1p-60)%float = (-1)%float -> zFruct ffloor (-0x1p-60)%float 1%float = 1%float.
Proof.
  intros H. unfold zFruct. change (@sdiv float FloatS (-0x1p-60) 1)%float with (-0x1p-60)%float. rewrite H. reflexivity.
Qed.

Print Assumptions C120_phase.
Print Assumptions C120_cycloid.
Print Assumptions C120_sigmoid.
Print Assumptions C120_cube_root.
Print Assumptions C120_cube_root_exact.
Print Assumptions C120_round_partial.
Print Assumptions C120_round_refuted.
