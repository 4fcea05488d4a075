(** C99: error, gamma and beta functions.  C100: Fresnel integrals. *)
From Coq Require Import Reals Lra Lia List Arith ZArith.
From Coquelicot Require Import Coquelicot.
From Verif Require Import Prelude Scalar RealLib Curve_Model Curve2_Proofs Sf_Model Sf_Proofs Sf2_Proofs.
Local Open Scope R_scope.

(** ** C99 *)
(** the error function *)
Definition erf (x : R) : R := 2 / sqrt PI * RInt (fun t => exp (- t ^ 2)) 0 x.
Lemma erf_d t : derivable_pt_lim (fun x => RInt (fun t => exp (- t ^ 2)) 0 x) t (exp (- (t * t))).
Proof.
  apply is_derive_Reals. replace (t * t) with (t ^ 2) by ring. apply (RInt_derive (fun t => exp (- t ^ 2))).
  intros u. apply continuity_pt_filterlim. apply derivable_continuous_pt. reg.
Qed.
Lemma erf_odd x : erf (- x) = - erf x.
Proof.
  unfold erf. rewrite Ropp_mult_distr_r. f_equal.
  assert (H : is_RInt (fun y => opp (exp (- (- y) ^ 2))) 0 x (RInt (fun t => exp (- t ^ 2)) (- 0) (- x))).
  { apply (is_RInt_comp_opp (V := R_NormedModule) (fun t => exp (- t ^ 2))). apply (RInt_correct (V := R_CompleteNormedModule)). apply (ex_RInt_continuous (V := R_CompleteNormedModule)).
    intros u _. apply continuity_pt_filterlim. apply derivable_continuous_pt. reg. }
  rewrite Ropp_0 in H. apply (is_RInt_unique (V := R_CompleteNormedModule)) in H. rewrite <- H.
  rewrite (RInt_ext _ (fun t => scal (-1) (exp (- t ^ 2)))).
  - rewrite (RInt_scal (V := R_CompleteNormedModule)). { unfold scal. cbn. unfold mult. cbn. ring. }
    apply (ex_RInt_continuous (V := R_CompleteNormedModule)). intros u _. apply continuity_pt_filterlim. apply derivable_continuous_pt. reg.
  - intros u _. unfold opp, scal, mult. cbn. unfold mult. cbn. replace (- u * (- u * 1)) with (u * (u * 1)) by ring. ring.
Qed.
(** With n >= 0 the answer misses the error function by at most the first omitted term of its series. *)
Theorem C99_erf : forall x (n : nat), Rabs (zErfN PI x (Z.of_nat n) - erf x) <= 2 / sqrt PI * (Rabs x ^ (2 * n + 3) / (INR (fact (n + 1)) * INR (2 * n + 3))).
Proof.
  assert (Main : forall x (n : nat), 0 <= x -> Rabs (zErfN PI x (Z.of_nat n) - erf x) <= 2 / sqrt PI * (x ^ (2 * n + 3) / (INR (fact (n + 1)) * INR (2 * n + 3)))).
  { intros x n Hx. rewrite zErfN_R. replace (Z.to_nat (Z.of_nat n + 1)) with (n + 1)%nat by lia. unfold erf. rewrite <- Rmult_minus_distr_l, Rabs_mult.
    assert (P : 0 < 2 / sqrt PI). { apply Rdiv_lt_0_compat; [lra|]. apply sqrt_lt_R0, PI_RGT_0. }
    rewrite (Rabs_right (2 / sqrt PI)) by lra. apply Rmult_le_compat_l; [lra|]. rewrite Rabs_minus_sym. replace (2 * n + 3)%nat with (S (2 * (n + 1))) by lia.
    apply (erf_sum_err (fun x => RInt (fun t => exp (- t ^ 2)) 0 x)); auto; [apply (RInt_point (V := R_CompleteNormedModule))|intros; apply erf_d]. }
  intros x n. destruct (Rle_or_lt 0 x) as [H|H]. { rewrite (Rabs_right x) by lra. now apply Main. }
  rewrite (Rabs_left x) by lra. specialize (Main (- x) n ltac:(lra)). rewrite erf_odd, zErfN_R, erf_sum_odd in Main. rewrite zErfN_R.
  match goal with |- Rabs ?a <= _ => match type of Main with Rabs ?b <= _ => replace a with (- b) by ring end end. now rewrite Rabs_Ropp.
Qed.
(** so that the answers converge to the error function; they are odd in x; without terms the answer is 0 *)
Theorem C99_erf_converges : forall x, Un_cv (fun n => zErfN PI x (Z.of_nat n)) (erf x).
Proof.
  intros x. assert (P : 0 < 2 / sqrt PI). { apply Rdiv_lt_0_compat; [lra|]. apply sqrt_lt_R0, PI_RGT_0. }
  intros e He. destruct (cv_speed_pow_fact (x * x) (e / (2 / sqrt PI * (Rabs x + 1)))) as (N & HN).
  { apply Rlt_gt, Rdiv_lt_0_compat; [lra|]. pose proof (Rabs_pos x). apply Rmult_lt_0_compat; lra. }
  exists N. intros n Hn. unfold R_dist. eapply Rle_lt_trans; [apply C99_erf|]. specialize (HN (n + 1)%nat ltac:(lia)). unfold R_dist in HN. rewrite Rminus_0_r in HN.
  pose proof (Rabs_pos x) as A. assert (Q : Rabs ((x * x) ^ (n + 1) / INR (fact (n + 1))) = Rabs x ^ (2 * (n + 1)) / INR (fact (n + 1))).
  { pose proof (fpos (n + 1)). unfold Rdiv. rewrite Rabs_mult, (Rabs_right (/ _)) by (left; now apply Rinv_0_lt_compat). f_equal. rewrite <- RPow_abs, Rabs_mult. apply pow2. }
  rewrite Q in HN. set (q := Rabs x ^ (2 * (n + 1)) / INR (fact (n + 1))) in *. pose proof (fpos (n + 1)) as F.
  assert (q0 : 0 <= q). { unfold q. apply Rmult_le_pos; [now apply pow_le|left; now apply Rinv_0_lt_compat]. }
  apply Rle_lt_trans with (2 / sqrt PI * (Rabs x + 1) * q).
  - rewrite Rmult_assoc. apply Rmult_le_compat_l; [lra|]. replace (2 * n + 3)%nat with (S (2 * (n + 1))) by lia. cbn [pow]. apply Rle_trans with (Rabs x * q / INR (S (2 * (n + 1)))).
    + apply Req_le. unfold q. pose proof (lt_0_INR (S (2 * (n + 1))) ltac:(lia)). field. split; lra.
    + apply Rle_trans with (Rabs x * q / 1); [|nra]. apply div_le; [nra|lra|]. apply (le_INR 1). lia.
  - apply Rmult_lt_compat_l with (r := 2 / sqrt PI * (Rabs x + 1)) in HN; [|apply Rmult_lt_0_compat; lra]. eapply Rlt_le_trans; [exact HN|]. apply Req_le. pose proof (sqrt_lt_R0 PI PI_RGT_0). field. split; lra.
Qed.
Theorem C99_erf_odd : forall x n, zErfN PI (- x) n = - zErfN PI x n /\ ((n < 0)%Z -> zErfN PI x n = 0).
Proof. intros x n. rewrite !zErfN_R, erf_sum_odd. split; [ring|]. intros Hn. replace (Z.to_nat (n + 1)) with 0%nat by lia. unfold erf_sum. cbn [rsum]. ring. Qed.

(** The gamma function is positive for a positive argument, zLnGamma is its logarithm, and the beta function is built from it in the
    right way and symmetric.  Missing: the distance from the gamma function between the points of C99_gamma_points. *)
Theorem C99_gamma_partial : forall x, 0 < x -> 0 < zGamma exp ln x /\ zLnGamma ln x = ln (zGamma exp ln x).
Proof.
  intros x Hx. pose proof (seed_pos x Hx) as P. unfold zGamma, zLnGamma. cbn [sadd smul RealS]. pose proof (exp_pos (_zGammaBias ln x)). split; [now apply Rmult_lt_0_compat|].
  rewrite ln_mult, ln_exp by auto. reflexivity.
Qed.
Theorem C99_beta : forall z w, 0 < z -> 0 < w ->
  0 < zBeta exp ln z w /\ zBeta exp ln z w = zGamma exp ln z * zGamma exp ln w / zGamma exp ln (z + w) /\ zBeta exp ln z w = zBeta exp ln w z.
Proof.
  intros z w Hz Hw. destruct (C99_gamma_partial z Hz) as (P1 & E1). destruct (C99_gamma_partial w Hw) as (P2 & E2). destruct (C99_gamma_partial (z + w) ltac:(lra)) as (P3 & E3).
  unfold zBeta. cbn [sadd ssub RealS]. split; [apply exp_pos|]. split.
  - rewrite E1, E2, E3. unfold Rminus. rewrite !exp_plus, exp_Ropp, !exp_ln by auto. reflexivity.
  - rewrite (Rplus_comm (zLnGamma ln w)), (Rplus_comm w z). reflexivity.
Qed.
Lemma e_bound : 367879441171442 / 1000000000000000 <= exp (-1) <= 367879441171443 / 1000000000000000.
Proof.
  pose proof (exp_rem 19 1 ltac:(lra)) as H. unfold Te in H. cbn [rsum] in H. rewrite !factS in H. cbn [fact INR pow] in H.
  replace (- (1)) with (-1) in H by lra. revert H. unfold Rabs. destruct (Rcase_abs _); lra.
Qed.
Lemma gamma_sq x (k m : nat) : 0 < x -> 2 * x + 1 = INR k -> 2 * x + 11 = INR m -> zGamma exp ln x * zGamma exp ln x = (x + 11 / 2) ^ k * exp (-1) ^ m * (_zGammaSeed x * _zGammaSeed x).
Proof.
  intros Hx Hk Hm. unfold zGamma, _zGammaBias. cbn [sadd ssub smul sdiv sofZ s1 RealS]. set (b := (x + 1 / 2) * ln (x + 11 / 2) - x - 11 / 2). set (s := _zGammaSeed x).
  replace (exp b * s * (exp b * s)) with (exp b * exp b * (s * s)) by ring. f_equal. rewrite <- exp_plus.
  replace (b + b) with (INR k * ln (x + 11 / 2) + INR m * (-1)) by (unfold b; rewrite <- Hk, <- Hm; field). rewrite exp_plus. f_equal.
  - rewrite <- (Rpower_pow k) by lra. reflexivity.
  - rewrite <- (Rpower_pow m) by apply exp_pos. unfold Rpower. now rewrite ln_exp.
Qed.
Lemma near (g f e : R) : 0 < g -> 0 < f -> 0 <= e <= 1 -> f * f * (1 - e) <= g * g <= f * f * (1 + e) -> Rabs (g - f) <= e * f.
Proof.
  intros Hg Hf He H. assert (P : 0 < f * f) by nra. apply Rabs_le. split.
  - destruct (Rle_or_lt (f * (1 - e)) g) as [|L]; [lra|]. assert (g * g < f * (1 - e) * (f * (1 - e))) by (apply Rmult_gt_0_lt_compat; lra). assert (f * (1 - e) * (f * (1 - e)) = f * f * (1 - e) * (1 - e)) by ring.
    assert (f * f * (1 - e) * (1 - e) <= f * f * (1 - e)); [|lra]. assert (0 <= f * f * (1 - e)) by (apply Rmult_le_pos; lra). nra.
  - destruct (Rle_or_lt g (f * (1 + e))) as [|L]; [lra|]. assert (0 < f * (1 + e)) by nra. assert (f * (1 + e) * (f * (1 + e)) < g * g) by (apply Rmult_gt_0_lt_compat; lra). assert (f * (1 + e) * (f * (1 + e)) = f * f * (1 + e) * (1 + e)) by ring.
    assert (f * f * (1 + e) <= f * f * (1 + e) * (1 + e)); [|lra]. assert (0 <= f * f * (1 + e)) by (apply Rmult_le_pos; lra). nra.
Qed.
Lemma gamma_at x k m f : 0 < x -> 0 < f -> 2 * x + 1 = INR k -> 2 * x + 11 = INR m ->
  f * f * (1 - / 100000000000) <= (x + 11 / 2) ^ k * (367879441171442 / 1000000000000000) ^ m * (_zGammaSeed x * _zGammaSeed x) ->
  (x + 11 / 2) ^ k * (367879441171443 / 1000000000000000) ^ m * (_zGammaSeed x * _zGammaSeed x) <= f * f * (1 + / 100000000000) ->
  Rabs (zGamma exp ln x - f) <= / 100000000000 * f.
Proof.
  intros Hx Hf Hk Hm L U. apply near; auto; [apply C99_gamma_partial; auto|lra|]. rewrite (gamma_sq x k m) by auto. pose proof (seed_pos x Hx) as S. assert (P : 0 <= (x + 11 / 2) ^ k) by (apply pow_le; lra).
  assert (Q : 0 <= _zGammaSeed x * _zGammaSeed x) by nra. pose proof e_bound as [E1 E2]. split.
  - eapply Rle_trans; [exact L|]. apply Rmult_le_compat_r; auto. apply Rmult_le_compat_l; auto. apply pow_incr. lra.
  - eapply Rle_trans; [|exact U]. apply Rmult_le_compat_r; auto. apply Rmult_le_compat_l; auto. apply pow_incr. lra.
Qed.
(** At 1, ..., 7 the answers are the factorials up to a relative error of 1e-11. *)
Theorem C99_gamma_points : forall n, (n < 7)%nat -> Rabs (zGamma exp ln (INR n + 1) - INR (fact n)) <= / 100000000000 * INR (fact n).
Proof.
  assert (F : forall x f k m, 0 < x -> 0 < f -> 2 * x + 1 = INR k -> 2 * x + 11 = INR m ->
  f * f * (1 - / 100000000000) <= (x + 11 / 2) ^ k * (367879441171442 / 1000000000000000) ^ m * (_zGammaSeed x * _zGammaSeed x) ->
  (x + 11 / 2) ^ k * (367879441171443 / 1000000000000000) ^ m * (_zGammaSeed x * _zGammaSeed x) <= f * f * (1 + / 100000000000) ->
  forall y g, y = x -> g = f -> Rabs (zGamma exp ln y - g) <= / 100000000000 * g) by (intros; subst; eapply gamma_at; eauto).
  intros [|[|[|[|[|[|[|n]]]]]]] Hn; [| | | | | | |lia].
  - apply (F 1 1 3%nat 13%nat); try (cbn; lra); unfold _zGammaSeed; cbn [sadd ssub smul sdiv sofZ s1 RealS]; lra.
  - apply (F 2 1 5%nat 15%nat); try (cbn; lra); unfold _zGammaSeed; cbn [sadd ssub smul sdiv sofZ s1 RealS]; lra.
  - apply (F 3 2 7%nat 17%nat); try (cbn; lra); unfold _zGammaSeed; cbn [sadd ssub smul sdiv sofZ s1 RealS]; lra.
  - apply (F 4 6 9%nat 19%nat); try (cbn; lra); unfold _zGammaSeed; cbn [sadd ssub smul sdiv sofZ s1 RealS]; lra.
  - apply (F 5 24 11%nat 21%nat); try (cbn; lra); unfold _zGammaSeed; cbn [sadd ssub smul sdiv sofZ s1 RealS]; lra.
  - apply (F 6 120 13%nat 23%nat); try (cbn; lra); unfold _zGammaSeed; cbn [sadd ssub smul sdiv sofZ s1 RealS]; lra.
  - apply (F 7 720 15%nat 25%nat); try (cbn; lra); unfold _zGammaSeed; cbn [sadd ssub smul sdiv sofZ s1 RealS]; lra.
Qed.

(** ** C100 *)
(** The integrals are fresnelS x = RInt (sin (PI/2 t^2)) 0 x and fresnelC x = RInt (cos (PI/2 t^2)) 0 x. *)
Section F.
  Variable lentz : R -> bool * R * R.
  Notation PI2 tol := (zFresnelIntgPI_2 (PI / 2) tol lentz).
  Lemma DS' t : derivable_pt_lim fresnelS t (sin (PI / 2 * t * t)).
  Proof. apply is_derive_Reals. replace (PI / 2 * t * t) with (PI / 2 * t ^ 2) by ring. apply dS. Qed.
  Lemma DC' t : derivable_pt_lim fresnelC t (cos (PI / 2 * t * t)).
  Proof. apply is_derive_Reals. replace (PI / 2 * t * t) with (PI / 2 * t ^ 2) by ring. apply dC_. Qed.
  Lemma odd_fun (f f' : R -> R) : f 0 = 0 -> (forall t, derivable_pt_lim f t (f' t)) -> (forall t, f' (- t) = f' t) -> forall x, f (- x) = - f x.
  Proof.
    intros H0 D Ev. assert (P : forall x, 0 <= x -> f (- x) = - f x).
    { intros x Hx. assert (G : Rabs (f x + f (- x)) <= 0); [|pose proof (Rabs_pos (f x + f (- x))); assert (Z : Rabs (f x + f (- x)) = 0) by lra; apply Rabs_eq_0 in Z; lra].
      apply (cmp (fun x => f x + f (- x)) (fun x => f' x + f' (- x) * - 1) (fun _ => 0) (fun _ => 0)); auto.
      - rewrite Ropp_0, H0. ring.
      - intros c _. apply (derivable_pt_lim_plus f (fun x => f (- x))); auto. apply (derivable_pt_lim_comp (fun x => - x) f); auto. apply (derivable_pt_lim_opp (fun x => x)), derivable_pt_lim_id.
      - intros c _. apply derivable_pt_lim_const.
      - intros c _. rewrite Ev. replace (f' c + f' c * -1) with 0 by ring. rewrite Rabs_R0. lra. }
    intros x. destruct (Rle_or_lt 0 x) as [H|H]; auto. specialize (P (- x) ltac:(lra)). rewrite Ropp_involutive in P. lra.
  Qed.
  Lemma S_odd x : fresnelS (- x) = - fresnelS x.
  Proof. apply (odd_fun fresnelS (fun t => sin (PI / 2 * t * t))); [apply S_0|apply DS'|]. intros t. f_equal. ring. Qed.
  Lemma C_odd x : fresnelC (- x) = - fresnelC x.
  Proof. apply (odd_fun fresnelC (fun t => cos (PI / 2 * t * t))); [apply C_0|apply DC'|]. intros t. f_equal. ring. Qed.
  Lemma thr : R_sqrt.sqrt (1 / 1000000000000000000000000000000) = 1 / 1000000000000000.
  Proof. replace (1 / 1000000000000000000000000000000) with ((1 / 1000000000000000) * (1 / 1000000000000000)) by lra. apply sqrt_square. lra. Qed.
  Lemma pi2_pos tol iter x : 0 <= x <= 3 / 2 -> PI2 tol iter x = if Rltb x (1 / 1000000000000000) then (true, 0, x) else _zFresnelIntgGilbert (PI / 2) tol iter x.
  Proof.
    intros Hx. unfold zFresnelIntgPI_2. cbn [sabs ssqrt slt sle sdiv sofZ s0 s1 sopp RealS]. rewrite thr, (Rabs_right x) by lra.
    destruct (Rltb_spec x (1 / 1000000000000000)). { destruct (Rltb_spec x 0); [lra|reflexivity]. }
    destruct (Rleb_spec x (3 / 2)); [|lra]. destruct (_zFresnelIntgGilbert (PI / 2) tol iter x) as [[b s] c]. destruct (Rltb_spec x 0); [lra|reflexivity].
  Qed.
  (** The answers are odd in x, with the same flag. *)
  Theorem C100_odd : forall tol iter x b s c, x <> 0 -> PI2 tol iter x = (b, s, c) -> PI2 tol iter (- x) = (b, - s, - c).
  Proof.
    intros tol iter x b s c Hx. unfold zFresnelIntgPI_2. cbn [sabs ssqrt slt sle sdiv sofZ s0 s1 sopp RealS]. rewrite Rabs_Ropp.
    match goal with |- context [if Rltb (Rabs x) ?a then ?p else ?q] => destruct (if Rltb (Rabs x) a then p else q) as [[b' s'] c'] end.
    destruct (Rltb_spec x 0), (Rltb_spec (- x) 0); try lra; intros H; injection H as <- <- <-; now rewrite ?Ropp_involutive.
  Qed.
  (** Up to 1.5 in absolute value: if the answer is true, both integrals are met up to the tolerance, relative to the larger of the two. *)
  Theorem C100_accurate_partial : forall tol iter x s c, 1 / 1000000000000000000000000000000 <= tol <= 1 / 2 -> Rabs x <= 3 / 2 -> PI2 tol iter x = (true, s, c) ->
    Rabs (s - fresnelS x) <= tol * Rmax (Rabs s) (Rabs c) /\ Rabs (c - fresnelC x) <= tol * Rmax (Rabs s) (Rabs c).
  Proof.
    assert (Main : forall tol iter x s c, 1 / 1000000000000000000000000000000 <= tol <= 1 / 2 -> 0 <= x <= 3 / 2 -> PI2 tol iter x = (true, s, c) ->
      Rabs (s - fresnelS x) <= tol * Rmax (Rabs s) (Rabs c) /\ Rabs (c - fresnelC x) <= tol * Rmax (Rabs s) (Rabs c)).
    { intros tol iter x s c Ht Hx. rewrite pi2_pos by auto. destruct (Rltb_spec x (1 / 1000000000000000)) as [L|L].
      - intros H. injection H as <- <-. pose proof (Fs_err fresnelS S_0 DS' 0 x ltac:(lra)) as E1. pose proof (Fc_err fresnelC C_0 DC' 1 x ltac:(lra)) as E2. rewrite bnd_tm in E1, E2.
        replace (Fs 0 x) with 0 in E1 by reflexivity. replace (Fc 1 x) with x in E2 by (unfold Fc; cbn; field). cbn [Nat.mul Nat.add tm INR] in E1, E2.
        rewrite (Rabs_minus_sym 0), (Rabs_minus_sym x). rewrite Rabs_R0, (Rabs_right x) by lra. pose proof (Rmax_r 0 x) as M.
        set (e := 1 / 1000000000000000000000000000000) in *. pose proof PI_up. pose proof PI_RGT_0.
        assert (T : 0 <= PI / 2 * x * x <= 2 * e). { assert (x * x <= e) by (unfold e; nra). assert (0 <= x * x) by nra. rewrite Rmult_assoc. split; [apply Rmult_le_pos; lra|]. apply Rle_trans with (2 * (x * x)); [apply Rmult_le_compat_r; lra|lra]. }
        set (t := PI / 2 * x * x) in *. assert (e1 : 0 <= e <= 1 / 10) by (unfold e; lra). clearbody e t. assert (EX : e * x <= tol * Rmax 0 x) by (apply Rmult_le_compat; lra). assert (T1 : t * x <= 2 * e * x) by (apply Rmult_le_compat_r; lra). assert (T2 : t * t <= 2 * e) by nra. assert (T3 : t * t * x <= 2 * e * x) by (apply Rmult_le_compat_r; lra). assert (T4 : 0 <= e * x) by (apply Rmult_le_pos; lra). split.
        + eapply Rle_trans; [exact E1|]. eapply Rle_trans; [|exact EX]. lra.
        + eapply Rle_trans; [exact E2|]. eapply Rle_trans; [|exact EX]. lra.
      - apply (gilbert_err x tol ltac:(lra) fresnelS fresnelC S_0 C_0 DS' DC'). unfold Rdiv in *. lra. }
    intros tol iter x s c Ht Hx H. destruct (Rle_or_lt 0 x) as [P|P]. { rewrite Rabs_right in Hx by lra. eapply Main; eauto. }
    rewrite Rabs_left in Hx by lra. apply C100_odd in H; [|lra]. apply Main in H; auto; [|lra]. rewrite S_odd, C_odd, !Rabs_Ropp in H.
    replace (s - fresnelS x) with (- (- s - - fresnelS x)) by ring. replace (c - fresnelC x) with (- (- c - - fresnelC x)) by ring. rewrite !Rabs_Ropp. exact H.
  Qed.
  (** There, 60 iterations are enough for the tolerance 1e-12 of the library: the answer is true. *)
  Theorem C100_converges : forall tol iter x, / IZR (10 ^ 12) <= tol -> (60 <= iter)%nat -> Rabs x <= 3 / 2 -> exists s c, PI2 tol iter x = (true, s, c).
  Proof.
    intros tol iter x Ht Hk Hx. assert (M : forall x, 0 <= x <= 3 / 2 -> exists s c, PI2 tol iter x = (true, s, c)).
    { clear x Hx. intros x Hx. rewrite pi2_pos by auto. destruct (Rltb_spec x (1 / 1000000000000000)) as [L|L]; [eauto|].
      apply (gilbert_conv x tol ltac:(lra) fresnelS fresnelC S_0 DS' DC'); auto. lra. }
    destruct (Rle_or_lt 0 x) as [P|P]. { rewrite Rabs_right in Hx by lra. now apply M. }
    rewrite Rabs_left in Hx by lra. destruct (M (- x) ltac:(lra)) as (s & c & E). apply C100_odd in E; [|lra]. rewrite Ropp_involutive in E. eauto.
  Qed.
  (** The scaled integrals of sin(f t^2) and cos(f t^2): the same accuracy in the corresponding range, *)
  Theorem C100_scaled : forall tol iter x f s c, 1 / 1000000000000000000000000000000 <= tol <= 1 / 2 -> tol < Rabs f -> Rabs x <= 3 / 2 * R_sqrt.sqrt (PI / 2 / Rabs f) ->
    zFresnelIntgScale tol (PI / 2) (PI2 tol iter) x f = (true, s, c) ->
    Rabs (s - RInt (fun t => sin (f * t ^ 2)) 0 x) <= tol * Rmax (Rabs s) (Rabs c) /\ Rabs (c - RInt (fun t => cos (f * t ^ 2)) 0 x) <= tol * Rmax (Rabs s) (Rabs c).
  Proof.
    intros tol iter x f s c Ht Hf Hx. destruct (scale_fun tol ltac:(lra) f Hf) as (es & ec & E & es0 & ec0 & Ds & Dc).
    assert (Is : RInt (fun t => sin (f * t ^ 2)) 0 x = es x).
    { apply (is_RInt_unique (V := R_CompleteNormedModule)). replace (es x) with (minus (es x) (es 0)) by (rewrite es0; unfold minus, plus, opp; cbn; ring).
      apply (is_RInt_derive (V := R_CompleteNormedModule) es); intros u _; [apply Ds|]. apply continuity_pt_filterlim. apply derivable_continuous_pt. reg. }
    assert (Ic : RInt (fun t => cos (f * t ^ 2)) 0 x = ec x).
    { apply (is_RInt_unique (V := R_CompleteNormedModule)). replace (ec x) with (minus (ec x) (ec 0)) by (rewrite ec0; unfold minus, plus, opp; cbn; ring).
      apply (is_RInt_derive (V := R_CompleteNormedModule) ec); intros u _; [apply Dc|]. apply continuity_pt_filterlim. apply derivable_continuous_pt. reg. }
    rewrite Is, Ic. specialize (E x). revert E. unfold zFresnelIntgScale. rewrite is_tol_R. destruct (Rleb_spec (Rabs f) tol); [lra|].
    cbn [sdiv sabs ssqrt sopp slt smul s0 RealS]. set (r := R_sqrt.sqrt (PI / 2 / Rabs f)) in *.
    assert (Hr : 0 < r). { apply R_sqrt.sqrt_lt_R0. apply Rdiv_lt_0_compat; [apply PI2_RGT_0|lra]. }
    unfold fresnel_exact. intros E. injection E as <- <-. destruct (PI2 tol iter (x / r)) as [[b s'] c'] eqn:P. intros H. injection H as -> <- <-.
    apply C100_accurate_partial in P; auto.
    - destruct P as (P1 & P2). assert (W : Rmax (Rabs (s' * (if Rltb 0 f then r else - r))) (Rabs (c' * r)) = Rmax (Rabs s') (Rabs c') * r).
      { assert (Rabs (s' * (if Rltb 0 f then r else - r)) = Rabs s' * r) as -> by (destruct (Rltb 0 f); rewrite Rabs_mult, ?Rabs_Ropp, (Rabs_right r) by lra; ring).
        rewrite Rabs_mult, (Rabs_right r) by lra. rewrite !(Rmult_comm _ r). now rewrite RmaxRmult by lra. }
      rewrite W, <- Rmult_assoc. split.
      + replace (Rabs (s' * _ - _)) with (Rabs (s' - fresnelS (x / r)) * r); [apply Rmult_le_compat_r; lra|].
        destruct (Rltb 0 f); rewrite <- Rmult_minus_distr_r, Rabs_mult, ?Rabs_Ropp, (Rabs_right r) by lra; ring.
      + rewrite <- Rmult_minus_distr_r, Rabs_mult, (Rabs_right r) by lra. apply Rmult_le_compat_r; lra.
    - unfold Rdiv. rewrite Rabs_mult, (Rabs_right (/ r)) by (left; now apply Rinv_0_lt_compat). apply Rmult_le_reg_r with r; auto. rewrite Rmult_assoc, Rinv_l, Rmult_1_r by lra. exact Hx.
  Qed.
  (** and for a negligible f an error that is cubic, or of the fifth order, in x *)
  Theorem C100_flat : forall tol x f s c fr, Rabs f <= tol -> zFresnelIntgScale tol (PI / 2) fr x f = (true, s, c) ->
    s = 0 /\ c = x /\ Rabs (RInt (fun t => sin (f * t ^ 2)) 0 x) <= tol * Rabs x ^ 3 / 3 /\ Rabs (RInt (fun t => cos (f * t ^ 2)) 0 x - x) <= tol ^ 2 * Rabs x ^ 5 / 10.
  Proof.
    intros tol x f s c fr Hf. unfold zFresnelIntgScale. rewrite is_tol_R. destruct (Rleb_spec (Rabs f) tol); [|lra]. cbn [s0 RealS]. intros H. injection H as <- <-. do 2 (split; auto).
    set (A := fun x => RInt (fun t => sin (f * t ^ 2)) 0 x). set (B := fun x => RInt (fun t => cos (f * t ^ 2)) 0 x). change (Rabs (A x) <= tol * Rabs x ^ 3 / 3 /\ Rabs (B x - x) <= tol ^ 2 * Rabs x ^ 5 / 10).
    assert (DA : forall t, derivable_pt_lim A t (sin (f * t ^ 2))). { intros t. apply is_derive_Reals. apply (RInt_derive (fun t => sin (f * t ^ 2))). intros u. apply continuity_pt_filterlim. apply derivable_continuous_pt. reg. }
    assert (DB : forall t, derivable_pt_lim B t (cos (f * t ^ 2))). { intros t. apply is_derive_Reals. apply (RInt_derive (fun t => cos (f * t ^ 2))). intros u. apply continuity_pt_filterlim. apply derivable_continuous_pt. reg. }
    assert (A0 : A 0 = 0) by apply (RInt_point (V := R_CompleteNormedModule)). assert (B0 : B 0 = 0) by apply (RInt_point (V := R_CompleteNormedModule)).
    assert (Ts0 : forall y, Rabs (sin y) <= Rabs y).
    { intros y. destruct (Rle_or_lt 0 y) as [P|P]. { pose proof (proj2 (trig_rem 0) y P) as Q. unfold Ts in Q. cbn in Q. rewrite (Rabs_right y) by lra. rewrite Rminus_0_r in Q. lra. }
      pose proof (proj2 (trig_rem 0) (- y) ltac:(lra)) as Q. unfold Ts in Q. cbn in Q. rewrite (Rabs_left y) by lra. rewrite Rminus_0_r, sin_neg, Rabs_Ropp in Q. lra. }
    assert (Tc1 : forall y, Rabs (cos y - 1) <= y * y / 2).
    { intros y. destruct (Rle_or_lt 0 y) as [P|P]. { pose proof (proj1 (trig_rem 1) y P) as Q. unfold Tc in Q. cbn in Q. replace (cos y - 1) with (cos y - (0 + 1 * (1 / 1))) by lra. eapply Rle_trans; [exact Q|]. lra. }
      pose proof (proj1 (trig_rem 1) (- y) ltac:(lra)) as Q. unfold Tc in Q. cbn in Q. rewrite cos_neg in Q. replace (cos y - 1) with (cos y - (0 + 1 * (1 / 1))) by lra. eapply Rle_trans; [exact Q|]. lra. }
    pose proof (Rabs_pos f) as Pf. assert (M : forall x, 0 <= x -> Rabs (A x) <= tol * x ^ 3 / 3 /\ Rabs (B x - x) <= tol ^ 2 * x ^ 5 / 10).
    { clear x. intros x Hx. split.
      - apply (cmp A (fun t => sin (f * t ^ 2)) (fun x => tol * x ^ 3 / 3) (fun t => tol * t ^ 2)); auto.
        + cbn. lra.
        + intros u _. apply is_derive_Reals. auto_derive; auto. field.
        + intros u _. eapply Rle_trans; [apply Ts0|]. rewrite Rabs_mult. assert (0 <= u ^ 2) by nra. rewrite (Rabs_right (u ^ 2)) by lra. nra.
      - apply (cmp (fun x => B x - x) (fun t => cos (f * t ^ 2) - 1) (fun x => tol ^ 2 * x ^ 5 / 10) (fun t => tol ^ 2 * t ^ 4 / 2)); auto.
        + rewrite B0. ring.
        + cbn. lra.
        + intros u _. apply (derivable_pt_lim_minus B); [apply DB|apply derivable_pt_lim_id].
        + intros u _. apply is_derive_Reals. auto_derive; auto. field.
        + intros u _. eapply Rle_trans; [apply Tc1|]. assert (f * f <= tol * tol). { rewrite <- (Rabs_right (f * f)) by nra. rewrite Rabs_mult. apply Rmult_le_compat; lra. } assert (0 <= u ^ 4) by (replace (u ^ 4) with ((u * u) * (u * u)) by ring; apply Rmult_le_pos; nra). replace (f * u ^ 2 * (f * u ^ 2)) with (f * f * u ^ 4) by ring. nra. }
    destruct (Rle_or_lt 0 x) as [P|P]. { rewrite (Rabs_right x) by lra. now apply M. }
    rewrite (Rabs_left x) by lra. destruct (M (- x) ltac:(lra)) as (M1 & M2). rewrite (odd_fun A (fun t => sin (f * t ^ 2))), Rabs_Ropp in M1; auto; [|intros; f_equal; ring].
    rewrite (odd_fun B (fun t => cos (f * t ^ 2))) in M2; auto; [|intros; f_equal; ring]. split; auto. replace (B x - x) with (- (- B x - - x)) by ring. now rewrite Rabs_Ropp.
  Qed.
End F.
(** ** an example: the answers at 1 with the tolerance of the library *)
Example C100_case : forall lentz, exists s c, zFresnelIntgPI_2 (PI / 2) (/ IZR (10 ^ 12)) lentz 100 1 = (true, s, c) /\
  Rabs (s - RInt (fun t => sin (PI / 2 * t ^ 2)) 0 1) <= / IZR (10 ^ 12) * Rmax (Rabs s) (Rabs c).
Proof.
  intros lentz. destruct (C100_converges lentz (/ IZR (10 ^ 12)) 100 1) as (s & c & E); [lra|lia|rewrite Rabs_R1; lra|].
  exists s, c. split; auto. eapply C100_accurate_partial in E; [apply E|cbn; lra|rewrite Rabs_R1; lra].
Qed.
Print Assumptions C99_erf. Print Assumptions C99_erf_converges. Print Assumptions C99_gamma_points. Print Assumptions C99_beta.
Print Assumptions C100_odd. Print Assumptions C100_accurate_partial. Print Assumptions C100_converges. Print Assumptions C100_scaled. Print Assumptions C100_flat.
