(** The power method over the reals. *)
From Coq Require Import Reals Lra Lia Psatz.
From Verif Require Import Prelude Prelude_Proofs Scalar RealLib Fmat Fmat_Proofs LE_Model IP_Model IP_Proofs Vop Qp_Spec Qp_Proofs
  Eig_Model Eig_Spec Eig4_Proofs Hess_Model Hess_Spec.
Local Open Scope R_scope.

Lemma Rabs_sq x : Rabs x ^ 2 = x ^ 2. Proof. apply pow2_abs. Qed.
Lemma rsum_abs n f : Rabs (rsum n f) <= rsum n (fun i => Rabs (f i)).
Proof. induction n as [|n IH]; cbn [rsum]; [rewrite Rabs_R0; lra|]. eapply Rle_trans; [apply Rabs_triang|]. lra. Qed.
Lemma dot_nonneg n v : 0 <= dot n v v. Proof. apply rsum_nonneg. intros; nra. Qed.
Lemma norm_sq n v : norm n v * norm n v = dot n v v. Proof. apply sqrt_sqrt, dot_nonneg. Qed.
Lemma norm_pos n v : 0 <= norm n v. Proof. apply sqrt_pos. Qed.

(** one round *)
Definition scaled (n : nat) (e : nat -> R) i := e i * (1 / norm n e).
Lemma scaled_unit n e : 0 < norm n e -> unit_vec n (scaled n e).
Proof.
  intros H. unfold unit_vec, dot, scaled. rewrite (rsum_ext n _ (fun i => (1 / norm n e * (1 / norm n e)) * (e i * e i))) by (intros; ring).
  rewrite rsum_scal. fold (dot n e e). rewrite <- norm_sq. field. lra.
Qed.
(** power_loop at the level of vectors: the vector of the last round and the answer *)
Lemma power_round tol n (m : fmat R) e ev k lam0 : 0 <= tol -> nr m = n -> nc m = n -> vlen e = n -> vlen ev = n ->
  (tol < norm n (vel e) \/ unit_vec n (vel ev)) ->
  exists v e' lam, vlen v = n /\ vlen e' = n /\ unit_vec n (vel v) /\ (forall i, (i < n)%nat -> vel e' i = mulv n (el m) (vel v) i) /\
    lam = dot n (vel v) (mulv n (el m) (vel v)) /\
    (tol < norm n (vel e) -> forall i, (i < n)%nat -> vel v i = scaled n (vel e) i) /\
    power_loop tol (S k) m e ev lam0 = (if zVecIsTol tol (FV n (fun i => vel e' i + vel v i * - lam)) then Ok (lam, e', true) else power_loop tol k m e' v lam).
Proof.
  intros Ht E1 E2 L1 L2 Hn.
  assert (NE : ssqrt (zVecSqrNorm e) = norm n (vel e)) by (unfold zVecSqrNorm, norm, dot; rewrite ksum_R, L1; reflexivity).
  set (v := zVecNormalize tol e ev).
  assert (Lv : vlen v = n) by (unfold v, zVecNormalize; destruct (is_tol _ _); auto).
  assert (Uv : unit_vec n (vel v) /\ (tol < norm n (vel e) -> forall i, (i < n)%nat -> vel v i = scaled n (vel e) i)).
  { unfold v, zVecNormalize. rewrite NE, is_tol_R, Rabs_right by (apply Rle_ge, norm_pos). destruct (Rleb_spec (norm n (vel e)) tol) as [H|H].
    - destruct Hn as [Hn|Hn]; [lra|]. split; [exact Hn|lra].
    - split; [apply scaled_unit; lra|reflexivity]. }
  destruct (mulmv_R m v e) as (e' & M1 & M2 & M3); try congruence. rewrite Lv in M3. rewrite L1 in M2, M3.
  exists v, e', (dot n (vel v) (mulv n (el m) (vel v))). destruct Uv as [U1 U2].
  split; [auto|]. split; [auto|]. split; [auto|]. split; [auto|]. split; [auto|]. split; [auto|].
  cbn [power_loop]. fold v. rewrite M1. cbn [bind]. rewrite inner_R by congruence. rewrite Lv.
  unfold zVecCatNC. rewrite vop2_ok by (cbn [vlen vzero]; congruence). cbn [bind vlen vzero]. rewrite M2.
  assert (Q : dot n (vel v) (vel e') = dot n (vel v) (mulv n (el m) (vel v))) by (apply dot_ext; auto). rewrite Q.
  reflexivity.
Qed.

Lemma power_rayleigh tol n (m : fmat R) k : forall e ev lam0, 0 <= tol -> nr m = n -> nc m = n -> vlen e = n -> vlen ev = n ->
  (tol < norm n (vel e) \/ unit_vec n (vel ev)) ->
  exists v e' lam ok, power_loop tol (S k) m e ev lam0 = Ok (lam, e', ok) /\ unit_vec n v /\ vlen e' = n /\
    (forall i, (i < n)%nat -> vel e' i = mulv n (el m) v i) /\ lam = dot n v (mulv n (el m) v) /\
    (ok = true -> forall i, (i < n)%nat -> Rabs (mulv n (el m) v i - lam * v i) <= tol).
Proof.
  induction k as [|k IH]; intros e ev lam0 Ht E1 E2 L1 L2 Hn.
  1: destruct (power_round tol n m e ev 0 lam0 Ht E1 E2 L1 L2 Hn) as (v & e' & lam & Lv & Le & U & Ev & El & _ & Q).
  2: destruct (power_round tol n m e ev (S k) lam0 Ht E1 E2 L1 L2 Hn) as (v & e' & lam & Lv & Le & U & Ev & El & _ & Q).
  all: rewrite Q; clear Q; destruct (zVecIsTol _ _) eqn:T.
  1,3: exists (vel v), e', lam, true; split; [reflexivity|]; split; [auto|]; split; [auto|]; split; [auto|]; split; [auto|];
    intros _ i Hi; pose proof (istol_R tol _ T i Hi) as Z; cbn [vel] in Z; rewrite Ev in Z by auto;
    replace (mulv n (el m) (vel v) i - lam * vel v i) with (mulv n (el m) (vel v) i + vel v i * - lam) by ring; exact Z.
  - exists (vel v), e', lam, false. split; [reflexivity|]. split; [auto|]. split; [auto|]. split; [auto|]. split; [auto|]. discriminate.
  - apply IH; auto.
Qed.

(** * symmetric matrices *)
Section Basis.
  Variables (n : nat) (M Q : nat -> nat -> R) (lam : nat -> R).
  Hypothesis EB : eigenbasis n M Q lam.
  Hypothesis SY : symmetric n M.
  Local Notation co := (coef n Q).

  Lemma parseval u v : rsum n (fun a => co u a * co v a) = dot n u v.
  Proof.
    destruct EB as [[_ O] _]. unfold coef, dot.
    rewrite (rsum_ext n _ (fun a => rsum n (fun k => rsum n (fun l => u k * v l * (Q k a * Q l a))))).
    2:{ intros a _. rewrite <- rsum_scal_r. apply rsum_ext. intros k _. rewrite <- rsum_scal. apply rsum_ext. intros; ring. }
    rewrite rsum_swap. apply rsum_ext. intros k Hk. rewrite rsum_swap.
    rewrite (rsum_ext n _ (fun l => (u k * v l) * delta k l)); [now rewrite (delta_sum n k (fun l => u k * v l))|].
    intros l Hl. rewrite rsum_scal. f_equal. now apply O.
  Qed.
  Lemma coef_mul v a : (a < n)%nat -> co (mulv n M v) a = lam a * co v a.
  Proof.
    intros Ha. destruct EB as [_ E]. unfold coef, dot, mulv.
    rewrite (rsum_ext n _ (fun k => rsum n (fun j => v j * (M k j * Q k a)))) by (intros; rewrite <- rsum_scal; apply rsum_ext; intros; ring).
    rewrite rsum_swap, <- rsum_scal. apply rsum_ext. intros j Hj. rewrite rsum_scal.
    rewrite (rsum_ext n _ (fun i => M j i * Q i a)) by (intros i Hi; rewrite (SY i j) by auto; ring).
    change (rsum n (fun i => M j i * Q i a)) with (mulv n M (fun k => Q k a) j). rewrite E by auto. ring.
  Qed.
  Lemma coef_ext u v a : (forall i, (i < n)%nat -> u i = v i) -> co u a = co v a.
  Proof. intros H. unfold coef. apply dot_ext; auto. Qed.
  Lemma coef_scaled e a : co (scaled n e) a = co e a / norm n e.
  Proof. unfold coef, dot, scaled. unfold Rdiv. rewrite <- rsum_scal_r. apply rsum_ext. intros; ring. Qed.
  Lemma coef_sub u v a c : co (fun i => u i - c * v i) a = co u a - c * co v a.
  Proof. unfold coef, dot. rewrite <- rsum_scal, <- rsum_sub. apply rsum_ext. intros; ring. Qed.
  (** the residual in the basis *)
  Lemma resid v mu : rsum n (fun a => ((lam a - mu) * co v a) ^ 2) = rsum n (fun i => (mulv n M v i - mu * v i) ^ 2).
  Proof.
    transitivity (dot n (fun i => mulv n M v i - mu * v i) (fun i => mulv n M v i - mu * v i)); [|apply rsum_ext; intros; ring].
    rewrite <- parseval. apply rsum_ext. intros a Ha. rewrite coef_sub, coef_mul by auto. ring.
  Qed.
  Lemma one_le f k : (k < n)%nat -> (forall i, (i < n)%nat -> 0 <= f i) -> f k <= rsum n f.
  Proof.
    intros Hk H. rewrite (rsum_split n k) by auto.
    assert (0 <= rsum k f) by (apply rsum_nonneg; intros; apply H; lia).
    assert (0 <= rsum (n - S k) (fun i => f (S k + i)%nat)) by (apply rsum_nonneg; intros; apply H; lia). cbn [Nat.add] in *. lra.
  Qed.
  Lemma resid_le v mu t : (forall i, (i < n)%nat -> Rabs (mulv n M v i - mu * v i) <= t) ->
    rsum n (fun a => ((lam a - mu) * co v a) ^ 2) <= INR n * t ^ 2.
  Proof.
    intros H. rewrite resid, <- rsum_const. apply rsum_le. intros i Hi. specialize (H i Hi).
    rewrite <- (Rabs_sq (mulv n M v i - mu * v i)). pose proof (Rabs_pos (mulv n M v i - mu * v i)). nra.
  Qed.
  (** a converged answer is near an eigenvalue *)
  Lemma near_eigenvalue v mu t : 0 <= t -> (0 < n)%nat -> unit_vec n v -> (forall i, (i < n)%nat -> Rabs (mulv n M v i - mu * v i) <= t) ->
    exists a, (a < n)%nat /\ Rabs (mu - lam a) <= sqrt (INR n) * t.
  Proof.
    intros Ht Hn U H. pose proof (resid_le v mu t H) as R1.
    assert (N : 0 <= INR n) by apply pos_INR. pose proof (sqrt_sqrt _ N) as SN. pose proof (sqrt_pos (INR n)) as SP.
    destruct (Classical_Prop.classic (exists a, (a < n)%nat /\ Rabs (mu - lam a) <= sqrt (INR n) * t)) as [C|C]; auto. exfalso.
    assert (B : forall a, (a < n)%nat -> INR n * t ^ 2 < (lam a - mu) ^ 2).
    { intros a Ha. assert (L : sqrt (INR n) * t < Rabs (mu - lam a)) by (apply Rnot_le_lt; intros Q0; apply C; now exists a).
      replace ((lam a - mu) ^ 2) with (Rabs (mu - lam a) ^ 2) by (rewrite Rabs_sq; ring). replace (INR n * t ^ 2) with ((sqrt (INR n) * t) ^ 2) by (rewrite <- SN at 2; ring). assert (0 <= sqrt (INR n) * t) by (apply Rmult_le_pos; auto). nra. }
    assert (P : rsum n (fun a => co v a * co v a) = 1) by (rewrite parseval; exact U).
    assert (E : exists a, (a < n)%nat /\ co v a <> 0).
    { destruct (Classical_Prop.classic (exists a, (a < n)%nat /\ co v a <> 0)) as [D|D]; auto. exfalso.
      rewrite rsum_0 in P; [lra|]. intros a Ha. assert (co v a = 0) as ->; [|ring]. destruct (Req_dec (co v a) 0); auto. exfalso. apply D. now exists a. }
    destruct E as (b & Hb & Nb).
    assert (D : 0 < rsum n (fun a => ((lam a - mu) ^ 2 - INR n * t ^ 2) * (co v a * co v a))).
    { apply Rlt_le_trans with (((lam b - mu) ^ 2 - INR n * t ^ 2) * (co v b * co v b)).
      - specialize (B b Hb). assert (0 < co v b * co v b) by nra. nra.
      - apply (one_le (fun a => ((lam a - mu) ^ 2 - INR n * t ^ 2) * (co v a * co v a)) b Hb). intros a Ha. specialize (B a Ha). assert (0 <= co v a * co v a) by nra. nra. }
    rewrite (rsum_ext n _ (fun a => ((lam a - mu) * co v a) ^ 2 - INR n * t ^ 2 * (co v a * co v a))) in D by (intros; ring).
    rewrite rsum_sub, rsum_scal, P in D. lra.
  Qed.

  Variable d : nat.
  Hypothesis Hd : (d < n)%nat.
  Hypothesis DOM : forall a, (a < n)%nat -> Rabs (lam a) <= Rabs (lam d).
  Definition kap e := Rabs (co e d) / norm n e.
  Lemma coef_d_le v : (co v d) ^ 2 <= dot n v v.
  Proof. rewrite <- parseval. replace ((co v d) ^ 2) with (co v d * co v d) by ring. apply (one_le (fun a => co v a * co v a)); auto. intros; nra. Qed.
  Lemma dom_sq a : (a < n)%nat -> lam a ^ 2 <= lam d ^ 2.
  Proof. intros Ha. rewrite <- (Rabs_sq (lam a)), <- (Rabs_sq (lam d)). pose proof (Rabs_pos (lam a)). specialize (DOM a Ha). nra. Qed.
  Lemma mul_norm v : unit_vec n v -> dot n (mulv n M v) (mulv n M v) <= lam d ^ 2.
  Proof.
    intros U. rewrite <- parseval. replace (lam d ^ 2) with (lam d ^ 2 * 1) by ring. rewrite <- U, <- parseval, <- rsum_scal.
    apply rsum_le. intros a Ha. rewrite coef_mul by auto. pose proof (dom_sq a Ha). assert (0 <= co v a * co v a) by nra. nra.
  Qed.
  Lemma rayleigh_err v : unit_vec n v -> lam d - dot n v (mulv n M v) = rsum n (fun a => (lam d - lam a) * (co v a) ^ 2).
  Proof.
    intros U. replace (lam d - dot n v (mulv n M v)) with (lam d * dot n v v - dot n v (mulv n M v)) by (rewrite U; ring).
    rewrite <- (parseval v v), <- (parseval v (mulv n M v)), <- rsum_scal, <- rsum_sub. apply rsum_ext. intros a Ha. rewrite coef_mul by auto. ring.
  Qed.

  Lemma power_conv tol (m : fmat R) k : 0 <= tol -> nr m = n -> nc m = n -> (forall i j, (i < n)%nat -> (j < n)%nat -> el m i j = M i j) ->
    forall e ev lam0, vlen e = n -> vlen ev = n -> tol < norm n (vel e) -> tol < Rabs (lam d) * kap (vel e) ->
    exists mu e' ok, power_loop tol (S k) m e ev lam0 = Ok (mu, e', ok) /\
      (ok = true -> Rabs (mu - lam d) * kap (vel e) <= sqrt (INR n) * tol) /\
      (ok = false -> Rabs (mu - lam d) <= rsum n (fun a => Rabs (lam a - lam d) * ((co (vel e) a / co (vel e) d) ^ 2 * ((lam a / lam d) ^ 2) ^ k))).
  Proof.
    intros Ht E1 E2 EM.
    assert (EMV : forall v i, (i < n)%nat -> mulv n (el m) v i = mulv n M v i) by (intros v i Hi; apply rsum_ext; intros; now rewrite EM).
    induction k as [|k IH]; intros e ev lam0 L1 L2 Hn HK.
    1: destruct (power_round tol n m e ev 0 lam0 Ht E1 E2 L1 L2 (or_introl Hn)) as (v & e' & mu & Lv & Le & U & Ev & El & Sc & P).
    2: destruct (power_round tol n m e ev (S k) lam0 Ht E1 E2 L1 L2 (or_introl Hn)) as (v & e' & mu & Lv & Le & U & Ev & El & Sc & P).
    all: rewrite P; clear P; specialize (Sc Hn); pose proof (Rabs_pos (lam d)) as LP; pose proof (norm_pos n (vel e)) as NP.
    all: assert (Cv : forall a, co (vel v) a = co (vel e) a / norm n (vel e)) by (intros a; rewrite <- coef_scaled; now apply coef_ext).
    all: assert (Kv : Rabs (co (vel v) d) = kap (vel e)) by (rewrite Cv; unfold kap, Rdiv; rewrite Rabs_mult, (Rabs_pos_eq (/ _)) by (left; apply Rinv_0_lt_compat; lra); reflexivity).
    all: assert (El2 : mu = dot n (vel v) (mulv n M (vel v))) by (rewrite El; apply dot_ext; auto).
    all: assert (Nd : co (vel e) d <> 0) by (intros Z; unfold kap in HK; rewrite Z, Rabs_R0 in HK; unfold Rdiv in HK; rewrite Rmult_0_l, Rmult_0_r in HK; lra).
    all: assert (Ld : lam d <> 0) by (intros Z; rewrite Z, Rabs_R0, Rmult_0_l in HK; lra).
    all: destruct (zVecIsTol _ _) eqn:T.
    1,3: exists mu, e', true; split; [reflexivity|]; split; [intros _|discriminate].
    1,2: assert (RS : forall i, (i < n)%nat -> Rabs (mulv n M (vel v) i - mu * vel v i) <= tol)
      by (intros i Hi; pose proof (istol_R tol _ T i Hi) as Z; cbn [vel] in Z; rewrite Ev, EMV in Z by auto;
          replace (mulv n M (vel v) i - mu * vel v i) with (mulv n M (vel v) i + vel v i * - mu) by ring; exact Z).
    1,2: pose proof (resid_le (vel v) mu tol RS) as RL;
      assert (R1 : ((lam d - mu) * co (vel v) d) ^ 2 <= INR n * tol ^ 2)
        by (eapply Rle_trans; [|exact RL]; apply (one_le (fun a => ((lam a - mu) * co (vel v) a) ^ 2)); auto; intros; apply pow2_ge_0);
      rewrite <- Kv, <- Rabs_mult; apply Rsqr_incr_0_var; [|apply Rmult_le_pos; [apply sqrt_pos|auto]];
      rewrite <- Rsqr_abs; unfold Rsqr; pose proof (sqrt_sqrt (INR n) (pos_INR n)); nra.
    - exists mu, e', false. split; [reflexivity|]. split; [discriminate|]. intros _.
      rewrite Rabs_minus_sym, El2, rayleigh_err by auto.
      eapply Rle_trans; [apply rsum_abs|]. apply rsum_le. intros a Ha. cbn [pow]. rewrite Rabs_mult, (Rabs_minus_sym (lam d)).
      apply Rmult_le_compat_l; [apply Rabs_pos|]. rewrite Rabs_pos_eq by nra.
      pose proof (coef_d_le (vel v)) as CD. rewrite U in CD.
      replace (co (vel v) a) with (co (vel e) a / co (vel e) d * co (vel v) d) by (rewrite !Cv; field; split; lra).
      assert (0 <= (co (vel e) a / co (vel e) d) ^ 2) by apply pow2_ge_0. nra.
    - assert (Ce : forall a, (a < n)%nat -> co (vel e') a = lam a * co (vel v) a).
      { intros a Ha. rewrite <- coef_mul by auto. apply coef_ext. intros i Hi. rewrite Ev by auto. now apply EMV. }
      assert (NE : dot n (vel e') (vel e') <= lam d ^ 2).
      { rewrite (dot_ext n _ (mulv n M (vel v)) _ (mulv n M (vel v))); [now apply mul_norm|..]; intros; rewrite Ev; auto. }
      pose proof (norm_pos n (vel e')) as NP'. pose proof (norm_sq n (vel e')) as NS'.
      assert (N1 : norm n (vel e') <= Rabs (lam d)).
      { apply Rsqr_incr_0_var; [|auto]. unfold Rsqr. rewrite NS'. replace (Rabs (lam d) * Rabs (lam d)) with (Rabs (lam d) ^ 2) by ring. now rewrite Rabs_sq. }
      assert (N2 : Rabs (lam d) * kap (vel e) <= norm n (vel e')).
      { rewrite <- Kv, <- Rabs_mult, <- Ce by auto. apply Rsqr_incr_0_var; [|auto]. rewrite <- Rsqr_abs. unfold Rsqr. rewrite NS'. pose proof (coef_d_le (vel e')). nra. }
      assert (K0 : 0 <= kap (vel e)) by (rewrite <- Kv; apply Rabs_pos).
      assert (K1 : kap (vel e) <= kap (vel e')).
      { unfold kap at 2. rewrite Ce, Rabs_mult, Kv by auto. apply Rmult_le_reg_r with (norm n (vel e')); [lra|].
        unfold Rdiv. rewrite Rmult_assoc, Rinv_l, Rmult_1_r by lra. nra. }
      destruct (IH e' v mu Le Lv ltac:(lra) ltac:(nra)) as (mu2 & e2 & ok & A & B & C).
      exists mu2, e2, ok. split; [exact A|]. split.
      + intros O. specialize (B O). pose proof (Rabs_pos (mu2 - lam d)). nra.
      + intros O. eapply Rle_trans; [exact (C O)|]. apply Req_le. apply rsum_ext. intros a Ha. f_equal.
        rewrite !Ce, !Cv by auto. cbn [pow]. field. repeat split; try lra; auto.
  Qed.
End Basis.
