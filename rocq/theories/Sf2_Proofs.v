(** The series loop of the Fresnel integrals: what it answers, its error, and its convergence; positivity of the gamma function. *)
From Coq Require Import Reals Lra Lia List Arith ZArith Machin.
From Verif Require Import Prelude Scalar RealLib Sf_Model Sf_Proofs.
Local Open Scope R_scope.

Ltac ge k := apply Rle_trans with (INR k); [cbn; lra|apply le_INR; lia].
Section Loop.
  Variables (x tol : R).
  Hypothesis (Hx : 0 <= x <= 3 / 2).
  Let t0 := PI / 2 * x * x.
  (** x t0^j / j! *)
  Fixpoint tm (j : nat) : R := match j with O => x | S j => tm j * (t0 / INR (S j)) end.
  Lemma tm_eq j : tm j = x * t0 ^ j / INR (fact j).
  Proof.
    induction j as [|j IH]; [cbn; lra|]. cbn [tm]. rewrite IH, factS. cbn [pow]. pose proof (fpos j). pose proof (lt_0_INR (S j) ltac:(lia)). field. split; lra.
  Qed.
  Lemma t0_nonneg : 0 <= t0.
  Proof. unfold t0. pose proof PI_RGT_0. assert (0 <= PI / 2 * x) by (apply Rmult_le_pos; lra). apply Rmult_le_pos; lra. Qed.
  Lemma tm_nonneg j : 0 <= tm j.
  Proof. induction j as [|j IH]; [cbn; lra|]. cbn [tm]. apply Rmult_le_pos; auto. apply Rmult_le_pos; [apply t0_nonneg|]. left. apply Rinv_0_lt_compat, lt_0_INR. lia. Qed.
  Lemma bnd_tm j : bnd j x = tm j / INR (S (2 * j)).
  Proof. unfold bnd. rewrite tm_eq. fold t0. pose proof (fpos j). pose proof (lt_0_INR (S (2 * j)) ltac:(lia)). field. split; lra. Qed.
  Lemma Fs_S q : Fs (S q) x = Fs q x + (-1) ^ q * tm (S (2 * q)) / INR (S (2 * S (2 * q))).
  Proof. unfold Fs. cbn [rsum]. rewrite tm_eq. fold t0. pose proof (fpos (S (2 * q))). pose proof (lt_0_INR (S (2 * S (2 * q))) ltac:(lia)). f_equal. field. split; lra. Qed.
  Lemma Fc_S q : Fc (S q) x = Fc q x + (-1) ^ q * tm (2 * q) / INR (S (2 * (2 * q))).
  Proof. unfold Fc. cbn [rsum]. rewrite tm_eq. fold t0. pose proof (fpos (2 * q)). pose proof (lt_0_INR (S (2 * (2 * q))) ltac:(lia)). f_equal. field. split; lra. Qed.

  Notation loopo k q := (gilbert_loop tol k (S (2 * q)) t0 (Fs q x) (Fc (S q) x) (Fs q x) (tm (2 * q))).
  Notation loope k q := (gilbert_loop tol k (S (S (2 * q))) t0 (Fs (S q) x) (Fc (S q) x) (Fc (S q) x) (tm (S (2 * q)))).
  Lemma sgn_even q t n : (if ((2 * q) mod 4 <=? 1)%nat then t else - t) / n = (-1) ^ q * t / n.
  Proof.
    assert (H : (q = 2 * (q / 2) + q mod 2)%nat) by (apply Nat.div_mod; lia). assert (H2 : (q mod 2 < 2)%nat) by (apply Nat.mod_upper_bound; lia).
    destruct (q mod 2) as [|[|]] eqn:E; [| |lia].
    - replace ((2 * q) mod 4)%nat with 0%nat; [|rewrite H; apply (Nat.mod_unique _ 4 (q / 2)); lia]. cbn [Nat.leb]. rewrite H, Nat.add_0_r, pow_1_even. unfold Rdiv. ring.
    - replace ((2 * q) mod 4)%nat with 2%nat; [|rewrite H; apply (Nat.mod_unique _ 4 (q / 2)); lia]. cbn [Nat.leb]. replace q with (S (2 * (q / 2))) by lia. rewrite pow_1_odd. unfold Rdiv. ring.
  Qed.
  Lemma sgn_odd q t n : (if ((S (2 * q)) mod 4 <=? 1)%nat then t else - t) / n = (-1) ^ q * t / n.
  Proof.
    assert (H : (q = 2 * (q / 2) + q mod 2)%nat) by (apply Nat.div_mod; lia). assert (H2 : (q mod 2 < 2)%nat) by (apply Nat.mod_upper_bound; lia).
    destruct (q mod 2) as [|[|]] eqn:E; [| |lia].
    - replace ((S (2 * q)) mod 4)%nat with 1%nat; [|rewrite H; apply (Nat.mod_unique _ 4 (q / 2)); lia]. cbn [Nat.leb]. rewrite H, Nat.add_0_r, pow_1_even. unfold Rdiv. ring.
    - replace ((S (2 * q)) mod 4)%nat with 3%nat; [|rewrite H; apply (Nat.mod_unique _ 4 (q / 2)); lia]. cbn [Nat.leb]. replace q with (S (2 * (q / 2))) by lia. rewrite pow_1_odd. unfold Rdiv. ring.
  Qed.
  Lemma stepo k q : loopo (S k) q = if Rltb (tm (S (2 * q))) (Rabs (Fs (S q) x) * tol) then (true, Fs q x, Fc (S q) x) else loope k q.
  Proof.
    cbn [gilbert_loop]. cbn [sadd smul sdiv sopp sofZ sabs slt RealS]. rewrite <- !INR_IZR_INZ. replace (2 * S (2 * q) + 1)%nat with (S (2 * S (2 * q))) by lia.
    rewrite sgn_odd. change (tm (2 * q) * (t0 / INR (S (2 * q)))) with (tm (S (2 * q))). rewrite <- Fs_S.
    replace (Nat.odd (S (2 * q))) with true; [reflexivity|]. symmetry. apply Nat.odd_spec. exists q. lia.
  Qed.
  Lemma stepe k q : loope (S k) q = if Rltb (tm (2 * S q)) (Rabs (Fc (S (S q)) x) * tol) then (true, Fs (S q) x, Fc (S q) x) else loopo k (S q).
  Proof.
    replace (S (S (2 * q))) with (2 * S q)%nat by lia. cbn [gilbert_loop]. cbn [sadd smul sdiv sopp sofZ sabs slt RealS]. rewrite <- !INR_IZR_INZ. replace (2 * (2 * S q) + 1)%nat with (S (2 * (2 * S q))) by lia.
    rewrite sgn_even. replace (tm (S (2 * q)) * (t0 / INR (2 * S q))) with (tm (2 * S q)); [|replace (2 * S q)%nat with (S (S (2 * q))) by lia; reflexivity].
    rewrite <- (Fc_S (S q)). replace (Nat.odd (2 * S q)) with false; [reflexivity|]. symmetry. apply Bool.not_true_iff_false. rewrite Nat.odd_spec. intros (m & Hm). lia.
  Qed.
  Lemma start k : _zFresnelIntgGilbert (PI / 2) tol k x = loopo k 0.
  Proof.
    unfold _zFresnelIntgGilbert. cbn [smul s0 RealS]. fold t0. replace (Fs 0 x) with 0 by reflexivity. replace (Fc 1 x) with x; [reflexivity|]. unfold Fc. cbn [rsum]. cbn. field.
  Qed.
  (** why the loop stopped *)
  Lemma stopped k : (forall q s c, loopo k q = (true, s, c) ->
      exists p, (s = Fs p x /\ c = Fc (S p) x /\ tm (S (2 * p)) < Rabs (Fs (S p) x) * tol) \/ (s = Fs (S p) x /\ c = Fc (S p) x /\ tm (2 * S p) < Rabs (Fc (S (S p)) x) * tol)) /\
    (forall q s c, loope k q = (true, s, c) ->
      exists p, (s = Fs p x /\ c = Fc (S p) x /\ tm (S (2 * p)) < Rabs (Fs (S p) x) * tol) \/ (s = Fs (S p) x /\ c = Fc (S p) x /\ tm (2 * S p) < Rabs (Fc (S (S p)) x) * tol)).
  Proof.
    induction k as [|k [IHo IHe]]; [split; intros q s c H; discriminate H|]. split; intros q s c.
    - rewrite stepo. destruct (Rltb_spec (tm (S (2 * q))) (Rabs (Fs (S q) x) * tol)); [|apply IHe]. intros H. injection H as <- <-. exists q. left. auto.
    - rewrite stepe. destruct (Rltb_spec (tm (2 * S q)) (Rabs (Fc (S (S q)) x) * tol)); [|apply IHo]. intros H. injection H as <- <-. exists q. right. auto.
  Qed.
  (** why it did not *)
  Lemma went_on k : (forall q s c, loopo k q = (false, s, c) -> forall p, (q <= p)%nat -> (2 * p < 2 * q + k)%nat -> Rabs (Fs (S p) x) * tol <= tm (S (2 * p))) /\
    (forall q s c, loope k q = (false, s, c) -> forall p, (q < p)%nat -> (2 * p < S (2 * q) + k)%nat -> Rabs (Fs (S p) x) * tol <= tm (S (2 * p))).
  Proof.
    induction k as [|k [IHo IHe]]; [split; intros; lia|]. split; intros q s c.
    - rewrite stepo. destruct (Rltb_spec (tm (S (2 * q))) (Rabs (Fs (S q) x) * tol)) as [|L]; [discriminate|]. intros H p Hp Hk.
      destruct (Nat.eq_dec p q) as [->|]; [lra|]. apply (IHe q s c H); lia.
    - rewrite stepe. destruct (Rltb_spec (tm (2 * S q)) (Rabs (Fc (S (S q)) x) * tol)) as [|L]; [discriminate|]. intros H p Hp Hk. apply (IHo (S q) s c H); lia.
  Qed.
  Lemma PI_up : PI <= 16 / 5.
  Proof. destruct (PI_2_3_7_ineq 1) as [_ H]. revert H. unfold tg_alt, PI_2_3_7_tg, Ratan_seq. cbn. lra. Qed.
  Lemma t0_up : t0 <= 18 / 5.
  Proof.
    unfold t0. pose proof PI_up. pose proof PI_RGT_0. assert (x * x <= 9 / 4) by nra. assert (0 <= x * x) by nra. rewrite Rmult_assoc.
    apply Rle_trans with (16 / 5 / 2 * (9 / 4)); [|lra]. apply Rmult_le_compat; lra.
  Qed.
  Lemma tm_next j n : (1 <= n)%nat -> (n <= S j)%nat -> tm (S j) <= tm j * (18 / 5 / INR n).
  Proof.
    intros Hn Hj. cbn [tm]. apply Rmult_le_compat_l; [apply tm_nonneg|]. pose proof t0_up. pose proof t0_nonneg. pose proof (lt_0_INR n ltac:(lia)). apply Rmult_le_compat; auto.
    - left. apply Rinv_0_lt_compat, lt_0_INR. lia.
    - apply Rinv_le_contravar; auto. now apply le_INR.
  Qed.
  Variables (SS CC : R -> R).
  Hypothesis (S0 : SS 0 = 0) (C0 : CC 0 = 0).
  Hypothesis (DS : forall t, derivable_pt_lim SS t (sin (PI / 2 * t * t))) (DC : forall t, derivable_pt_lim CC t (cos (PI / 2 * t * t))).
  Lemma div_le a n m : 0 <= a -> 0 < m -> m <= n -> a / n <= a / m.
  Proof. intros. apply Rmult_le_compat_l; auto. now apply Rinv_le_contravar. Qed.
  Lemma gilbert_err k s c : 0 <= tol <= 1 / 2 -> _zFresnelIntgGilbert (PI / 2) tol k x = (true, s, c) ->
    Rabs (s - SS x) <= tol * Rmax (Rabs s) (Rabs c) /\ Rabs (c - CC x) <= tol * Rmax (Rabs s) (Rabs c).
  Proof.
    intros Ht H. rewrite start in H. destruct (proj1 (stopped k) 0%nat s c H) as (p & [(-> & -> & B)|(-> & -> & B)]).
    - pose proof (Fs_err SS S0 DS p x ltac:(lra)) as E1. pose proof (Fc_err CC C0 DC (S p) x ltac:(lra)) as E2. rewrite bnd_tm in E1, E2.
      pose proof (tm_nonneg (S (2 * p))) as P. set (t := tm (S (2 * p))) in *.
      assert (I1 : t / INR (S (2 * S (2 * p))) <= t / 3). { apply div_le; auto; [lra|]. ge 3%nat. }
      assert (I2 : tm (2 * S p) / INR (S (2 * (2 * S p))) <= t * (9 / 5) / 5).
      { apply Rle_trans with (tm (2 * S p) / 5).
        - apply div_le; [apply tm_nonneg|lra|]. ge 5%nat.
        - apply Rmult_le_compat_r; [lra|]. replace (2 * S p)%nat with (S (S (2 * p))) by lia. pose proof (tm_next (S (2 * p)) 2 ltac:(lia) ltac:(lia)) as Q. cbn [INR] in Q. fold t in Q. lra. }
      assert (I3 : Rabs (Fs (S p) x) <= Rabs (Fs p x) + t / 3).
      { rewrite Fs_S. eapply Rle_trans; [apply Rabs_triang|]. apply Rplus_le_compat_l. fold t. unfold Rdiv. rewrite !Rabs_mult, pow_1_abs, (Rabs_right t) by lra.
        rewrite (Rabs_right (/ _)); [unfold Rdiv in I1; lra|]. left. apply Rinv_0_lt_compat, lt_0_INR. lia. }
      pose proof (Rmax_l (Rabs (Fs p x)) (Rabs (Fc (S p) x))) as M. pose proof (Rabs_pos (Fs p x)) as A. pose proof (Rabs_pos (Fs (S p) x)) as A'. set (m := Rmax _ _) in *.
      rewrite (Rabs_minus_sym (Fs p x)), (Rabs_minus_sym (Fc (S p) x)). set (f := Rabs (Fs (S p) x)) in *. assert (f <= 6 / 5 * m) by nra. assert (t <= 6 / 5 * (tol * m)) by nra. assert (0 <= tol * m) by nra. split; lra.
    - pose proof (Fs_err SS S0 DS (S p) x ltac:(lra)) as E1. pose proof (Fc_err CC C0 DC (S p) x ltac:(lra)) as E2. rewrite bnd_tm in E1, E2.
      pose proof (tm_nonneg (2 * S p)) as P. set (t := tm (2 * S p)) in *.
      assert (I1 : t / INR (S (2 * (2 * S p))) <= t / 5). { apply div_le; auto; [lra|]. ge 5%nat. }
      assert (I2 : tm (S (2 * S p)) / INR (S (2 * S (2 * S p))) <= t * (9 / 5) / 5).
      { apply Rle_trans with (tm (S (2 * S p)) / 5).
        - apply div_le; [apply tm_nonneg|lra|]. ge 5%nat.
        - apply Rmult_le_compat_r; [lra|]. pose proof (tm_next (2 * S p) 2 ltac:(lia) ltac:(lia)) as Q. cbn [INR] in Q. fold t in Q. lra. }
      assert (I3 : Rabs (Fc (S (S p)) x) <= Rabs (Fc (S p) x) + t / 3).
      { rewrite (Fc_S (S p)). eapply Rle_trans; [apply Rabs_triang|]. apply Rplus_le_compat_l. fold t. unfold Rdiv. rewrite !Rabs_mult, pow_1_abs, (Rabs_right t) by lra.
        rewrite (Rabs_right (/ _)); [unfold Rdiv in I1; lra|]. left. apply Rinv_0_lt_compat, lt_0_INR. lia. }
      pose proof (Rmax_r (Rabs (Fs (S p) x)) (Rabs (Fc (S p) x))) as M. pose proof (Rabs_pos (Fc (S p) x)) as A. pose proof (Rabs_pos (Fc (S (S p)) x)) as A'. set (m := Rmax _ _) in *.
      rewrite (Rabs_minus_sym (Fs (S p) x)), (Rabs_minus_sym (Fc (S p) x)). set (f := Rabs (Fc (S (S p)) x)) in *. assert (f <= 6 / 5 * m) by nra. assert (t <= 6 / 5 * (tol * m)) by nra. assert (0 <= tol * m) by nra. split; lra.
  Qed.
  (** the terms shrink *)
  Lemma tm_4 j : (4 <= j)%nat -> tm j <= 2 * (x * t0).
  Proof.
    pose proof t0_up. pose proof t0_nonneg. induction 1 as [|j Hj IH].
    - cbn [tm INR]. assert (t0 * t0 * t0 <= 48); [|match goal with |- ?l <= _ => replace l with (x * t0 * (t0 * t0 * t0 / 24)) by field end; rewrite Rmult_comm; apply Rmult_le_compat_r; [apply Rmult_le_pos; lra|lra]]. apply Rle_trans with (18 / 5 * (18 / 5) * (18 / 5)); [|lra]. apply Rmult_le_compat; auto; [nra|]. apply Rmult_le_compat; auto.
    - pose proof (tm_next j 4 ltac:(lia) ltac:(lia)) as Q. cbn [INR] in Q. pose proof (tm_nonneg j). lra.
  Qed.
  Lemma tm_8 m : tm (8 + m) <= 2 * (x * t0) * (1 / 2) ^ m.
  Proof.
    induction m as [|m IH]. { rewrite pow_O, Rmult_1_r. apply tm_4. lia. }
    replace (8 + S m)%nat with (S (8 + m)) by lia. pose proof (tm_next (8 + m) 8 ltac:(lia) ltac:(lia)) as Q. cbn [INR Nat.add] in Q. pose proof (tm_nonneg (8 + m)). cbn [pow]. cbn [Nat.add] in *. lra.
  Qed.
  Lemma Fs_low p : (27 <= S p)%nat -> x * t0 / 10 - tm (S (2 * S p)) <= Rabs (Fs (S p) x).
  Proof.
    intros Hp. pose proof (Fs_err SS S0 DS 4 x ltac:(lra)) as E1. pose proof (Fs_err SS S0 DS (S p) x ltac:(lra)) as E2. rewrite bnd_tm in E1, E2.
    assert (I2 : tm (S (2 * S p)) / INR (S (2 * S (2 * S p))) <= tm (S (2 * S p)) / 1). { apply div_le; [apply tm_nonneg|lra|]. rewrite S_INR. pose proof (pos_INR (2 * S (2 * S p))). lra. }
    assert (I1 : x * t0 / 10 <= Fs 4 x - tm (S (2 * 4)) / INR (S (2 * S (2 * 4)))).
    { rewrite !Fs_S. replace (Fs 0 x) with 0 by reflexivity. cbn [Nat.mul Nat.add]. cbn [tm pow INR]. pose proof t0_up as U. pose proof t0_nonneg as N.
      set (u := t0 * t0). assert (Hu : 0 <= u <= 324 / 25) by (unfold u; nra).
      assert (Q : 1 / 10 <= 1 / 3 - u / 42 + u * u / 1320 - u * u * u / 75600 - u * u * u * u / 6894720).
      { assert (V2 : 0 <= u * u <= 168) by nra. assert (V3 : 0 <= u * u * u <= 2180). { split; [apply Rmult_le_pos; lra|]. apply Rle_trans with (168 * (324 / 25)); [apply Rmult_le_compat; lra|lra]. }
        assert (u * u * u * u <= 28300) by (apply Rle_trans with (2180 * (324 / 25)); [apply Rmult_le_compat; lra|lra]).
        assert (0 <= (u - 330 / 21) * (u - 330 / 21)) by nra. lra. }
      apply Rmult_le_compat_l with (r := x * t0) in Q; [|nra]. eapply Rle_trans; [|eapply Rle_trans; [exact Q|]]; [lra|]. unfold u. apply Req_le. field. }
    unfold Rabs in *. repeat destruct (Rcase_abs _) in *; lra.
  Qed.
  Lemma gilbert_conv k : 0 < x -> / IZR (10 ^ 12) <= tol -> (60 <= k)%nat -> exists s c, _zFresnelIntgGilbert (PI / 2) tol k x = (true, s, c).
  Proof.
    intros Px Ht Hk. rewrite start. destruct (loopo k 0) as [[[|] s] c] eqn:H; [eauto|exfalso].
    pose proof (proj1 (went_on k) 0%nat s c H 26%nat ltac:(lia) ltac:(lia)) as W. pose proof (Fs_low 26 ltac:(lia)) as L.
    pose proof (tm_8 45) as A. pose proof (tm_8 47) as B. assert (Z0 : 0 < x * t0). { apply Rmult_lt_0_compat; auto. unfold t0. pose proof PI_RGT_0. assert (0 < PI / 2 * x) by (apply Rmult_lt_0_compat; lra). nra. }
    change (8 + 45)%nat with (S (2 * 26)) in A. change (8 + 47)%nat with (S (2 * S 26)) in B.
    assert (P45 : (1 / 2) ^ 45 <= / (3 * IZR (10 ^ 13))). { replace (1 / 2) with (/ 2) by lra. rewrite pow_inv by lra. apply Rinv_le_contravar; [|]; rewrite ?pow_IZR; cbn; lra. }
    assert (P47 : (1 / 2) ^ 47 <= / 1000). { replace (1 / 2) with (/ 2) by lra. rewrite pow_inv by lra. apply Rinv_le_contravar; [|]; rewrite ?pow_IZR; cbn; lra. }
    set (f := Rabs (Fs (S 26) x)) in *. set (a := tm (S (2 * 26))) in *. set (b := tm (S (2 * S 26))) in *. set (h := (1 / 2) ^ 45) in *. set (g := (1 / 2) ^ 47) in *.
    assert (F : x * t0 * (9 / 100) <= f) by nra. assert (G : x * t0 * (9 / 100) * / IZR (10 ^ 12) <= f * tol). { apply Rmult_le_compat; lra. }
    assert (A' : a <= 2 * (x * t0) * / (3 * IZR (10 ^ 13))). { eapply Rle_trans; [exact A|]. apply Rmult_le_compat_l; lra. } change (10 ^ 13)%Z with 10000000000000%Z in A'. change (10 ^ 12)%Z with 1000000000000%Z in G. clear - W G A' Z0. set (z := x * t0) in *. lra.
  Qed.
End Loop.

(** ** gamma function *)
Lemma inv_le a b : 0 < a -> a <= b -> / b <= / a. Proof. intros. now apply Rinv_le_contravar. Qed.
Lemma seed_pos x : 0 < x -> 0 < _zGammaSeed x.
Proof.
  intros Hx. unfold _zGammaSeed. cbn [sadd smul ssub sdiv sofZ s1 RealS].
  apply Rmult_lt_0_compat; [|now apply Rinv_0_lt_compat]. apply Rmult_lt_0_compat; [lra|]. unfold Rdiv.
  assert (H1 : / (x + 2) <= / (x + 1)) by (apply inv_le; lra). assert (H3 : / (x + 4) <= / (x + 3)) by (apply inv_le; lra). assert (H4 : / (x + 6) <= / (x + 4)) by (apply inv_le; lra).
  assert (H2 : / (x + 2) <= 3 / 2 * / (x + 3)). { apply Rmult_le_reg_r with ((x + 2) * (x + 3)); [nra|]. field_simplify; lra. }
  assert (P5 : 0 < / (x + 5)) by (apply Rinv_0_lt_compat; lra). assert (P3 : 0 < / (x + 3)) by (apply Rinv_0_lt_compat; lra). assert (P6 : 0 < / (x + 6)) by (apply Rinv_0_lt_compat; lra).
  lra.
Qed.
