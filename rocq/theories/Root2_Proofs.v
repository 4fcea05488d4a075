(** Golden section search, trisection, Brent's line search. *)
From Coq Require Import Reals Lra Lia Psatz.
From Verif Require Import Prelude Scalar RealLib Root_Model Root_Spec Root_Proofs.
From Verif Require Complex_Model.
Local Open Scope R_scope.

Lemma zEqual_R a b tol : Complex_Model.zEqual a b tol = Rleb (Rabs (a - b)) (tol * Complex_Model.smax 1 (Complex_Model.smax (Rabs a) (Rabs b))).
Proof. unfold Complex_Model.zEqual. rewrite is_tol_R. reflexivity. Qed.
Lemma smax_R a b : Complex_Model.smax a b = Rmax a b.
Proof. unfold Complex_Model.smax. cbn [slt RealS]. unfold Rmax. destruct (Rltb_spec b a), (Rle_dec a b); lra. Qed.
(** the interval is short: zEqual *)
Definition short (tol a b : R) : Prop := Rabs (a - b) <= tol * Rmax 1 (Rmax (Rabs a) (Rabs b)).
Lemma zEqual_spec a b tol : reflect (short tol a b) (Complex_Model.zEqual a b tol).
Proof. rewrite zEqual_R, !smax_R. apply Rleb_spec. Qed.
Lemma short_tol tol a b : Rabs (a - b) <= tol -> short tol a b.
Proof. intros H. unfold short. pose proof (Rmax_l 1 (Rmax (Rabs a) (Rabs b))). pose proof (Rabs_pos (a - b)). nra. Qed.
Lemma not_short tol a b : 0 <= tol -> a <= b -> ~ short tol a b -> a < b.
Proof.
  intros T H N. destruct (Req_dec a b) as [->|]; [|lra]. elim N. apply short_tol. unfold Rminus. rewrite Rplus_opp_r, Rabs_R0. exact T.
Qed.

Section Uni.
  Variables (f : R -> R) (a b m : R).
  Hypothesis U : unimodal f a b m.
  Lemma uni_gt x y : a <= x -> x < y -> y <= b -> f y < f x -> x <= m.
  Proof. intros A H B F. destruct (Rle_dec x m); [auto|]. destruct U as [_ [_ U2]]. specialize (U2 x y). lra. Qed.
  Lemma uni_lt x y : a <= x -> x < y -> y <= b -> f x < f y -> m <= y.
  Proof. intros A H B F. destruct (Rle_dec m y); [auto|]. destruct U as [_ [U1 _]]. specialize (U1 x y). lra. Qed.
  Lemma uni_ge x y : a <= x -> x < y -> y <= b -> f y <= f x -> x <= m.
  Proof. intros A H B F. destruct (Rle_dec x m); [auto|]. destruct U as [_ [_ U2]]. specialize (U2 x y). lra. Qed.
  Lemma uni_le x y : a <= x -> x < y -> y <= b -> f x <= f y -> m <= y.
  Proof. intros A H B F. destruct (Rle_dec m y); [auto|]. destruct U as [_ [U1 _]]. specialize (U1 x y). lra. Qed.

  Variable tol : R.
  Hypothesis T : 0 <= tol.
  Lemma tri_ok n : forall lo hi, a <= lo -> lo <= m -> m <= hi -> hi <= b ->
    let '(l, h) := tri_loop tol f n lo hi in
    a <= l /\ l <= m /\ m <= h /\ h <= b /\ (short tol l h \/ h - l <= (2 / 3) ^ n * (hi - lo)).
  Proof.
    induction n as [|n IH]; intros lo hi A M1 M2 B; cbn [tri_loop].
    - repeat split; auto. right. cbn [pow]. lra.
    - destruct (zEqual_spec lo hi tol) as [E|E]; [repeat split; auto|].
      assert (L : lo < hi) by (apply (not_short tol); auto; lra).
      cbn [sdiv sadd smul sofZ slt RealS]. set (x1 := (2 * lo + hi) / 3). set (x2 := (lo + 2 * hi) / 3).
      assert (X : lo < x1 /\ x1 < x2 /\ x2 < hi) by (unfold x1, x2; lra).
      assert (W : (hi - x1 = 2 / 3 * (hi - lo)) /\ x2 - lo = 2 / 3 * (hi - lo) /\ x2 - x1 = 1 / 3 * (hi - lo)) by (unfold x1, x2; lra).
      assert (P : 0 <= (2 / 3) ^ n) by (apply pow_le; lra).
      destruct (Rltb_spec (f x2) (f x1)) as [F|F]; [|destruct (Rltb_spec (f x1) (f x2)) as [G|G]].
      + assert (x1 <= m) by (apply (uni_gt x1 x2); lra). specialize (IH x1 hi). destruct (tri_loop _ _ _ _ _) as [l h].
        destruct IH as [I1 [I2 [I3 [I4 I5]]]]; try lra. repeat split; auto. destruct I5; [auto|right]. cbn [pow]. nra.
      + assert (m <= x2) by (apply (uni_lt x1 x2); lra). specialize (IH lo x2). destruct (tri_loop _ _ _ _ _) as [l h].
        destruct IH as [I1 [I2 [I3 [I4 I5]]]]; try lra. repeat split; auto. destruct I5; [auto|right]. cbn [pow]. nra.
      + assert (x1 <= m) by (apply (uni_ge x1 x2); lra). assert (m <= x2) by (apply (uni_le x1 x2); lra).
        specialize (IH x1 x2). destruct (tri_loop _ _ _ _ _) as [l h].
        destruct IH as [I1 [I2 [I3 [I4 I5]]]]; try lra. repeat split; auto. destruct I5; [auto|right]. cbn [pow]. nra.
  Qed.

  (** *** golden section with a ratio [g] near the root of g^2 - 3 g + 1 = 0: the inner points
      deviate by al and be from their places in the interval, one of which is 0 *)
  Variables (g eta : R).
  Hypothesis G : 38 / 100 <= g <= 3820 / 10000.
  Hypothesis ETA : Rabs (1 - 3 * g + g * g) <= eta.
  Local Notation gold := (@gold R).
  Definition ginv (D w : R) (s : gold) : Prop :=
    a <= gmin s /\ gmin s <= m /\ m <= gmax s /\ gmax s <= b /\ gmax s - gmin s <= w /\
    ge1 s = f (gx1 s) /\ ge2 s = f (gx2 s) /\
    exists al be, Rabs al <= D /\ Rabs be <= D /\ (al = 0 \/ be = 0) /\
      gx1 s = gmin s + (g + al) * (gmax s - gmin s) /\ gx2 s = gmax s - (g + be) * (gmax s - gmin s).
  Lemma abs_le x y : Rabs x <= y -> - y <= x <= y.
  Proof. unfold Rabs. destruct (Rcase_abs x); lra. Qed.
  Lemma init_ok : ginv 0 (b - a) (gold_init f g a b).
  Proof.
    destruct U as [[U1 U2] _]. unfold ginv, gold_init, gold1, gold2. cbv zeta. cbn [gmin gmax gx1 gx2 ge1 ge2 sadd ssub smul RealS].
    repeat split; auto; try lra. exists 0, 0. rewrite Rabs_R0. repeat split; try lra; try (left; reflexivity).
  Qed.
  Lemma dev_div (num den D : R) : Rabs num <= eta + D -> 608 / 1000 <= den -> 0 <= D -> Rabs (num / den) <= (eta + D) * (1000 / 608).
  Proof.
    intros N H D0. assert (0 <= eta) by (pose proof (Rabs_pos (1 - 3 * g + g * g)); lra).
    unfold Rdiv. rewrite Rabs_mult, (Rabs_right (/ den)) by (left; apply Rinv_0_lt_compat; lra).
    pose proof (Rabs_pos num).
    assert (/ den <= 1000 * / 608). { replace (1000 * / 608) with (/ (608 / 1000)) by field. apply Rinv_le_contravar; lra. }
    assert (0 < / den) by (apply Rinv_0_lt_compat; lra). nra.
  Qed.
  Lemma step_ok D w s : 0 <= D <= 1 / 100 -> gmin s < gmax s -> ginv D w s ->
    ginv ((eta + D) * (1000 / 608)) ((1 - g + D) * w) (gold_step f g s).
  Proof.
    intros DD L [A [M1 [M2 [B [W [E1 [E2 [al [be [AL [BE [Z [X1 X2]]]]]]]]]]]]].
    assert (ET : 0 <= eta) by (pose proof (Rabs_pos (1 - 3 * g + g * g)); lra).
    assert (NZ : Rabs 0 <= (eta + D) * (1000 / 608)) by (rewrite Rabs_R0; nra).
    pose proof (abs_le _ _ AL) as AL'. pose proof (abs_le _ _ BE) as BE'. pose proof (abs_le _ _ ETA) as ET'.
    set (len := gmax s - gmin s) in *. assert (LP : 0 < len) by (unfold len; lra).
    assert (O : gmin s < gx1 s /\ gx1 s < gx2 s /\ gx2 s < gmax s).
    { rewrite X1, X2. replace (gmax s) with (gmin s + len) by (unfold len; ring).
      assert (0 < (g + al) * len) by (apply Rmult_lt_0_compat; lra). assert (0 < (g + be) * len) by (apply Rmult_lt_0_compat; lra).
      assert (0 < (1 - (g + al) - (g + be)) * len) by (apply Rmult_lt_0_compat; lra). lra. }
    assert (W0 : (1 - g + D) * len <= (1 - g + D) * w) by (apply Rmult_le_compat_l; lra).
    destruct O as [O1 [O2 O3]].
    unfold gold_step, gold1, gold2. cbn [slt sadd ssub smul RealS]. rewrite E1, E2.
    destruct (Rltb_spec (f (gx2 s)) (f (gx1 s))) as [F|F]; [|destruct (Rltb_spec (f (gx1 s)) (f (gx2 s))) as [H|H]];
      unfold ginv; cbn [gmin gmax gx1 gx2 ge1 ge2].
    - assert (gx1 s <= m) by (apply (uni_gt (gx1 s) (gx2 s)); lra).
      assert (LN : gmax s - gx1 s = (1 - g - al) * len) by (rewrite X1; unfold len; ring).
      repeat split; auto; try lra.
      { rewrite LN. assert ((1 - g - al) * len <= (1 - g + D) * len) by (apply Rmult_le_compat_r; lra). lra. }
      exists (((1 - 3 * g + g * g) - be - al * (1 - g)) / (1 - g - al)), 0.
      split; [apply dev_div; try lra; destruct Z as [Z|Z]; rewrite Z in *; apply Rabs_le; nra|].
      split; [exact NZ|]. split; [auto|]. split.
      + rewrite LN, X2. replace (gx1 s) with (gmin s + (g + al) * len) by (rewrite X1; reflexivity).
        replace (gmax s) with (gmin s + len) by (unfold len; ring). field. lra.
      + ring.
    - assert (m <= gx2 s) by (apply (uni_lt (gx1 s) (gx2 s)); lra).
      assert (LN : gx2 s - gmin s = (1 - g - be) * len) by (rewrite X2; unfold len; ring).
      repeat split; auto; try lra.
      { rewrite LN. assert ((1 - g - be) * len <= (1 - g + D) * len) by (apply Rmult_le_compat_r; lra). lra. }
      exists 0, (((1 - 3 * g + g * g) - al - be * (1 - g)) / (1 - g - be)).
      split; [exact NZ|]. split; [apply dev_div; try lra; destruct Z as [Z|Z]; rewrite Z in *; apply Rabs_le; nra|].
      split; [auto|]. split.
      + ring.
      + rewrite LN, X1. replace (gx2 s) with (gmin s + (1 - g - be) * len) by (rewrite <- LN; ring). field. lra.
    - assert (gx1 s <= m) by (apply (uni_ge (gx1 s) (gx2 s)); lra). assert (m <= gx2 s) by (apply (uni_le (gx1 s) (gx2 s)); lra).
      assert (LN : gx2 s - gx1 s = (1 - g - be - (g + al)) * len) by (rewrite X2, X1; unfold len; ring).
      repeat split; auto; try lra.
      { rewrite LN. assert ((1 - g - be - (g + al)) * len <= (1 - g + D) * len) by (apply Rmult_le_compat_r; lra). lra. }
      exists 0, 0. repeat split; auto; ring.
  Qed.
  Variables (K : nat) (D : nat -> R) (r : R).
  Hypothesis D1 : forall k, (k < K)%nat -> 0 <= D k <= 1 / 100.
  Hypothesis D2 : forall k, (k < K)%nat -> (eta + D k) * (1000 / 608) <= D (S k).
  Hypothesis D3 : forall k, (k < K)%nat -> 1 - g + D k <= r.
  Lemma ginv_mono d d' w w' s : d <= d' -> w <= w' -> ginv d w s -> ginv d' w' s.
  Proof.
    intros H1 H2 [A [M1 [M2 [B [W [E1 [E2 [al [be [AL [BE [Z [X1 X2]]]]]]]]]]]]]. repeat split; auto; try lra.
    exists al, be. repeat split; auto; lra.
  Qed.
  Lemma gold_ok n : forall k s, (k <= K)%nat -> ginv (D k) (r ^ k * (b - a)) s ->
    ((k + n <= K)%nat \/ r ^ K * (b - a) <= tol) ->
    let s' := gold_loop tol f g n s in
    a <= gmin s' /\ gmin s' <= m /\ m <= gmax s' /\ gmax s' <= b /\
    (short tol (gmin s') (gmax s') \/ gmax s' - gmin s' <= r ^ (k + n) * (b - a)).
  Proof.
    assert (AB : 0 <= b - a) by (destruct U; lra).
    induction n as [|n IH]; intros k s KK I KN; cbv zeta; cbn [gold_loop].
    - destruct I as [A [M1 [M2 [B [W _]]]]]. repeat split; auto. right. rewrite Nat.add_0_r. lra.
    - destruct (zEqual_spec (gmin s) (gmax s) tol) as [E|E].
      + destruct I as [A [M1 [M2 [B [W _]]]]]. repeat split; auto.
      + assert (L : gmin s < gmax s) by (destruct I as [A [M1 [M2 _]]]; apply (not_short tol); auto; lra).
        assert (KL : (k < K)%nat).
        { destruct (Nat.eq_dec k K) as [->|]; [|lia]. exfalso. destruct KN as [KN|KN]; [lia|].
          apply E, short_tol. destruct I as [_ [_ [_ [_ [W _]]]]]. rewrite Rabs_minus_sym, Rabs_right by lra. lra. }
        assert (RP : 0 <= r) by (specialize (D1 k KL); specialize (D3 k KL); lra).
        specialize (IH (S k) (gold_step f g s)). replace (k + S n)%nat with (S k + n)%nat by lia. apply IH; [lia| |destruct KN; [left; lia|auto]].
        pose proof (step_ok _ _ _ (D1 k KL) L I) as ST. refine (ginv_mono _ _ _ _ _ (D2 k KL) _ ST).
        cbn [pow]. assert (0 <= r ^ k) by (apply pow_le; auto). rewrite Rmult_assoc. apply Rmult_le_compat_r; [apply Rmult_le_pos; lra|exact (D3 k KL)].
  Qed.
End Uni.

(** the exact golden ratio: no deviation *)
Lemma gold_exact f a b m tol : unimodal f a b m -> 0 <= tol -> forall g, g * g - 3 * g + 1 = 0 -> g < 1 -> forall n,
    let s := gold_loop tol f g n (gold_init f g a b) in
    a <= gmin s /\ gmin s <= m /\ m <= gmax s /\ gmax s <= b /\
    (short tol (gmin s) (gmax s) \/ gmax s - gmin s <= (1 - g) ^ n * (b - a)).
Proof.
  intros U T g GE GL n.
  assert (G : 38 / 100 <= g <= 3820 / 10000) by nra.
  assert (ETA : Rabs (1 - 3 * g + g * g) <= 0) by (replace (1 - 3 * g + g * g) with 0 by lra; rewrite Rabs_R0; lra).
  apply (gold_ok f a b m U tol T g 0 G ETA n (fun _ => 0) (1 - g)) with (k := 0%nat); intros; try lra; try lia; auto.
  cbn [pow]. rewrite Rmult_1_l. exact (init_ok f a b m U g).
Qed.

(** the constant of the library: the deviations stay small for 60 iterations *)
Definition g0 : R := zGOLDENRATIO2.
Lemma g0_val : g0 = 381966011250105 / 1000000000000000.
Proof. reflexivity. Qed.
Definition eta0 : R := 4 / 10 ^ 16.
Definition D60 (k : nat) : R := 11 / 10 ^ 16 * ((329 / 200) ^ k - 1).
Lemma pow_frac (p q : Z) n : (0 < q)%Z -> (IZR p / IZR q) ^ n = IZR (p ^ Z.of_nat n) / IZR (q ^ Z.of_nat n).
Proof.
  intros Q. assert (IZR q <> 0) by (apply not_0_IZR; lia). unfold Rdiv. rewrite Rpow_mult_distr, pow_inv, <- !pow_IZR by auto. reflexivity.
Qed.
Lemma pow_frac_le (p q c d : Z) n : (0 < q)%Z -> (0 < d)%Z -> (p ^ Z.of_nat n * d <=? c * q ^ Z.of_nat n = true)%Z ->
  (IZR p / IZR q) ^ n <= IZR c / IZR d.
Proof.
  intros Q P H. apply Z.leb_le in H. rewrite pow_frac by auto.
  assert (0 < IZR (q ^ Z.of_nat n)) by (apply IZR_lt, Z.pow_pos_nonneg; lia). assert (0 < IZR d) by (apply IZR_lt; lia).
  apply (Rmult_le_reg_r (IZR (q ^ Z.of_nat n) * IZR d)); [apply Rmult_lt_0_compat; auto|].
  replace (IZR (p ^ Z.of_nat n) / IZR (q ^ Z.of_nat n) * (IZR (q ^ Z.of_nat n) * IZR d)) with (IZR (p ^ Z.of_nat n) * IZR d) by (field; lra).
  replace (IZR c / IZR d * (IZR (q ^ Z.of_nat n) * IZR d)) with (IZR c * IZR (q ^ Z.of_nat n)) by (field; lra).
  rewrite <- !mult_IZR. apply IZR_le, H.
Qed.
Lemma rho60 k : (k < 60)%nat -> 1 <= (329 / 200) ^ k <= 60 * 10 ^ 11.
Proof.
  intros H. split; [apply pow_R1_Rle; lra|].
  apply Rle_trans with ((329 / 200) ^ 59); [apply Rle_pow; [lra|lia]|].
  replace (60 * 10 ^ 11) with (IZR 6000000000000 / IZR 1) by (cbn [pow]; lra).
  apply pow_frac_le; [lia|lia|]. vm_compute. reflexivity.
Qed.
Lemma gold_library f a b m tol : unimodal f a b m -> 0 <= tol -> forall n,
    ((n <= 60)%nat \/ (1 / 10 ^ 12) * (b - a) <= tol) ->
    let s := gold_loop tol f g0 n (gold_init f g0 a b) in
    a <= gmin s /\ gmin s <= m /\ m <= gmax s /\ gmax s <= b /\
    (short tol (gmin s) (gmax s) \/ gmax s - gmin s <= (6275 / 10000) ^ n * (b - a)).
Proof.
  intros U T n N.
  assert (G : 38 / 100 <= g0 <= 3820 / 10000) by (rewrite g0_val; lra).
  assert (ETA : Rabs (1 - 3 * g0 + g0 * g0) <= eta0) by (rewrite g0_val; unfold eta0; cbn [pow]; apply Rabs_le; lra).
  apply (gold_ok f a b m U tol T g0 eta0 G ETA 60 D60 (6275 / 10000)) with (k := 0%nat).
  - intros k K. pose proof (rho60 k K). unfold D60. cbn [pow] in *. lra.
  - intros k K. pose proof (rho60 k K). unfold D60, eta0. cbn [pow] in *. lra.
  - intros k K. pose proof (rho60 k K). unfold D60. rewrite g0_val. cbn [pow] in *. lra.
  - lia.
  - assert (E : D60 0 = 0) by (unfold D60; cbn [pow]; lra). rewrite E. cbn [pow]. rewrite Rmult_1_l. exact (init_ok f a b m U g0).
  - destruct N as [N|N]; [left; lia|right]. assert (0 <= b - a) by (destruct U; lra).
    apply Rle_trans with (1 / 10 ^ 12 * (b - a)); [|exact N]. apply Rmult_le_compat_r; [auto|].
    replace (10 ^ 12) with 1000000000000 by (cbn [pow]; lra). apply pow_frac_le; [lia|lia|]. vm_compute. reflexivity.
Qed.

(** *** Brent *)
Section Brent.
  Variables (f : R -> R) (a b m : R).
  Hypothesis U : unimodal f a b m.
  Variables (ztol eps g : R).
  Hypothesis Z : 0 <= ztol.
  Hypothesis E : 0 <= eps.
  Hypothesis G : 0 <= g <= 1.
  Definition binv (s : brent (T := R)) : Prop :=
    a <= ba s /\ ba s <= m <= bb s /\ bb s <= b /\ ba s <= bx s <= bb s /\ bex s = f (bx s) /\ f (bx s) <= f (/ 2 * (a + b)).
  Lemma btol_pos s : 0 <= brent_tol1 ztol eps s.
  Proof. unfold brent_tol1. cbn [sadd smul sabs RealS]. pose proof (Rabs_pos (bx s)). nra. Qed.
  Lemma abs_lt_inv x y : ~ Rabs x <= y -> y < Rabs x. Proof. lra. Qed.
  Lemma ds_ok s : ba s <= bx s <= bb s -> brent_done ztol eps s = false -> ba s <= bx s + fst (brent_ds ztol g eps s) <= bb s.
  Proof.
    intros X N. unfold brent_done in N. rewrite is_tol_R in N. cbn [ssub smul sdiv sofZ s1 RealS] in N.
    destruct (Rleb_spec (Rabs (brent_dm s)) (2 * brent_tol1 ztol eps s - 1 / 2 * (bb s - ba s))) as [|N']; [discriminate|]. clear N.
    pose proof (btol_pos s) as TP. unfold brent_ds. set (t1 := brent_tol1 ztol eps s) in *.
    assert (DM : brent_dm s = bx s - (1 / 2 * (ba s + bb s))) by reflexivity.
    set (gs := if sle s0 (brent_dm s) then _ else _).
    assert (GS : ba s <= bx s + (g * gs)%R <= bb s).
    { unfold gs. cbn [sle s0 ssub RealS]. destruct (Rleb_spec 0 (brent_dm s)); nra. }
    rewrite !is_tol_R. cbn [sle slt sadd smul ssub sdiv sopp sabs s0 s1 sofZ RealS].
    destruct (Rleb _ _); [exact GS|].
    match goal with |- context [Rltb 0 ?q] => set (q0 := q) end.
    match goal with |- context [if Rltb 0 q0 then ?x else ?y] => set (p0 := if Rltb 0 q0 then x else y) end.
    destruct (negb _); [exact GS|]. cbn [orb].
    destruct (Rleb_spec p0 (Rabs q0 * (ba s - bx s))) as [L1|L1]; [exact GS|]. cbn [orb].
    destruct (Rleb_spec (Rabs q0 * (bb s - bx s)) p0) as [L2|L2]; [exact GS|]. cbn [fst].
    pose proof (Rabs_pos q0) as Q0.
    assert (QP : 0 < Rabs q0) by (destruct Q0 as [|Q0]; [auto|rewrite <- Q0 in *; lra]).
    assert (IN : ba s <= bx s + p0 / Rabs q0 <= bb s).
    { assert (EE : p0 = p0 / Rabs q0 * Rabs q0) by (field; lra). set (k := p0 / Rabs q0) in *. nra. }
    match goal with |- context [if ?c then _ else p0 / _] => destruct c end; [|exact IN].
    destruct (Rleb_spec (brent_dm s) 0) as [DL|DL].
    - rewrite Rabs_left1 in N' by lra. rewrite DM in N'. lra.
    - rewrite Rabs_right in N' by lra. rewrite DM in N'. lra.
  Qed.
  (** everything but the minimiser *)
  Definition binv0 (s : brent (T := R)) : Prop :=
    a <= ba s /\ bb s <= b /\ ba s <= bx s <= bb s /\ bex s = f (bx s) /\ f (bx s) <= f (/ 2 * (a + b)).
  Lemma bstep_ok s : binv s -> brent_done ztol eps s = false -> fst (brent_ds ztol g eps s) <> 0 -> binv (brent_step ztol f g eps s).
  Proof.
    intros [A [M [B [X [EX FX]]]]] N N0. pose proof (ds_ok s X N) as DS.
    unfold brent_step. destruct (brent_ds ztol g eps s) as [d s']. cbn [fst] in DS, N0.
    cbn [sle slt sadd s0 RealS]. set (u := bx s + d) in *. rewrite EX.
    destruct (Rleb_spec (f u) (f (bx s))) as [L|L].
    - unfold binv. cbn [ba bb bx bex]. destruct (Rleb_spec 0 d) as [D|D].
      + assert (bx s <= m).
        { apply (uni_ge f a b m U (bx s) u); unfold u in *; lra. }
        unfold u in *. repeat split; auto; lra.
      + assert (m <= bx s) by (apply (uni_le f a b m U u (bx s)); unfold u in *; lra).
        unfold u in *. repeat split; auto; lra.
    - assert (DN : d <> 0) by (intros ->; unfold u in L; rewrite Rplus_0_r in L; lra).
      assert (K : forall v w ev ew, binv (BR (if Rltb d 0 then u else ba s) (if Rltb d 0 then bb s else u) v w (bx s) ev ew (bex s) d s')).
      { intros. unfold binv. cbn [ba bb bx bex]. destruct (Rltb_spec d 0).
        - assert (u <= m) by (apply (uni_gt f a b m U u (bx s)); unfold u in *; lra). unfold u in *. repeat split; auto; lra.
        - assert (m <= u) by (apply (uni_lt f a b m U (bx s) u); unfold u in *; lra). unfold u in *. repeat split; auto; lra. }
      rewrite EX in K. destruct (_ || _); [apply K|]. destruct (_ || _); apply K.
  Qed.
  Lemma bstep0_ok s : binv0 s -> brent_done ztol eps s = false -> binv0 (brent_step ztol f g eps s).
  Proof.
    intros [A [B [X [EX FX]]]] N. pose proof (ds_ok s X N) as DS.
    unfold brent_step. destruct (brent_ds ztol g eps s) as [d s']. cbn [fst] in DS.
    cbn [sle slt sadd s0 RealS]. set (u := bx s + d) in *. rewrite EX.
    destruct (Rleb_spec (f u) (f (bx s))) as [L|L].
    - unfold binv0. cbn [ba bb bx bex]. destruct (Rleb_spec 0 d) as [D|D]; unfold u in *; repeat split; auto; lra.
    - assert (DN : d <> 0) by (intros ->; unfold u in L; rewrite Rplus_0_r in L; lra).
      assert (K : forall v w ev ew, binv0 (BR (if Rltb d 0 then u else ba s) (if Rltb d 0 then bb s else u) v w (bx s) ev ew (bex s) d s')).
      { intros. unfold binv0. cbn [ba bb bx bex]. destruct (Rltb_spec d 0); unfold u in *; repeat split; auto; lra. }
      rewrite EX in K. destruct (_ || _); [apply K|]. destruct (_ || _); apply K.
  Qed.
  (** no step of length zero is made *)
  Fixpoint moves (n : nat) (s : brent (T := R)) : Prop :=
    match n with
    | O => True
    | S n => if brent_done ztol eps s then True
             else fst (brent_ds ztol g eps s) <> 0 /\ moves n (brent_step ztol f g eps s)
    end.
  Lemma bloop0_ok n : forall s, binv0 s -> binv0 (brent_loop ztol f g eps n s).
  Proof.
    induction n as [|n IH]; intros s I; cbn [brent_loop]; [exact I|].
    destruct (brent_done ztol eps s) eqn:D; [exact I|]. apply IH, bstep0_ok; auto.
  Qed.
  Lemma bloop_ok n : forall s, binv s -> moves n s ->
    let s' := brent_loop ztol f g eps n s in
    binv s' /\ (brent_done ztol eps s' = true -> Rabs (bx s' - m) <= 2 * (eps * Rabs (bx s') + ztol)).
  Proof.
    assert (DN : forall s, binv s -> brent_done ztol eps s = true -> Rabs (bx s - m) <= 2 * (eps * Rabs (bx s) + ztol)).
    { intros s [A [M [B [X [EX FX]]]]] D. unfold brent_done in D. rewrite is_tol_R in D. cbn [ssub smul sdiv sofZ s1 RealS] in D.
      destruct (Rleb_spec (Rabs (brent_dm s)) (2 * brent_tol1 ztol eps s - 1 / 2 * (bb s - ba s))) as [N|]; [|discriminate].
      change (brent_tol1 ztol eps s) with (eps * Rabs (bx s) + ztol) in N. set (t := eps * Rabs (bx s) + ztol) in *.
      change (brent_dm s) with (bx s - (1 / 2 * (ba s + bb s))) in N. apply abs_le in N. apply Rabs_le. lra. }
    induction n as [|n IH]; intros s I MV; cbv zeta; cbn [brent_loop].
    - split; [exact I|apply DN, I].
    - cbn [moves] in MV. destruct (brent_done ztol eps s) eqn:D; [split; [exact I|intros _; apply DN; auto]|].
      destruct MV as [M1 M2]. apply IH; [apply bstep_ok; auto|exact M2].
  Qed.
End Brent.
