(** Creation of the PCHIP and Akima interpolators. *)
From Coq Require Import Reals Lra Lia.
From Verif Require Import Prelude Prelude_Proofs Scalar RealLib Fmat Fmat_Proofs LE_Model IP_Model IP_Spec IP_Proofs IP2_Proofs.
Local Open Scope R_scope.
Local Notation points := (list (R * fvec R)).

(** ** PCHIP *)
Section Pchip.
Variables (s : points) (m : nat) (tol : R).
Hypothesis (Dm : dim s m) (Ht : 0 <= tol).
Let n := length s.
Lemma grad3_ok V d i k0 i0 k1 i1 k2 i2 : repr s m V d -> (i < n)%nat -> (i0 < n)%nat -> (i1 < n)%nat -> (i2 < n)%nat ->
  exists d', grad3 d i k0 i0 k1 i1 k2 i2 = Ok d' /\ repr s m (fun k q => if (k =? i)%nat then k0 * pt s i0 q + k1 * pt s i1 q + k2 * pt s i2 q else V k q) d'.
Proof.
  intros Hd Hi H0 H1 H2. unfold grad3.
  destruct (repr_va _ _ _ _ Hd i Hi) as (v & -> & Lv & Ev). destruct (repr_vec _ _ _ _ Hd Dm i0 H0) as (x0 & -> & L0 & E0).
  destruct (repr_vec _ _ _ _ Hd Dm i1 H1) as (x1 & -> & L1 & E1). destruct (repr_vec _ _ _ _ Hd Dm i2 H2) as (x2 & -> & L2 & E2). cbn [bind].
  rewrite catDRC_ok by (cbn; congruence). cbn [bind]. rewrite catDRC_ok by (cbn; congruence). cbn [bind]. rewrite catDRC_ok by (cbn; congruence). cbn [bind].
  apply (repr_set_va s m V d Hd); auto.
  - intros j Hj. rewrite Nat.eqb_refl. cbn. rewrite E0, E1, E2. rs. ring.
  - intros k j Hk Hki Hj. replace (k =? i)%nat with false by nbts. auto.
Qed.
(** the gradients before limiting *)
Definition pch0 (k q : nat) : R :=
  if (k =? 0)%nat then ((gap s 1 + (gap s 1 + gap s 2)) * slope s 0 q - gap s 1 * slope s 1 q) / (gap s 1 + gap s 2)
  else if (S k =? n)%nat then
    let a := gap s (k - 1) in let b := gap s k in
    b / (a * (a + b)) * pt s (k - 2) q - (a + b) / (a * b) * pt s (k - 2) q + (b + (a + b)) / (b * (a + b)) * pt s k q
  else (gap s (S k) * slope s (k - 1) q + gap s k * slope s k q) / (gap s k + gap s (S k)).
Hypothesis (Hn : (3 <= n)%nat) (A : apart 0 s).
Lemma gpos i : (1 <= i < n)%nat -> 0 < gap s i. Proof. apply A. Qed.
Lemma pchip_init V d : repr s m V d -> exists d', zIPInitPCHIP d = Ok d' /\ repr s m pch0 d'.
Proof.
  intros Hd. unfold zIPInitPCHIP. rewrite (repr_size _ _ _ _ Hd). fold n. rewrite !(repr_dt _ _ _ _ Hd) by (fold n; lia). cbn [bind].
  match goal with |- context [grad3 d 0 ?k0 0 ?k1 1 ?k2 2] => destruct (grad3_ok V d 0 k0 0 k1 1 k2 2) as (d1 & -> & H1); [auto|lia..|] end. cbn [bind].
  match goal with |- context [for_ ?lo ?hi ?f ?s00] => destruct (for_inv (fun i d => repr s m (fun k q => if (k <? i)%nat then pch0 k q else V k q) d) lo hi f s00) as (d2 & -> & H2) end.
  - lia.
  - eapply repr_ext; [|exact H1]. intros k q Hk Hq. cbv beta. destruct (Nat.eqb_spec k 0) as [->|]; [|replace (k <? 1)%nat with false by nbts; auto].
    cbn [Nat.ltb Nat.leb]. unfold pch0. cbn [Nat.eqb]. rewrite <- !gap_slope. rs. pose proof (gpos 1 ltac:(lia)). pose proof (gpos 2 ltac:(lia)). field. repeat split; lra.
  - intros i d' Hi Hd'. rewrite !(repr_dt _ _ _ _ Hd') by (fold n; lia). cbn [bind].
    match goal with |- context [grad3 d' i ?k0 ?i0 ?k1 ?i1 ?k2 ?i2] => destruct (grad3_ok _ d' i k0 i0 k1 i1 k2 i2 Hd') as (d3 & -> & H3); [lia..|] end.
    eexists; split; [reflexivity|]. eapply repr_ext; [|exact H3]. intros k q Hk Hq. cbv beta. destruct (Nat.eqb_spec k i) as [->|]; [|replace (k <? S i)%nat with (k <? i)%nat by nbts; auto].
    replace (i <? S i)%nat with true by nbts. unfold pch0. replace (i =? 0)%nat with false by nbts. replace (S i =? n)%nat with false by nbts.
    rewrite <- !gap_slope. replace (S (i - 1)) with i by lia. replace (i + 1)%nat with (S i) by lia. rs. pose proof (gpos i ltac:(lia)). pose proof (gpos (S i) ltac:(lia)). field. repeat split; lra.
  - cbn [bind]. rewrite !(repr_dt _ _ _ _ H2) by (fold n; lia). cbn [bind].
    match goal with |- context [grad3 d2 ?i ?k0 ?i0 ?k1 ?i1 ?k2 ?i2] => destruct (grad3_ok _ d2 i k0 i0 k1 i1 k2 i2 H2) as (d3 & -> & H3); [lia..|] end.
    eexists; split; [reflexivity|]. eapply repr_ext; [|exact H3]. intros k q Hk Hq. fold n in Hk. cbv beta. destruct (Nat.eqb_spec k (n - 1)) as [->|]; [|replace (k <? n - 1)%nat with true by nbts; auto].
    unfold pch0. replace (n - 1 =? 0)%nat with false by nbts. replace (S (n - 1) =? n)%nat with true by nbts. rs. cbv zeta.
    pose proof (gpos (n - 1) ltac:(lia)). pose proof (gpos (n - 1 - 1) ltac:(lia)). field. repeat split; lra.
Qed.
Definition good q k := tol < Rabs (slope s k q) /\ sqrt (pch0 k q / slope s k q * (pch0 k q / slope s k q) + pch0 (S k) q / slope s k q * (pch0 (S k) q / slope s k q)) < 3.
Definition pinv (i q : nat) (X : nat -> R) : Prop :=
  (forall k, (k < n)%nat -> exists l, 0 <= l <= 1 /\ X k = l * pch0 k q) /\
  (forall k, (k < i)%nat -> Rabs (X k) <= 3 * Rabs (slope s k q) /\ Rabs (X (S k)) <= 3 * Rabs (slope s k q)) /\
  ((forall k, (k < i)%nat -> good q k) -> forall k, (k < n)%nat -> X k = pch0 k q) /\
  (forall K, (forall k, (k < K)%nat -> good q k) -> forall k, (k < K)%nat -> (k < n)%nat -> X k = pch0 k q).
Lemma pchip_step_ok V d i j : repr s m V d -> (S i < n)%nat -> (j < m)%nat -> pinv i j (fun k => V k j) ->
  exists d' V', pchip_step tol i j d = Ok d' /\ repr s m V' d' /\ (forall k q, q <> j -> V' k q = V k q) /\ pinv (S i) j (fun k => V' k j).
Proof.
  intros Hd Hi Hj (I1 & I2 & I3 & I4). unfold pchip_step. rewrite !(repr_val _ _ _ _ Hd) by (fold n; auto; lia). rewrite (repr_dt _ _ _ _ Hd) by (fold n; lia). cbn [bind].
  replace (i + 1)%nat with (S i) by lia. set (D := (pt s (S i) j - pt s i j) / gap s (S i)).
  assert (ED : slope s i j = D) by (unfold D; rewrite gap_slope; auto).
  assert (Shrink : forall l, 0 <= l <= 1 -> (tol < Rabs D -> Rabs (l * V i j) <= 3 * Rabs D /\ Rabs (l * V (S i) j) <= 3 * Rabs D) ->
    (Rabs D <= tol -> l = 0) -> (good j i -> (forall k, (k < n)%nat -> V k j = pch0 k j) -> l = 1) ->
    forall V', (forall k q, V' k q = if (q =? j)%nat && ((k =? i)%nat || (k =? S i)%nat) then l * V k q else V k q) ->
    (forall k q, q <> j -> V' k q = V k q) /\ pinv (S i) j (fun k => V' k j)).
  { intros l Hl HD H0 HG V' EV. split; [intros k q Hq; rewrite EV; replace (q =? j)%nat with false by nbts; auto|].
    assert (EV2 : forall k, V' k j = if ((k =? i)%nat || (k =? S i)%nat) then l * V k j else V k j) by (intros k; rewrite EV, Nat.eqb_refl; auto).
    split; [|split; [|split]].
    - intros k Hk. destruct (I1 k Hk) as (l' & Hl' & E). rewrite EV2. destruct ((k =? i)%nat || (k =? S i)%nat).
      + exists (l * l'). split; [split; [apply Rmult_le_pos; lra|]|rewrite E; ring]. replace 1 with (1 * 1) by ring. apply Rmult_le_compat; lra.
      + exists l'. auto.
    - assert (Sm : forall k, Rabs (V' k j) <= Rabs (V k j)).
      { intros k. rewrite EV2. destruct ((k =? i)%nat || (k =? S i)%nat); [|lra]. rewrite Rabs_mult, (Rabs_pos_eq l) by lra. pose proof (Rabs_pos (V k j)). nra. }
      intros k Hk. destruct (Nat.eq_dec k i) as [->|].
      + rewrite !EV2, Nat.eqb_refl. replace (S i =? S i)%nat with true by (symmetry; apply Nat.eqb_refl). rewrite orb_true_r. cbn [orb]. rewrite ED.
        destruct (Rle_or_lt (Rabs D) tol) as [L|L]; [|auto]. rewrite (H0 L), !Rmult_0_l, Rabs_R0. pose proof (Rabs_pos D). lra.
      + destruct (I2 k ltac:(lia)). pose proof (Sm k). pose proof (Sm (S k)). cbv beta in *. lra.
    - intros G k Hk. assert (Eq : forall k, (k < n)%nat -> V k j = pch0 k j) by (apply I3; intros; apply G; lia).
      rewrite EV2, (HG (G i ltac:(lia)) Eq). rewrite Eq by auto. destruct ((k =? i)%nat || (k =? S i)%nat); ring.
    - intros K G k Hk Hkn. destruct (Nat.lt_ge_cases i K) as [L|L].
      + assert (Eq : forall k, (k < n)%nat -> V k j = pch0 k j) by (apply I3; intros; apply G; lia).
        rewrite EV2, (HG (G i L) Eq). rewrite Eq by auto. destruct ((k =? i)%nat || (k =? S i)%nat); ring.
      + rewrite EV2. replace (k =? i)%nat with false by nbts. replace (k =? S i)%nat with false by nbts. cbn [orb]. eapply I4; eauto. }
  assert (Two : forall l x y, x = l * V i j -> y = l * V (S i) j -> exists d' V', (d1 <- set_vae d i j x ;; set_vae d1 (S i) j y) = Ok d' /\ repr s m V' d' /\
     (forall k q, V' k q = if (q =? j)%nat && ((k =? i)%nat || (k =? S i)%nat) then l * V k q else V k q)).
  { intros l x y Ex Ey. destruct (repr_set_vae s m V d Hd i j x (fun k q => if (q =? j)%nat && (k =? i)%nat then l * V k q else V k q)) as (d1 & -> & H1).
    - fold n. lia. - auto. - rewrite !Nat.eqb_refl. auto.
    - intros k q Hk Hq O. destruct (Nat.eqb_spec q j), (Nat.eqb_spec k i); cbn [andb]; auto. lia.
    - cbn [bind]. destruct (repr_set_vae s m _ d1 H1 (S i) j y (fun k q => if (q =? j)%nat && ((k =? i)%nat || (k =? S i)%nat) then l * V k q else V k q)) as (d2 & -> & H2).
      + fold n. lia. + auto. + rewrite !Nat.eqb_refl. rewrite orb_true_r. auto.
      + intros k q Hk Hq O. destruct (Nat.eqb_spec q j), (Nat.eqb_spec k i), (Nat.eqb_spec k (S i)); cbn [andb orb]; auto; lia.
      + exists d2. eexists. split; [reflexivity|]. split; [exact H2|]. intros; reflexivity. }
  assert (Same : (forall k q, q <> j -> V k q = V k q) /\ (tol < Rabs D -> Rabs (V i j) <= 3 * Rabs D /\ Rabs (V (S i) j) <= 3 * Rabs D) -> tol < Rabs D -> pinv (S i) j (fun k => V k j)).
  { intros [_ HD] L. apply (Shrink 1); [lra| |intros; lra|auto|].
    - rewrite !Rmult_1_l. auto.
    - intros k q. destruct ((q =? j)%nat && ((k =? i)%nat || (k =? S i)%nat)); ring. }
  change (@sdiv R _ (@ssub R _ (pt s (S i) j) (pt s i j)) (gap s (S i))) with D. rewrite is_tol_R. destruct (Rleb_spec (Rabs D) tol) as [L|L].
  - destruct (Two 0 0 0) as (d' & V' & E & H' & EV); [ring..|]. rs. exists d', V'. split; [exact E|]. split; auto. apply (Shrink 0); auto; try lra.
    intros [G _] _. rewrite ED in G. lra.
  - rewrite !(repr_vae _ _ _ _ Hd) by (fold n; auto; lia). cbn [bind].
    assert (D0 : D <> 0) by (intros E; rewrite E, Rabs_R0 in L; lra).
    assert (DP : 0 < Rabs D) by (apply Rabs_pos_lt; auto).
    rs. set (a := V i j / D). set (b := V (S i) j / D). set (l := sqrt (a * a + b * b)).
    assert (Ea : V i j = a * D) by (unfold a; field; auto). assert (Eb : V (S i) j = b * D) by (unfold b; field; auto).
    assert (NL : 0 <= a * a + b * b) by nra.
    assert (La : Rabs a <= l) by (unfold l; rewrite <- sqrt_Rsqr_abs; apply sqrt_le_1; unfold Rsqr; nra).
    assert (Lb : Rabs b <= l) by (unfold l; rewrite <- sqrt_Rsqr_abs; apply sqrt_le_1; unfold Rsqr; nra).
    replace (IZR (3)) with 3 by auto. destruct (Rleb_spec 3 l) as [L3|L3].
    + destruct (Two (3 / l) (a * D * 3 / l) (b * D * 3 / l)) as (d' & V' & E & H' & EV); [rewrite ?Ea, ?Eb; field; lra..|].
      exists d', V'. split; [exact E|]. split; auto.
      assert (Hl : 0 <= 3 / l <= 1). { split; [apply Rmult_le_pos; [lra|]; left; apply Rinv_0_lt_compat; lra|]. apply (Rmult_le_reg_r l); [lra|]. unfold Rdiv. rewrite Rmult_assoc, Rinv_l; lra. }
      apply (Shrink (3 / l)); auto.
      * intros _. rewrite Ea, Eb, !Rabs_mult. rewrite (Rabs_pos_eq (3 / l)) by lra.
        assert (forall x, Rabs x <= l -> 3 / l * (Rabs x * Rabs D) <= 3 * Rabs D).
        { intros x Hx. replace (3 / l * (Rabs x * Rabs D)) with (3 * Rabs D * (Rabs x / l)) by (field; lra).
          assert (Rabs x / l <= 1) by (apply (Rmult_le_reg_r l); [lra|]; unfold Rdiv; rewrite Rmult_assoc, Rinv_l; lra). nra. }
        auto.
      * intros. lra.
      * intros [_ G] Eq. exfalso. rewrite ED, <- !Eq in G by lia. fold a b l in G. lra.
    + exists d, V. split; [reflexivity|]. split; auto. split; auto. apply Same; [split; auto|lra].
      intros _. rewrite Ea, Eb, !Rabs_mult. split; apply Rmult_le_compat_r; lra.
Qed.
Lemma pchip_create : exists d V, zIPCreatePCHIP tol s = Ok d /\ repr s m V d /\ forall q, (q < m)%nat -> pinv (n - 1) q (fun k => V k q).
Proof.
  unfold zIPCreatePCHIP. assert (NE : s <> []) by (intros E; unfold n in Hn; rewrite E in Hn; cbn in Hn; lia).
  destruct (alloc_ok s m NE Dm) as (d0 & -> & H0). cbn [bind]. destruct (pchip_init _ _ H0) as (d1 & -> & H1). cbn [bind].
  unfold zIPModifyPCHIP. destruct (repr_vec _ _ _ _ H1 Dm 0) as (x & -> & Lx & _); [fold n; lia|]. cbn [bind]. rewrite Lx. rewrite (repr_size _ _ _ _ H1). fold n.
  match goal with |- context [for_ ?lo ?hi ?f ?s00] => destruct (for_inv (fun i d => exists V, repr s m V d /\ forall q, (q < m)%nat -> pinv i q (fun k => V k q)) lo hi f s00) as (d2 & -> & V & H2 & H3) end.
  - lia.
  - exists pch0. split; auto. intros q Hq. split; [|split; [|split]]; auto; try lia. intros k Hk. exists 1. split; [lra|ring].
  - intros i d Hi (V & Hd & HV).
    match goal with |- context [for_ ?lo ?hi ?f ?s00] => destruct (for_inv (fun j d => exists V, repr s m V d /\ forall q, (q < m)%nat -> pinv (if (q <? j)%nat then S i else i) q (fun k => V k q)) lo hi f s00) as (d2 & -> & V2 & H2 & H3) end.
    + lia.
    + exists V. split; auto.
    + intros j d' Hj (V' & Hd' & HV'). destruct (pchip_step_ok V' d' i j Hd') as (d2 & V2 & -> & H2 & O & P); [lia|lia| |].
      { specialize (HV' j ltac:(lia)). replace (j <? j)%nat with false in HV' by nbts. exact HV'. }
      eexists; split; [reflexivity|]. exists V2. split; auto. intros q Hq. destruct (Nat.eq_dec q j) as [->|].
      * replace (j <? S j)%nat with true by nbts. exact P.
      * replace (q <? S j)%nat with (q <? j)%nat by nbts. specialize (HV' q Hq).
        revert HV'. generalize (if (q <? j)%nat then S i else i). intros i' (Q1 & Q2 & Q3 & Q4). unfold pinv. 
        split; [|split; [|split]]; intros; rewrite ?O by auto; auto. eapply Q4; eauto.
    + eexists; split; [reflexivity|]. exists V2. split; auto. intros q Hq. specialize (H3 q Hq). replace (q <? m)%nat with true in H3 by nbts. exact H3.
  - exists d2, V. auto.
Qed.
End Pchip.

(** a Hermite piece with limited gradients is monotone *)
Lemma hermd_nonneg x0 x1 v0 v1 h u : 0 < h -> 0 <= u <= h -> 0 <= v0 <= 3 * ((x1 - x0) / h) -> 0 <= v1 <= 3 * ((x1 - x0) / h) -> 0 <= hermd x0 x1 v0 v1 h u.
Proof.
  intros Hh Hu H0 H1. set (D := (x1 - x0) / h) in *. set (r := u / h).
  assert (Hr : 0 <= r <= 1). { unfold r. split; [apply Rmult_le_pos; [lra|]; left; apply Rinv_0_lt_compat; lra|]. apply (Rmult_le_reg_r h); [lra|]. unfold Rdiv. rewrite Rmult_assoc, Rinv_l; lra. }
  replace (hermd x0 x1 v0 v1 h u) with (6 * r * (1 - r) * D + (1 - r) * (1 - 3 * r) * v0 + r * (3 * r - 2) * v1) by (unfold hermd, r, D; field; lra).
  assert (DD : 0 <= D) by lra.
  assert (Q1 : 0 <= (1 - r) * (1 - 3 * r) * v0 \/ (1 - r) * (1 - 3 * r) * (3 * D) <= (1 - r) * (1 - 3 * r) * v0).
  { destruct (Rle_or_lt 0 ((1 - r) * (1 - 3 * r))); [left; apply Rmult_le_pos; lra|right]. apply Rmult_le_compat_neg_l; lra. }
  assert (Q2 : 0 <= r * (3 * r - 2) * v1 \/ r * (3 * r - 2) * (3 * D) <= r * (3 * r - 2) * v1).
  { destruct (Rle_or_lt 0 (r * (3 * r - 2))); [left; apply Rmult_le_pos; lra|right]. apply Rmult_le_compat_neg_l; lra. }
  assert (C0 : 0 <= 6 * r * (1 - r) * D) by (apply Rmult_le_pos; auto; nra).
  assert (C1 : 0 <= 3 * (1 - r) ^ 2 * D) by (apply Rmult_le_pos; auto; apply Rmult_le_pos; [lra|apply pow2_ge_0]).
  assert (C2 : 0 <= 3 * r ^ 2 * D) by (apply Rmult_le_pos; auto; apply Rmult_le_pos; [lra|apply pow2_ge_0]).
  assert (C3 : 0 <= 3 * (1 - 2 * r) ^ 2 * D) by (apply Rmult_le_pos; auto; apply Rmult_le_pos; [lra|apply pow2_ge_0]).
  set (e1 := (1 - r) * (1 - 3 * r)) in *. set (e2 := r * (3 * r - 2)) in *.
  assert (K1 : 6 * r * (1 - r) * D + e1 * (3 * D) = 3 * (1 - r) ^ 2 * D) by (unfold e1; ring).
  assert (K2 : 6 * r * (1 - r) * D + e2 * (3 * D) = 3 * r ^ 2 * D) by (unfold e2; ring).
  assert (K3 : 6 * r * (1 - r) * D + e1 * (3 * D) + e2 * (3 * D) = 3 * (1 - 2 * r) ^ 2 * D) by (unfold e1, e2; ring).
  destruct Q1, Q2; lra.
Qed.
Lemma hermd_sign sg x0 x1 v0 v1 h u : sg = 1 \/ sg = -1 -> 0 < h -> 0 <= u <= h -> 0 <= sg * ((x1 - x0) / h) -> 0 <= sg * v0 -> 0 <= sg * v1 ->
  Rabs v0 <= 3 * Rabs ((x1 - x0) / h) -> Rabs v1 <= 3 * Rabs ((x1 - x0) / h) -> 0 <= sg * hermd x0 x1 v0 v1 h u.
Proof.
  intros Hs Hh Hu HD H0 H1 B0 B1.
  replace (sg * hermd x0 x1 v0 v1 h u) with (hermd (sg * x0) (sg * x1) (sg * v0) (sg * v1) h u) by (unfold hermd; field; lra).
  assert (AB : forall x, 0 <= sg * x -> Rabs x = sg * x). { intros x Hx. destruct Hs as [-> | ->]; [rewrite Rabs_pos_eq; lra|]. rewrite Rabs_left1; lra. }
  rewrite (AB v0), (AB ((x1 - x0) / h)) in * by auto. rewrite (AB v1) in * by auto.
  replace ((sg * x1 - sg * x0) / h) with (sg * ((x1 - x0) / h)) by (field; lra).
  apply hermd_nonneg; auto; replace ((sg * x1 - sg * x0) / h) with (sg * ((x1 - x0) / h)) by (field; lra); lra.
Qed.
(** on a straight piece with matching gradients the curve is straight *)
Lemma herm_line x0 v h u : h <> 0 -> herm x0 (x0 + v * h) v v h u = x0 + v * u.
Proof. intros. unfold herm. field. auto. Qed.

(** ** Akima *)
Section Akima.
Variables (s : points) (m : nat) (tol : R) (weight : fvec R -> nat -> R) (W : (nat -> R) -> nat -> R).
Hypothesis (Dm : dim s m).
Hypothesis HW : forall x f j, (forall k, (k < vlen x)%nat -> vel x k = f k) -> (j + 1 < vlen x)%nat -> weight x j = W f j.
Let n := length s.
Hypothesis Hn : (1 <= n)%nat.
(** slopes of the segments, with two more made up at either end *)
Definition aext (q k : nat) : R :=
  match k with
  | 0%nat => 3 * slope s 0 q - 2 * slope s 1 q
  | 1%nat => 2 * slope s 0 q - slope s 1 q
  | S (S i) => if (S i <? n)%nat then slope s i q else if (S i =? n)%nat then 2 * slope s (n - 2) q - 2 * slope s (n - 3) q else 3 * slope s (n - 2) q - slope s (n - 3) q
  end.
Definition agrad (q j : nat) : R :=
  let w1 := W (aext q) j in let w2 := W (aext q) (j + 2) in
  if Rleb (Rabs w1) tol && Rleb (Rabs w2) tol then / 2 * (w1 + w2) else (w2 * aext q (j + 1) + w1 * aext q (j + 2)) / (w1 + w2).
Lemma akima_create : exists d V, zIPCreateAkimaW tol weight s = Ok d /\ repr s m V d /\ ((3 <= n)%nat -> forall q k, (q < m)%nat -> (k < n)%nat -> V k q = agrad q k).
Proof.
  unfold zIPCreateAkimaW. assert (NE : s <> []) by (intros E; unfold n in Hn; rewrite E in Hn; cbn in Hn; lia).
  destruct (alloc_ok s m NE Dm) as (d0 & -> & H0). cbn [bind]. rewrite (repr_size _ _ _ _ H0). fold n.
  destruct (repr_vec _ _ _ _ H0 Dm 0) as (x & -> & Lx & _); [fold n; lia|]. cbn [bind]. rewrite Lx.
  match goal with |- context [for_ ?lo ?hi ?f ?s00] => destruct (for_inv (fun i st => vlen (snd st) = (n + 3)%nat /\ exists V, repr s m V (fst st) /\
     ((3 <= n)%nat -> forall q k, (q < i)%nat -> (k < n)%nat -> V k q = agrad q k)) lo hi f s00) as ([d x'] & -> & H1 & V & H2 & H3) end.
  - lia.
  - cbn. split; auto. exists (fun _ _ => 0). split; auto. lia.
  - intros i [d y] Hi (Ly & V & Hd & HV). cbn [fst snd] in *.
    match goal with |- context [for_ 2 ?hi ?f ?s00] => destruct (for_inv (fun j y => vlen y = (n + 3)%nat /\ forall k, (2 <= k < j)%nat -> vel y k = slope s (k - 2) i) 2 hi f s00) as (y1 & -> & L1 & E1) end.
    { lia. } { split; auto. lia. }
    { intros j y1 Hj (L1 & E1). rewrite !(repr_val _ _ _ _ Hd) by (fold n; auto; lia). rewrite (repr_dt _ _ _ _ Hd) by (fold n; lia). cbn [bind]. rewrite vset_ok by lia.
      eexists; split; [reflexivity|]. cbn [vlen vel]. split; auto. intros k Hk. destruct (Nat.eqb_spec k j) as [->|]; [|apply E1; lia]. rs. rewrite <- gap_slope. replace (S (j - 2)) with (j - 1)%nat by lia. reflexivity. }
    cbn [bind]. rewrite vset_ok by lia. cbn [bind]. rewrite vset_ok by (cbn; lia). cbn [bind]. rewrite vset_ok by (cbn; lia). cbn [bind]. rewrite vset_ok by (cbn; lia). cbn [bind].
    match goal with |- context [FV ?l ?e] => match goal with |- context [for_ 0 n (fun j dat => _) d] => idtac end end.
    match goal with |- context [for_ 0 n ?f d] => match f with context [weight ?v _] => set (y2 := v) end end.
    assert (L2 : vlen y2 = (n + 3)%nat) by exact L1.
    assert (E2 : (3 <= n)%nat -> forall k, (k < vlen y2)%nat -> vel y2 k = aext i k).
    { intros N3 k Hk. rewrite L2 in Hk.
      assert (ZE : forall j, (2 <= j <= n)%nat -> vel y1 j = slope s (j - 2) i) by (intros; apply E1; lia).
      unfold y2. cbn [vel vlen]. unfold zVecElem; cbn [vel vlen]. rewrite !L1.
      repeat match goal with |- context [(?x <? n + 3)%nat] => replace (x <? n + 3)%nat with true by nbts end.
      destruct (Nat.eqb_spec k (n + 2)) as [->|].
      { repeat match goal with |- context [(?x =? ?y)%nat] => replace (x =? y)%nat with false by nbts end. rewrite !ZE by lia.
        unfold aext. replace (n + 2)%nat with (S (S n)) by lia. replace (S n <? n)%nat with false by nbts. replace (S n =? n)%nat with false by nbts. replace (n - 1 - 2)%nat with (n - 3)%nat by lia. rs. reflexivity. }
      destruct (Nat.eqb_spec k (n + 1)) as [->|].
      { repeat match goal with |- context [(?x =? ?y)%nat] => replace (x =? y)%nat with false by nbts end. rewrite !ZE by lia.
        unfold aext. replace (n + 1)%nat with (S (S (n - 1))) by lia. replace (S (n - 1)) with n by lia. replace (n <? n)%nat with false by nbts. rewrite Nat.eqb_refl. replace (n - 1 - 2)%nat with (n - 3)%nat by lia. rs. reflexivity. }
      destruct k as [|[|k]]; cbn [Nat.eqb aext]; rewrite !ZE by lia; cbn [Nat.sub].
      - rs. reflexivity.
      - rs. reflexivity.
      - replace (S k <? n)%nat with true by nbts. f_equal. lia. }
    clearbody y2.
    match goal with |- context [for_ 0 n ?f d] => destruct (for_inv (fun j d => exists V', repr s m V' d /\ (forall k q, (k < n)%nat -> (q < m)%nat -> q <> i -> V' k q = V k q) /\ ((3 <= n)%nat -> forall k, (k < j)%nat -> V' k i = agrad i k)) 0 n f d) as (d2 & -> & V2 & H2 & H3 & H4) end.
    { lia. } { exists V. split; auto. split; auto. lia. }
    { intros j d1 Hj (V1 & Hd1 & O1 & G1). cbv zeta.
      match goal with |- context [set_vae d1 j i ?x] => destruct (repr_set_vae s m V1 d1 Hd1 j i x (fun k q => if (k =? j)%nat && (q =? i)%nat then x else V1 k q)) as (d2 & -> & H2) end.
      - fold n; lia. - lia. - rewrite !Nat.eqb_refl. reflexivity.
      - intros k q Hk Hq O. destruct (Nat.eqb_spec k j), (Nat.eqb_spec q i); cbn [andb]; auto. lia.
      - eexists; split; [reflexivity|]. eexists. split; [exact H2|]. split.
        + intros k q Hk Hq Hqi. replace (q =? i)%nat with false by nbts. rewrite andb_false_r. auto.
        + intros N3 k Hk. rewrite Nat.eqb_refl, andb_true_r. destruct (Nat.eqb_spec k j) as [->|]; [|apply G1; auto; lia].
          unfold zVecElem. replace (j + 1 <? vlen y2)%nat with true by nbts. replace (j + 2 <? vlen y2)%nat with true by nbts.
          rewrite !(HW y2 (aext i)) by (auto; lia). rewrite !E2 by (auto; lia). unfold agrad. rewrite !is_tol_R. rs.
          destruct (Rleb (Rabs (W (aext i) j)) tol && Rleb (Rabs (W (aext i) (j + 2))) tol); [|reflexivity]. lra. }
    cbn [bind]. eexists; split; [reflexivity|]. cbn [fst snd]. split; auto. exists V2. split; auto.
    intros N3 q k Hq Hk. destruct (Nat.eq_dec q i) as [->|]; [apply H4; auto|]. rewrite H3 by (auto; lia). apply HV; auto. lia.
  - cbn [bind fst snd] in *. exists d, V. auto.
Qed.
End Akima.
Definition W1 (f : nat -> R) j := Rabs (f (j + 1)%nat - f j).
Definition W2 (f : nat -> R) j := Rabs (f (j + 1)%nat - f j) + / 2 * Rabs (f (j + 1)%nat + f j).
Lemma W1_ok (x : fvec R) f j : (forall k, (k < vlen x)%nat -> vel x k = f k) -> (j + 1 < vlen x)%nat -> zIPAkimaWeight x j = W1 f j.
Proof. intros E H. unfold zIPAkimaWeight, zVecElem. replace (j + 1 <? vlen x)%nat with true by nbts. replace (j <? vlen x)%nat with true by nbts. rewrite !E by lia. reflexivity. Qed.
Lemma W2_ok (x : fvec R) f j : (forall k, (k < vlen x)%nat -> vel x k = f k) -> (j + 1 < vlen x)%nat -> zIPModifiedAkimaWeight x j = W2 f j.
Proof. intros E H. unfold zIPModifiedAkimaWeight, zVecElem. replace (j + 1 <? vlen x)%nat with true by nbts. replace (j <? vlen x)%nat with true by nbts. rewrite !E by lia. unfold W2. rs. lra. Qed.
