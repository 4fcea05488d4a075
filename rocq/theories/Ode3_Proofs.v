(** Weights of the Adams methods. *)
From Coq Require Import Reals Lra Lia Psatz.
From Coquelicot Require Import Coquelicot.
From Verif Require Import Prelude Prelude_Proofs Scalar RealLib Fmat Fmat_Proofs Misc_Model Misc_Proofs Pex_Spec Pex_Proofs
  Ode_Model Ode_Spec Ode_Proofs Ode2_Proofs.
Local Open Scope R_scope.

(** s(s+1)...(s+m-1)/m! *)
Fixpoint bp (m : nat) (s : R) : R := match m with O => 1 | S k => (s + INR k) / INR (S k) * bp k s end.
Lemma INR_S_neq k : INR (S k) <> 0. Proof. apply not_0_INR. lia. Qed.
Lemma bp_S k s : INR (S k) * bp (S k) s = (s + INR k) * bp k s.
Proof. cbn [bp]. field. apply INR_S_neq. Qed.
Lemma bp_1 m : bp m 1 = 1.
Proof.
  induction m; [reflexivity|]. cbn [bp]. rewrite IHm, S_INR. field. pose proof (pos_INR m). lra.
Qed.
Lemma bp_0 m : bp m 0 = if (m =? 0)%nat then 1 else 0.
Proof.
  destruct m; [reflexivity|]. cbn [Nat.eqb]. induction m.
  - cbn. field.
  - change (bp (S (S m)) 0) with ((0 + INR (S m)) / INR (S (S m)) * bp (S m) 0). rewrite IHm. ring.
Qed.
Lemma bp_pred m s : INR (S m) * bp (S m) (s - 1) = (s - 1) * bp m s.
Proof.
  induction m.
  - cbn. field.
  - rewrite bp_S. replace (s - 1 + INR (S m)) with (s + INR m) by (rewrite S_INR; ring).
    apply Rmult_eq_reg_l with (INR (S m)); [|apply INR_S_neq].
    transitivity ((s + INR m) * (INR (S m) * bp (S m) (s - 1))); [ring|]. rewrite IHm.
    transitivity ((s - 1) * (INR (S m) * bp (S m) s)); [|ring]. rewrite bp_S. ring.
Qed.
Lemma bp_diff m s : bp (S m) s - bp (S m) (s - 1) = bp m s.
Proof.
  apply Rmult_eq_reg_l with (INR (S m)); [|apply INR_S_neq].
  rewrite Rmult_minus_distr_l, bp_S, bp_pred, S_INR. ring.
Qed.
Lemma bp_m1 m : bp (S (S m)) (-1) = 0.
Proof.
  apply Rmult_eq_reg_l with (INR (S (S m))); [|apply INR_S_neq].
  replace (-1) with (0 - 1) by ring. rewrite bp_pred, bp_0. cbn [Nat.eqb]. ring.
Qed.
Lemma bp_derive m s : is_derive (bp m) s (rsum m (fun k => bp k s / INR (m - k))).
Proof.
  induction m.
  - cbn [rsum]. apply (is_derive_ext (fun _ => 1)); [reflexivity|]. apply is_derive_Reals. apply derivable_pt_lim_const.
  - apply is_derive_Reals.
    pose proof (INR_S_neq m) as N0.
    replace (rsum (S m) (fun k => bp k s / INR (S m - k)))
      with (/ INR (S m) * ((1 + 0) * bp m s + (s + INR m) * rsum m (fun k => bp k s / INR (m - k)))).
    + apply (derivable_pt_lim_ext (fun y => / INR (S m) * ((y + INR m) * bp m y))).
      { intros y. cbn [bp]. field. exact N0. }
      apply (derivable_pt_lim_scal (fun y => (y + INR m) * bp m y) (/ INR (S m))).
      apply (derivable_pt_lim_mult (fun y => y + INR m) (bp m)).
      * apply (derivable_pt_lim_plus (fun y => y) (fun _ => INR m)); [apply derivable_pt_lim_id|apply derivable_pt_lim_const].
      * apply is_derive_Reals. exact IHm.
    + apply Rmult_eq_reg_l with (INR (S m)); [|exact N0].
      rewrite <- Rmult_assoc, Rinv_r, Rmult_1_l by exact N0.
      rewrite <- !rsum_scal.
      rewrite (rsum_ext m (fun i => (s + INR m) * (bp i s / INR (m - i)))
                 (fun i => INR (S i) * bp (S i) s / INR (m - i) + bp i s)).
      2:{ intros i Hi. rewrite bp_S. assert (INR (m - i) <> 0) by (apply not_0_INR; lia).
          replace (s + INR m) with (s + INR i + INR (m - i)) by (rewrite minus_INR by lia; ring). field. auto. }
      rewrite (rsum_ext (S m) _ (fun i => INR i * bp i s / INR (S m - i) + bp i s)).
      2:{ intros i Hi. assert (INR (S m - i) <> 0) by (apply not_0_INR; lia).
          replace (INR (S m)) with (INR i + INR (S m - i)) at 1 by (rewrite minus_INR by lia; ring). field. auto. }
      rewrite !rsum_add.
      rewrite (rsum_S_l m (fun i => INR i * bp i s / INR (S m - i))).
      change (INR 0) with 0. cbn [Nat.sub]. change (rsum (S m) (fun i => bp i s)) with (rsum m (fun i => bp i s) + bp m s).
      unfold Rdiv at 2. rewrite !Rmult_0_l. ring.
Qed.
Lemma bp_cont m s : continuous (bp m) s.
Proof. apply (ex_derive_continuous (bp m)). eexists. apply bp_derive. Qed.
Lemma ex_RInt_bp m a b : ex_RInt (bp m) a b.
Proof. apply (ex_RInt_continuous (V:=R_CompleteNormedModule) (bp m)). intros z _. apply bp_cont. Qed.
Lemma RInt_rsum N (h : nat -> R -> R) (c : nat -> R) a b : (forall k, (k < N)%nat -> ex_RInt (h k) a b) ->
  is_RInt (fun y => rsum N (fun k => c k * h k y)) a b (rsum N (fun k => c k * RInt (h k) a b)).
Proof.
  intros X. induction N.
  - cbn. refine (eq_ind _ (fun v : R => is_RInt (fun _ : R => 0) a b v) (is_RInt_const (V:=R_NormedModule) a b 0) 0 _).
    apply Rmult_0_r.
  - cbn [rsum]. apply (is_RInt_plus (V:=R_NormedModule)); [apply IHN; intros; apply X; lia|].
    apply (is_RInt_scal (V:=R_NormedModule) (h N) a b (c N)). apply (RInt_correct (V:=R_CompleteNormedModule)). apply X. lia.
Qed.
Lemma bp_rec m a b : rsum (S m) (fun k => RInt (bp k) a b / INR (S m - k)) = bp (S m) b - bp (S m) a.
Proof.
  rewrite (rsum_ext _ _ (fun k => / INR (S m - k) * RInt (bp k) a b)) by (intros; unfold Rdiv; ring).
  rewrite <- (is_RInt_unique _ _ _ _ (RInt_rsum (S m) bp (fun k => / INR (S m - k)) a b (fun k _ => ex_RInt_bp k a b))).
  apply is_RInt_unique.
  apply (is_RInt_ext (fun y => rsum (S m) (fun k => bp k y / INR (S m - k)))).
  { intros y _. apply rsum_ext. intros; unfold Rdiv; ring. }
  apply (is_RInt_derive (V:=R_CompleteNormedModule) (bp (S m))).
  - intros y _. apply bp_derive.
  - intros y _. apply (continuous_ext (fun y => rsum (S m) (fun k => / INR (S m - k) * bp k y))).
    { intros z. apply rsum_ext. intros; unfold Rdiv; ring. }
    assert (X : forall N, continuous (fun y0 => rsum N (fun k => / INR (S m - k) * bp k y0)) y); [|apply X]. intros N. induction N; cbn [rsum].
    + apply continuous_const.
    + apply (continuous_plus (V:=R_NormedModule)); [exact IHN|].
      apply (continuous_scal_r (V:=R_NormedModule) (/ INR (S m - N)) (bp N)). apply bp_cont.
Qed.

(** backward differences *)
Fixpoint nab (j : nat) (h : R -> R) (s : R) : R := match j with O => h s | S j => nab j h s - nab j h (s - 1) end.
Lemma nab_bp j m s : nab j (bp m) s = if (j <=? m)%nat then bp (m - j) s else 0.
Proof.
  revert s. induction j; intros s; cbn [nab].
  - rewrite Nat.sub_0_r. reflexivity.
  - rewrite !IHj. destruct (Nat.leb_spec j m), (Nat.leb_spec (S j) m); try lia; try ring.
    + replace (m - j)%nat with (S (m - S j)) by lia. apply bp_diff.
    + replace (m - j)%nat with 0%nat by lia. cbn. ring.
Qed.
Lemma nab_sum j h s N : (j < N)%nat -> nab j h s = rsum N (fun i => (-1) ^ i * C0 j i * h (s - INR i)).
Proof.
  revert s N. induction j; intros s N H; cbn [nab].
  - destruct N; [lia|]. rewrite rsum_S_l. rewrite rsum_0.
    + unfold C0. cbn [Nat.leb]. rewrite C_n_0. cbn. rewrite Rminus_0_r. ring.
    + intros i Hi. unfold C0. cbn. ring.
  - destruct N; [lia|]. rewrite (IHj s (S N)) by lia. rewrite (IHj (s - 1) N) by lia.
    rewrite !rsum_S_l. rewrite !C0_0.
    rewrite (rsum_ext N (fun i => (-1) ^ S i * C0 (S j) (S i) * h (s - INR (S i)))
       (fun i => (-1) ^ S i * C0 j (S i) * h (s - INR (S i)) - (-1) ^ i * C0 j i * h (s - 1 - INR i))).
    + rewrite rsum_sub. ring.
    + intros i Hi. rewrite C0_pascal. replace (s - 1 - INR i) with (s - INR (S i)) by (rewrite S_INR; ring).
      cbn [pow]. ring.
Qed.

(** the coefficients g of the code *)
Definition gam (e : R) (m : nat) : R := RInt (bp m) e (e + 1).
Lemma gam_0 e : gam e 0 = 1.
Proof.
  unfold gam. apply is_RInt_unique. apply (is_RInt_ext (fun _ => 1)); [reflexivity|].
  refine (eq_ind _ (fun v : R => is_RInt (fun _ : R => 1) e (e + 1) v) (is_RInt_const (V:=R_NormedModule) e (e + 1) 1) 1 _).
  cbn. unfold scal; cbn; unfold mult; cbn. ring.
Qed.
(** [e = 0] for the predictor and [e = -1] for the corrector *)
Definition g0of (e g0 : R) : Prop := (e = 0 /\ g0 = 1) \/ (e = -1 /\ g0 = 0).
Lemma gam_rec e g0 i : g0of e g0 -> (1 <= i)%nat ->
  gam e i = g0 - rsum i (fun j => gam e (i - S j) / INR (S (S j))).
Proof.
  intros G Hi.
  assert (B : bp (S i) (e + 1) - bp (S i) e = g0).
  { destruct G as [[-> ->]|[-> ->]].
    - rewrite Rplus_0_l, bp_1, bp_0. cbn. ring.
    - replace (-1 + 1) with 0 by ring. rewrite bp_0. destruct i; [lia|]. rewrite bp_m1. cbn. ring. }
  rewrite <- (bp_rec i e (e + 1)) in B. cbn [rsum] in B.
  rewrite rsum_rev in B.
  replace (S i - i)%nat with 1%nat in B by lia. change (INR 1) with 1 in B.
  fold (gam e i) in B. rewrite <- B.
  rewrite (rsum_ext i _ (fun j => gam e (i - S j) / INR (S (S j)))); [field|].
  intros k Hk. replace (S i - (i - 1 - k))%nat with (S (S k)) by lia. replace (i - 1 - k)%nat with (i - S k)%nat by lia. reflexivity.
Qed.
Definition wadams (e : R) (N i : nat) : R := (-1) ^ i * rsum N (fun j => C0 j i * gam e j).
Lemma wadams_bp e N m : (m < N)%nat -> rsum N (fun i => wadams e N i * bp m (- INR i)) = gam e m.
Proof.
  intros H. unfold wadams.
  rewrite (rsum_ext N _ (fun i => rsum N (fun j => gam e j * ((-1) ^ i * C0 j i * bp m (0 - INR i))))).
  2:{ intros i Hi. replace (0 - INR i) with (- INR i) by ring.
      rewrite Rmult_comm, <- Rmult_assoc, <- rsum_scal. apply rsum_ext. intros; ring. }
  rewrite rsum_swap.
  rewrite (rsum_ext N _ (fun j => if (j =? m)%nat then gam e m else 0)).
  - rewrite (rsum_delta N m); [rewrite Nat.eqb_refl; reflexivity|exact H|].
    intros i Hi Hn. destruct (Nat.eqb_spec i m); [contradiction|reflexivity].
  - intros j Hj. rewrite rsum_scal, <- (nab_sum j (bp m) 0 N Hj), nab_bp, bp_0.
    destruct (Nat.leb_spec j m), (Nat.eqb_spec j m); try lia.
    + subst. rewrite Nat.sub_diag. cbn. ring.
    + destruct (Nat.eqb_spec (m - j) 0); [lia|]. ring.
    + ring.
Qed.
Lemma bp_basis t dt p : exists a : nat -> R, forall s, peval p (t + s * dt) = rsum (length p) (fun m => a m * bp m s).
Proof.
  induction p as [|c p (g & IH)].
  - exists (fun _ => 0). intros s. reflexivity.
  - exists (fun k => (if (k =? 0)%nat then c else 0) + (if (k <? length p)%nat then (t - dt * INR k) * g k else 0)
                     + match k with O => 0 | S k' => dt * g k' * INR k end).
    intros s. rewrite peval_cons, IH. cbn [length].
    transitivity (rsum (S (length p)) (fun k => (if (k =? 0)%nat then c else 0) * bp k s)
       + rsum (S (length p)) (fun k => (if (k <? length p)%nat then (t - dt * INR k) * g k else 0) * bp k s)
       + rsum (S (length p)) (fun k => match k with O => 0 | S k' => dt * g k' * INR k end * bp k s)).
    2:{ rewrite <- !rsum_add. apply rsum_ext. intros; ring. }
    rewrite (rsum_S_l (length p) (fun k => (if (k =? 0)%nat then c else 0) * bp k s)).
    rewrite (rsum_S_l (length p) (fun k => match k with O => 0 | S k' => dt * g k' * INR k end * bp k s)).
    rewrite (rsum_cut (S (length p)) (length p) (fun k => (if (k <? length p)%nat then (t - dt * INR k) * g k else 0) * bp k s)); [|lia|].
    2:{ intros i Hi. destruct (Nat.ltb_spec i (length p)); [lia|ring]. }
    rewrite (rsum_0 (length p) (fun k => (if (S k =? 0)%nat then c else 0) * bp (S k) s)) by (intros; cbn; ring).
    rewrite (rsum_ext (length p) (fun k => (if (k <? length p)%nat then (t - dt * INR k) * g k else 0) * bp k s) (fun k => (t - dt * INR k) * g k * bp k s)).
    2:{ intros i Hi. destruct (Nat.ltb_spec i (length p)); [ring|lia]. }
    rewrite (rsum_ext (length p) (fun k => dt * g k * INR (S k) * bp (S k) s) (fun k => dt * g k * ((s + INR k) * bp k s))).
    2:{ intros i Hi. rewrite <- bp_S. ring. }
    rewrite <- rsum_scal. cbn [Nat.eqb bp].
    transitivity (c + rsum (length p) (fun k => (t - dt * INR k) * g k * bp k s + dt * g k * ((s + INR k) * bp k s))).
    + f_equal. apply rsum_ext. intros; ring.
    + rewrite rsum_add. ring.
Qed.
Lemma adams_exact e N p t dt : (length p <= N)%nat ->
  dt * rsum N (fun i => wadams e N i * peval p (t - INR i * dt)) = RInt (peval p) (t + e * dt) (t + (e + 1) * dt).
Proof.
  intros L. destruct (bp_basis t dt p) as (a & A).
  rewrite (rsum_ext N _ (fun i => rsum (length p) (fun m => a m * (wadams e N i * bp m (- INR i))))).
  2:{ intros i Hi. replace (t - INR i * dt) with (t + (- INR i) * dt) by ring. rewrite A, <- rsum_scal.
      apply rsum_ext. intros; ring. }
  rewrite rsum_swap.
  rewrite (rsum_ext (length p) _ (fun m => a m * gam e m)).
  2:{ intros m Hm. rewrite rsum_scal, wadams_bp by lia. reflexivity. }
  unfold gam. rewrite <- (is_RInt_unique _ _ _ _ (RInt_rsum (length p) bp a e (e + 1) (fun k _ => ex_RInt_bp k e (e + 1)))).
  replace (t + e * dt) with (dt * e + t) by ring. replace (t + (e + 1) * dt) with (dt * (e + 1) + t) by ring.
  rewrite <- (RInt_comp_lin (peval p) dt t e (e + 1)).
  2:{ apply (ex_RInt_continuous (peval p)). intros z _. apply cont_peval. }
  rewrite (RInt_scal (V:=R_CompleteNormedModule) (fun y => peval p (dt * y + t))).
  2:{ apply (ex_RInt_continuous (V:=R_CompleteNormedModule)). intros z _.
      apply (continuous_comp (fun y => dt * y + t) (peval p)); [|apply cont_peval].
      apply (ex_derive_continuous (fun y => dt * y + t)). auto_derive. auto. }
  change scal with Rmult. f_equal.
  apply RInt_ext. intros y _. rewrite Rplus_comm, (Rmult_comm dt y). symmetry. apply A.
Qed.

(** *** the weights computed by the code *)
Lemma SetWeight_ok step e g0 : (1 <= step)%nat -> g0of e g0 ->
  exists w, _zODESetWeightAdams step g0 = Ok w /\ vlen w = step /\ forall i, (i < step)%nat -> vel w i = wadams e step i.
Proof.
  intros S1 G. unfold _zODESetWeightAdams.
  rewrite vset_ok by (cbn; lia). cbn [bind vlen].
  set (v0 := FV step _).
  destruct (for_inv (fun i (g : fvec R) => vlen g = step /\ forall k, (k < i)%nat -> vel g k = gam e k) 1 step
    (fun i g => g <- vset g i g0 ;;
       for_ 1 (S i) (fun j g => y <- vget g (i - j) ;; vmod g i (fun x => (x - y / sofZ (Z.of_nat (S j)))%S)) g) v0)
    as (g & E1 & Lg & Hg).
  - exact S1.
  - split; [reflexivity|]. intros k Hk. replace k with 0%nat by lia. cbn. symmetry. apply gam_0.
  - intros i g Hi (L & H). rewrite vset_ok by lia. cbn [bind].
    set (g1 := FV (vlen g) _).
    destruct (for_inv (fun j (g' : fvec R) => vlen g' = step /\
         (forall k, k <> i -> vel g' k = vel g k) /\
         vel g' i = g0 - rsum (j - 1) (fun j => gam e (i - S j) / INR (S (S j)))) 1 (S i)
      (fun j g => y <- vget g (i - j) ;; vmod g i (fun x => (x - y / sofZ (Z.of_nat (S j)))%S)) g1) as (g2 & E2 & L2 & N2 & V2).
    + lia.
    + split; [exact L|]. split.
      * intros k Hk. cbn. destruct (Nat.eqb_spec k i); [contradiction|reflexivity].
      * cbn. rewrite Nat.eqb_refl. ring.
    + intros j g' Hj (L' & N' & V'). rewrite vget_ok by lia. cbn [bind]. rewrite vmod_ok, vset_ok by lia.
      eexists. split; [reflexivity|]. split; [exact L'|]. split.
      * intros k Hk. cbn. destruct (Nat.eqb_spec k i); [contradiction|apply N'; auto].
      * cbn [vel]. rewrite Nat.eqb_refl, V', N' by lia. rewrite H by lia.
        replace (S j - 1)%nat with (S (j - 1)) by lia. cbn [rsum].
        replace (S (j - 1)) with j by lia. rs. rewrite <- INR_IZR_INZ. ring.
    + rewrite E2. exists g2. split; [reflexivity|]. split; [exact L2|].
      intros k Hk. destruct (Nat.eq_dec k i) as [->|].
      * rewrite V2, (gam_rec e g0 i G) by lia. cbn [Nat.sub]. rewrite Nat.sub_0_r. reflexivity.
      * rewrite N2 by auto. apply H. lia.
  - rewrite E1. cbn [bind].
    set (v1 := FV step (fun _ => 0%S)).
    match goal with |- context [for_ 0 step ?f v1] =>
    destruct (for_inv (fun i (w : fvec R) => vlen w = step /\ (forall k, (k < i)%nat -> vel w k = wadams e step k) /\
       (forall k, (i <= k)%nat -> vel w k = 0)) 0 step f v1) as (w & E2 & Lw & Hw & _) end.
    + lia.
    + split; [reflexivity|]. split; [lia|]. reflexivity.
    + intros i w Hi (L & H & Z).
      match goal with |- context [for_ i step ?f w] =>
      destruct (for_inv (fun j (w' : fvec R) => vlen w' = step /\ (forall k, k <> i -> vel w' k = vel w k) /\
         vel w' i = rsum j (fun j => C0 j i * gam e j)) i step f w) as (w2 & E3 & L3 & N3 & V3) end.
      * lia.
      * split; [exact L|]. split; [reflexivity|]. rewrite Z by lia. symmetry. apply rsum_0. intros j Hj.
        unfold C0. destruct (Nat.leb_spec i j); [lia|ring].
      * intros j w' Hj (L' & N' & V'). rewrite vget_ok by lia. cbn [bind]. rewrite vmod_ok, vset_ok by lia.
        eexists. split; [reflexivity|]. split; [exact L'|]. split.
        -- intros k Hk. cbn. destruct (Nat.eqb_spec k i); [contradiction|apply N'; auto].
        -- cbn [vel]. rewrite Nat.eqb_refl, V', Hg by lia. cbn [rsum]. rs.
           rewrite zCombination_correct by lia. unfold C0 at 3. destruct (Nat.leb_spec i j); [reflexivity|lia].
      * rewrite E3. cbn [bind]. unfold wadams.
        destruct (Nat.odd i) eqn:O.
        -- rewrite vmod_ok, vset_ok by lia. eexists. split; [reflexivity|]. split; [exact L3|]. split.
           ++ intros k Hk. cbn [vel]. destruct (Nat.eqb_spec k i) as [->|].
              ** rewrite V3. apply Nat.odd_spec in O. destruct O as (q & ->).
                 replace (2 * q + 1)%nat with (S (2 * q)) by lia. rewrite pow_1_odd. rs. ring.
              ** rewrite N3 by auto. apply H. lia.
           ++ intros k Hk. cbn [vel]. destruct (Nat.eqb_spec k i); [lia|]. rewrite N3 by auto. apply Z. lia.
        -- exists w2. split; [reflexivity|]. split; [exact L3|]. split.
           ++ intros k Hk. destruct (Nat.eq_dec k i) as [->|].
              ** rewrite V3. assert (O' : Nat.even i = true) by (rewrite <- Nat.negb_odd, O; reflexivity).
                 apply Nat.even_spec in O'. destruct O' as (q & ->). rewrite pow_1_even. ring.
              ** rewrite N3 by auto. apply H. lia.
           ++ intros k Hk. rewrite N3 by lia. apply Z. lia.
    + exists w. split; [exact E2|]. split; [exact Lw|]. exact Hw.
Qed.
