(** Proofs about the single-curve interpolators. *)
From Coq Require Import Reals Lra Lia Psatz.
From Coquelicot Require Import Coquelicot.
From Verif Require Import Prelude Prelude_Proofs Scalar RealLib Fmat Fmat_Proofs Pex_Model Pex_Spec Pex_Proofs LE_Model LE_Spec Curve_Model IP4_Proofs.
Local Open Scope R_scope.

(** ** Polynomials of t/T *)
Lemma peval_at0 p : peval p 0 = coef p 0.
Proof.
  destruct p as [|a p]; [unfold peval, coef; reflexivity|]. rewrite peval_cons. unfold coef. cbn [nth]. ring.
Qed.
Lemma coef_ndif2 p i : coef (ndif (ndif p)) i = INR (i + 1) * (INR (i + 2) * coef p (i + 2)).
Proof. rewrite !coef_ndif. do 2 f_equal. now replace (i + 1 + 1)%nat with (i + 2)%nat by lia. now replace (i + 1 + 1)%nat with (i + 2)%nat by lia. Qed.
Definition wsum (w : nat -> R) (p : list R) : R := rsum (length p) (fun i => w i * coef p i).
Lemma length_ndif p : length (ndif p) = (length p - 1)%nat.
Proof. unfold ndif. now rewrite map_length, seq_length. Qed.
Lemma peval_at1 p : peval p 1 = wsum (fun _ => 1) p.
Proof. apply rsum_ext. intros. rewrite pow1. ring. Qed.
Lemma ndif_at1 p : peval (ndif p) 1 = wsum INR p.
Proof.
  rewrite peval_at1. unfold wsum. rewrite length_ndif. destruct (length p) as [|n] eqn:E; [reflexivity|].
  rewrite rsum_S_l. change (INR 0) with 0. replace (S n - 1)%nat with n by lia. rewrite Rmult_0_l, Rplus_0_l. apply rsum_ext. intros i Hi.
  rewrite coef_ndif, Nat.add_1_r. ring.
Qed.
Lemma ndif2_at1 p : peval (ndif (ndif p)) 1 = wsum (fun i => INR i * (INR i - 1)) p.
Proof.
  rewrite ndif_at1. unfold wsum. rewrite length_ndif. destruct (length p) as [|n] eqn:E; [reflexivity|].
  rewrite rsum_S_l. change (INR 0) with 0. replace (S n - 1)%nat with n by lia. rewrite !Rmult_0_l, Rplus_0_l. apply rsum_ext. intros i Hi.
  rewrite coef_ndif, Nat.add_1_r, S_INR. ring.
Qed.
(** position, velocity and acceleration of a curve of zPexIP *)
Definition ppos (pc : pexip) (t : R) := peval (pip_c pc) (t / pip_term pc).
Definition pvel (pc : pexip) (t : R) := peval (ndif (pip_c pc)) (t / pip_term pc) / pip_term pc.
Definition pacc (pc : pexip) (t : R) := peval (ndif (ndif (pip_c pc))) (t / pip_term pc) / (pip_term pc * pip_term pc).
Lemma is_derive_scaled (f : R -> R) (k t l : R) : k <> 0 -> is_derive f (t / k) l -> is_derive (fun t => f (t / k)) t (l / k).
Proof.
  intros Hk H. replace (l / k) with (/ k * l) by (field; auto).
  apply (is_derive_comp f (fun t => t / k) t l (/ k)); auto. auto_derive; auto. ring.
Qed.
Lemma pip_val pc t : pip_c pc <> [] -> zPexIPVal pc t = Ok (ppos pc t).
Proof. intros. unfold zPexIPVal. cbn [sdiv RealS]. now apply zPexVal_ok. Qed.
Lemma pip_vel pc t : pip_c pc <> [] -> zPexIPVel pc t = Ok (pvel pc t).
Proof. intros. unfold zPexIPVel. cbn [sdiv RealS]. rewrite zPexDifVal_ok by auto. cbn [rmap]. now rewrite Derive_n_peval. Qed.
Lemma pip_acc pc t : pip_c pc <> [] -> zPexIPAcc pc t = Ok (pacc pc t).
Proof. intros. unfold zPexIPAcc, Curve_Model.sqr. cbn [sdiv smul RealS]. rewrite zPexDifVal_ok by auto. cbn [rmap]. now rewrite Derive_n_peval. Qed.
Lemma pip_dvel pc t : pip_term pc <> 0 -> derivable_pt_lim (ppos pc) t (pvel pc t).
Proof. intros H. apply is_derive_Reals. apply is_derive_scaled; auto. apply is_derive_peval. Qed.
Lemma pip_dacc pc t : pip_term pc <> 0 -> derivable_pt_lim (pvel pc) t (pacc pc t).
Proof.
  intros H. apply is_derive_Reals. unfold pvel, pacc.
  replace (peval (ndif (ndif (pip_c pc))) (t / pip_term pc) / (pip_term pc * pip_term pc)) with (/ pip_term pc * (peval (ndif (ndif (pip_c pc))) (t / pip_term pc) / pip_term pc)) by (field; auto).
  apply (is_derive_ext (fun t => / pip_term pc * peval (ndif (pip_c pc)) (t / pip_term pc))). { intros u. unfold Rdiv. now rewrite Rmult_comm. }
  apply @is_derive_scal. apply is_derive_scaled; auto. apply is_derive_peval.
Qed.
Lemma pip_at0 pc : pip_term pc <> 0 -> ppos pc 0 = coef (pip_c pc) 0 /\ pvel pc 0 = coef (pip_c pc) 1 / pip_term pc /\
  pacc pc 0 = 2 * coef (pip_c pc) 2 / (pip_term pc * pip_term pc).
Proof.
  intros H. unfold ppos, pvel, pacc. replace (0 / pip_term pc) with 0 by (field; auto). rewrite !peval_at0, coef_ndif2, coef_ndif. cbn [Nat.add INR].
  split; [reflexivity|]. split; field; auto.
Qed.
Lemma pip_atT pc : pip_term pc <> 0 -> ppos pc (pip_term pc) = wsum (fun _ => 1) (pip_c pc) /\
  pvel pc (pip_term pc) = wsum INR (pip_c pc) / pip_term pc /\
  pacc pc (pip_term pc) = wsum (fun i => INR i * (INR i - 1)) (pip_c pc) / (pip_term pc * pip_term pc).
Proof.
  intros H. unfold ppos, pvel, pacc. replace (pip_term pc / pip_term pc) with 1 by (field; auto). now rewrite ndif_at1, ndif2_at1, peval_at1.
Qed.

(** ** zPexIPCreateBoundary *)
Lemma wsum_upd w p i x : (i < length p)%nat -> wsum w (upd p i x) = wsum w p + w i * (x - coef p i).
Proof.
  intros Hi. unfold wsum. rewrite upd_length.
  assert (rsum (length p) (fun k => w k * coef (upd p i x) k - w k * coef p k) = w i * (x - coef p i)) as E.
  { rewrite (rsum_delta _ i); auto.
    - rewrite coef_upd, Nat.eqb_refl by auto. ring.
    - intros k _ N. rewrite coef_upd by auto. destruct (Nat.eqb_spec k i); [contradiction|ring]. }
  rewrite rsum_sub in E. lra.
Qed.
Lemma wsum_zero w n : wsum w (repeat 0 n) = 0.
Proof. apply rsum_0. intros. rewrite coef_repeat. ring. Qed.
Lemma alloc_pip (term : R) dim : term <> 0 -> zPexIPAlloc term dim = Some (PIP term (repeat 0 (dim + 1))).
Proof. intros H. unfold zPexIPAlloc. cbn [seq RealS s0]. destruct (Reqb_spec term 0); [contradiction|]. rewrite Nat.add_1_r. reflexivity. Qed.
Lemma coef_upd_ne p i j x : j <> i -> coef (upd p i x) j = coef p j.
Proof. intros. apply nth_upd_neq. congruence. Qed.
(** a quadratic weight *)
Definition quad (w : nat -> R) : Prop := exists a b c, forall i, w i = a + b * INR i + c * (INR i * (INR i - 1)).

Lemma boundary_ok term x1 v1 a1 x2 v2 a2 (v : list R) : term <> 0 ->
  exists c, zPexIPCreateBoundary term x1 v1 a1 x2 v2 a2 v = Ok (Some (PIP term c)) /\ length c = (length v + 6)%nat /\
    coef c 0 = x1 /\ coef c 1 = v1 * term /\ coef c 2 = / 2 * a1 * (term * term) /\
    (forall i, (i < length v)%nat -> coef c (i + 3) = coef v i) /\
    wsum (fun _ => 1) c = x2 /\ wsum INR c = v2 * term /\ wsum (fun i => INR i * (INR i - 1)) c = a2 * (term * term).
Proof.
  intros HT. unfold zPexIPCreateBoundary. rewrite alloc_pip by auto. cbn [pip_c].
  set (k := length v). set (n := (k + 5)%nat). unfold setco.
  set (k1 := x2 - x1 - (v1 + / 2 * a1 * term) * term). set (k2 := (v2 - v1 - a1 * term) * term). set (k3 := (a2 - a1) * (term * term)).
  set (A := (sofZ 1%Z / sofZ 2%Z * (x2 - x1 - (v1 + sofZ 1%Z / sofZ 2%Z * a1 * term) * term) * sofZ (Z.of_nat n) * sofZ (Z.of_nat (n - 1))
     - (v2 - v1 - a1 * term) * term * sofZ (Z.of_nat (n - 1)) + sofZ 1%Z / sofZ 2%Z * ((a2 - a1) * Curve_Model.sqr term))%S).
  set (B := (- (x2 - x1 - (v1 + sofZ 1%Z / sofZ 2%Z * a1 * term) * term) * sofZ (Z.of_nat n) * sofZ (Z.of_nat (n - 2))
     + (v2 - v1 - a1 * term) * term * sofZ (Z.of_nat (2 * n - 3)) - (a2 - a1) * Curve_Model.sqr term)%S).
  set (D := (sofZ 1%Z / sofZ 2%Z * (x2 - x1 - (v1 + sofZ 1%Z / sofZ 2%Z * a1 * term) * term) * sofZ (Z.of_nat (n - 1)) * sofZ (Z.of_nat (n - 2))
     - (v2 - v1 - a1 * term) * term * sofZ (Z.of_nat (n - 2)) + sofZ 1%Z / sofZ 2%Z * ((a2 - a1) * Curve_Model.sqr term))%S).
  assert (I : forall m, sofZ (Z.of_nat m) = INR m) by (intros; cbn [sofZ RealS]; now rewrite INR_IZR_INZ).
  set (K := INR k).
  assert (In : INR n = K + 5) by (unfold n, K; rewrite plus_INR; cbn; ring).
  assert (In1 : INR (n - 1) = K + 4) by (unfold n, K; replace (k + 5 - 1)%nat with (k + 4)%nat by lia; rewrite plus_INR; cbn; ring).
  assert (In2 : INR (n - 2) = K + 3) by (unfold n, K; replace (k + 5 - 2)%nat with (k + 3)%nat by lia; rewrite plus_INR; cbn; ring).
  assert (In3 : INR (2 * n - 3) = 2 * K + 7) by (unfold n, K; replace (2 * (k + 5) - 3)%nat with (k + k + 7)%nat by lia; rewrite !plus_INR; cbn; ring).
  assert (EA : A = / 2 * k1 * (K + 5) * (K + 4) - k2 * (K + 4) + / 2 * k3).
  { unfold A, k1, k2, k3, Curve_Model.sqr. rewrite !I, In, In1. cbn [sadd ssub smul sdiv sofZ RealS]. field. }
  assert (EB : B = - k1 * (K + 5) * (K + 3) + k2 * (2 * K + 7) - k3).
  { unfold B, k1, k2, k3, Curve_Model.sqr. rewrite !I, In, In2, In3. cbn [sadd ssub smul sdiv sofZ sopp RealS]. field. }
  assert (ED : D = / 2 * k1 * (K + 4) * (K + 3) - k2 * (K + 3) + / 2 * k3).
  { unfold D, k1, k2, k3, Curve_Model.sqr. rewrite !I, In1, In2. cbn [sadd ssub smul sdiv sofZ RealS]. field. }
  clearbody A B D.
  cbn [smul RealS sdiv sofZ sopp sadd]. unfold Curve_Model.sqr. cbn [smul RealS].
  change s0 with 0.
  set (c0 := repeat 0 (n + 1)).
  assert (L0 : length c0 = (n + 1)%nat) by apply repeat_length.
  repeat (rewrite setc by (rewrite ?upd_length; lia); cbn [bind]).
  set (c5 := upd (upd (upd (upd (upd (upd c0 0 x1) 1 (v1 * term)) 2 _) (n - 2) A) (n - 1) B) n D).
  assert (L5 : length c5 = (n + 1)%nat) by (unfold c5; rewrite !upd_length; exact L0).
  assert (W5 : forall w, wsum w c5 = w 0%nat * x1 + w 1%nat * (v1 * term) + w 2%nat * (1 / 2 * a1 * (term * term)) + w (n - 2)%nat * A + w (n - 1)%nat * B + w n * D).
  { intros w. unfold c5, c0. rewrite !wsum_upd, wsum_zero by (rewrite ?upd_length, ?repeat_length; lia).
    rewrite !coef_upd, !coef_repeat by (rewrite ?upd_length, ?repeat_length; lia). nbp. all: try ring. }
  assert (E5 : forall w, quad w -> wsum w c5 = w 0%nat * x1 + w 1%nat * (v1 * term) + w 2%nat * (1 / 2 * a1 * (term * term)) + w (n - 2)%nat * A + w (n - 1)%nat * B + w n * D) by auto.
  set (P := fun (i : nat) (c : list R) => length c = (n + 1)%nat /\ (forall w, quad w -> wsum w c = wsum w c5) /\
     (forall j, (j < 3)%nat -> coef c j = coef c5 j) /\ (forall j, (3 <= j < i)%nat -> coef c j = coef v (j - 3)) /\ (forall j, (i <= j < n - 2)%nat -> coef c j = 0)).
  match goal with |- exists c, bind (for_ ?lo ?hi ?f ?s) _ = _ /\ _ => destruct (for_inv P lo hi f s) as (c & E & HP) end.
  - lia.
  - split; auto. split; auto. split; auto. split; [intros; lia|]. intros j Hj. unfold c5, c0. rewrite !coef_upd by (rewrite ?upd_length, ?repeat_length; lia). rewrite coef_repeat. nbp.
  - intros i c Hi (Lc & Wc & C1 & C2 & C3). unfold n in Hi.
    rewrite getc by (fold k; lia). cbn [bind]. rewrite setc by lia. cbn [bind]. unfold addco.
    repeat (rewrite getc by (rewrite ?upd_length; lia); cbn [bind]; rewrite setc by (rewrite ?upd_length; lia); cbn [bind]).
    eexists. split; [reflexivity|]. split; [rewrite !upd_length; auto|].
    assert (ci : coef c i = 0) by (apply C3; unfold n; lia).
    split; [|split; [|split]].
    + intros w Hw. rewrite <- (Wc w Hw). rewrite !wsum_upd by (rewrite ?upd_length; lia).
      rewrite !coef_upd by (rewrite ?upd_length; lia).
      replace (n =? i)%nat with false by (symmetry; apply Nat.eqb_neq; unfold n; lia).
      replace (n - 1 =? i)%nat with false by (symmetry; apply Nat.eqb_neq; unfold n; lia).
      replace (n - 2 =? i)%nat with false by (symmetry; apply Nat.eqb_neq; unfold n; lia).
      replace (n - 1 =? n)%nat with false by (symmetry; apply Nat.eqb_neq; unfold n; lia).
      replace (n - 2 =? n)%nat with false by (symmetry; apply Nat.eqb_neq; unfold n; lia).
      replace (n - 2 =? n - 1)%nat with false by (symmetry; apply Nat.eqb_neq; unfold n; lia).
      rewrite ci. destruct Hw as (qa & qb & qc & Hw). rewrite !Hw, In, In1, In2.
      rewrite <- !INR_IZR_INZ. rewrite mult_INR.
      assert (INR (n - i) = K + 5 - INR i) as -> by (rewrite minus_INR by (unfold n; lia); rewrite In; reflexivity).
      assert (INR (n - 1 - i) = K + 4 - INR i) as -> by (rewrite minus_INR by (unfold n; lia); rewrite In1; reflexivity).
      assert (INR (n - 2 - i) = K + 3 - INR i) as -> by (rewrite minus_INR by (unfold n; lia); rewrite In2; reflexivity).
      cbn [sadd RealS]. field.
    + intros j Hj. rewrite !(coef_upd_ne _ _ j) by (unfold n in *; lia). now apply C1.
    + intros j Hj. rewrite !(coef_upd_ne _ _ j) by (unfold n in *; lia). destruct (Nat.eq_dec j i) as [->|N].
      * rewrite coef_upd, Nat.eqb_refl by (unfold n in *; lia). reflexivity.
      * rewrite coef_upd_ne by auto. apply C2. lia.
    + intros j Hj. rewrite !(coef_upd_ne _ _ j) by (unfold n in *; lia). apply C3. lia.
  - rewrite E. cbn [bind]. exists c. destruct HP as (Lc & Wc & C1 & C2 & C3). split; [reflexivity|]. split; [rewrite Lc; unfold n; lia|].
    assert (J : forall j x, (j < 3)%nat -> coef c5 j = x -> coef c j = x) by (intros j x Hj <-; now apply C1).
    split; [|split; [|split; [|split]]].
    1-3: apply J; [lia|]; unfold c5, c0; rewrite !coef_upd by (rewrite ?upd_length, ?repeat_length; lia); unfold n; nbp; try field.
    + intros i Hi. rewrite C2 by (unfold n; fold k in Hi; lia). f_equal. lia.
    + split; [|split]; rewrite Wc, W5.
      * rewrite EA, EB, ED. unfold k1, k2, k3. field.
      * exists 1, 0, 0. intros. ring.
      * rewrite In, In1, In2, EA, EB, ED. unfold k1, k2, k3. cbn [INR]. field.
      * exists 0, 1, 0. intros. ring.
      * rewrite In, In1, In2, EA, EB, ED. unfold k1, k2, k3. cbn [INR]. field.
      * exists 0, 0, 1. intros. ring.
Qed.

(** ** Least squares *)
Lemma powi_pow (x : R) j : powi x j = x ^ j.
Proof. induction j; cbn [powi pow]; [reflexivity|]. rewrite IHj. reflexivity. Qed.
Lemma powers_ok (term ti : R) (v : fvec R) : exists v', powers term ti v = Ok v' /\ vlen v' = vlen v /\ forall j, (j < vlen v)%nat -> vel v' j = (ti / term) ^ j.
Proof.
  unfold powers. destruct (vec_loop v 0 (vlen v) (fun j v => vset v j (powi (ti / term)%S j)) (fun j => powi (ti / term)%S j)) as (v' & E & L & H); auto; try lia.
  exists v'. split; auto. split; auto. intros j Hj. rewrite H. cbn [Nat.leb andb]. rewrite (proj2 (Nat.ltb_lt _ _)) by auto. apply powi_pow.
Qed.
Definition tau (term : R) (t : fvec R) (i : nat) : R := vel t i / term.
Lemma lsm_sums_ok (term : R) m lo hi (t x : fvec R) : vlen t = vlen x -> (hi <= m)%nat ->
  exists a b, lsm_sums term m lo hi t x = Ok (a, b) /\ nr a = m /\ nc a = m /\ vlen b = m /\
    (forall r c, (r < m)%nat -> (c < m)%nat -> el a r c = if (lo <=? r)%nat && (r <? hi)%nat then rsum (vlen t) (fun i => tau term t i ^ (r + c)) else 0) /\
    (forall r, (r < m)%nat -> vel b r = if (lo <=? r)%nat && (r <? hi)%nat then rsum (vlen t) (fun i => vel x i * tau term t i ^ r) else 0).
Proof.
  intros Htx Hhi. unfold lsm_sums.
  set (A := fun n r c => if (lo <=? r)%nat && (r <? hi)%nat then rsum n (fun i => tau term t i ^ (r + c)) else 0).
  set (B := fun n r => if (lo <=? r)%nat && (r <? hi)%nat then rsum n (fun i => vel x i * tau term t i ^ r) else 0).
  match goal with |- exists a b, bind (for_ ?l ?h ?f ?s0) _ = _ /\ _ =>
    destruct (for_inv (fun n (s : fmat R * fvec R * fvec R) => let '(a, b, v) := s in nr a = m /\ nc a = m /\ vlen b = m /\ vlen v = (2 * m)%nat /\
      (forall r c, (r < m)%nat -> (c < m)%nat -> el a r c = A n r c) /\ (forall r, (r < m)%nat -> vel b r = B n r)) l h f s0) as ([[a b] v] & E & H) end.
  - lia.
  - conjs; auto; intros; unfold A, B; destruct ((lo <=? r)%nat && (r <? hi)%nat); reflexivity.
  - intros i [[a b] v] Hi (a1 & a2 & b1 & v1 & Ha & Hb). rewrite vget_ok by lia. cbn [bind].
    destruct (powers_ok term (vel t i) v) as (v' & Ev & Lv & Hv). rewrite Ev. cbn [bind].
    destruct (Nat.le_gt_cases lo hi) as [Hlo|Hlo].
    + match goal with |- exists s', bind (for_ ?l ?h ?f ?s0) _ = _ /\ _ =>
        destruct (for_inv (fun j (s : fmat R * fvec R) => let '(a', b') := s in nr a' = m /\ nc a' = m /\ vlen b' = m /\
        (forall r c, (r < m)%nat -> (c < m)%nat -> el a' r c = if (r <? j)%nat then A (S i) r c else A i r c) /\ (forall r, (r < m)%nat -> vel b' r = if (r <? j)%nat then B (S i) r else B i r)) l h f s0) as ([a' b'] & E & H) end.
      * lia.
      * conjs; auto.
        -- intros r c Hr Hc. rewrite Ha by auto. unfold A. nbp.
        -- intros r Hr. rewrite Hb by auto. unfold B. nbp.
      * intros j [a' b'] Hj (a1' & a2' & b1' & Ha' & Hb').
        destruct (row_loop a' j 0 m (fun k a => p <- vget v' (j + k) ;; mmod a j k (fun y => (y + p)%S)) (fun k => el a' j k + vel v' (j + k)%nat)) as (a3 & E3 & r3 & c3 & H3); try lia.
        { intros k m' Hk M1 M2 M3. rewrite vget_ok by lia. cbn [bind]. rewrite mmod_ok by lia. rewrite M3 by lia. reflexivity. }
        rewrite E3. cbn [bind]. rewrite !vget_ok by lia. cbn [bind]. rewrite vmod_ok, vset_ok by lia. cbn [bind].
        eexists. split; [reflexivity|]. cbn. conjs; try lia.
        -- intros r c Hr Hc. rewrite H3. rewrite !Ha', Hv by lia. unfold A. cbn [rsum]. fold (tau term t i). nbp. all: cbn [andb]; nbp.
        -- intros r Hr. rewrite !Hb', Hv by lia. unfold B. cbn [rsum]. fold (tau term t i). nbp. all: cbn [andb]; nbp.
      * rewrite E. cbn [bind]. eexists. split; [reflexivity|]. destruct H as (h1 & h2 & h3 & h4 & h5). conjs; auto; try lia.
        -- intros r c Hr Hc. rewrite h4 by auto. unfold A. nbp.
        -- intros r Hr. rewrite h5 by auto. unfold B. nbp.
    + rewrite for_empty by lia. cbn [bind]. eexists. split; [reflexivity|]. cbv iota beta. conjs; auto; try lia.
      * intros r c Hr Hc. rewrite Ha by auto. unfold A. nbp.
      * intros r Hr. rewrite Hb by auto. unfold B. nbp.
  - rewrite E. cbn [bind]. destruct H as (h1 & h2 & h3 & h4 & h5 & h6). exists a, b. conjs; auto.
Qed.
Lemma coef_to_list (x : fvec R) i : (i < vlen x)%nat -> coef (to_list x) i = vel x i.
Proof.
  intros. unfold coef, to_list. rewrite (nth_indep _ 0 (vel x 0)) by (rewrite map_length, seq_length; auto).
  rewrite map_nth. now rewrite seq_nth.
Qed.
Lemma length_to_list {T} (x : fvec T) : length (to_list x) = vlen x.
Proof. unfold to_list. now rewrite map_length, seq_length. Qed.
Lemma peval_to_list x s : peval (to_list x) s = pcoef (vlen x) (vel x) s.
Proof. unfold peval, pcoef. rewrite length_to_list. apply rsum_ext. intros. now rewrite coef_to_list. Qed.
Lemma pcoef_zero n : forall c, (forall t, pcoef n c t = 0) -> forall i, (i < n)%nat -> c i = 0.
Proof.
  induction n as [|n IH]; intros c H i Hi; [lia|].
  assert (c 0%nat = 0) as C0. { specialize (H 0). rewrite pcoef_S in H. lra. }
  destruct i as [|i]; [exact C0|]. apply (IH (fun i => c (S i))); [|lia].
  apply (roots n _ (fun i => INR (S i))).
  - intros a b Hab E. apply INR_eq in E. lia.
  - intros a Ha. specialize (H (INR (S a))). rewrite pcoef_S, C0 in H.
    assert (INR (S a) <> 0) by (apply not_0_INR; lia). assert (INR (S a) * pcoef n (fun i => c (S i)) (INR (S a)) = 0) as M by lra. apply Rmult_integral in M. tauto.
Qed.
(** the row j of the normal equations *)
Lemma normal_row n m (s : nat -> R) (c : nat -> R) j :
  rsum m (fun k => rsum n (fun i => s i ^ (j + k)) * c k) = rsum n (fun i => s i ^ j * pcoef m c (s i)).
Proof.
  rewrite (rsum_ext m _ (fun k => rsum n (fun i => s i ^ j * (c k * s i ^ k)))).
  - rewrite rsum_swap. apply rsum_ext. intros i _. unfold pcoef. now rewrite rsum_scal.
  - intros k _. rewrite <- rsum_scal_r. apply rsum_ext. intros. rewrite pow_add. ring.
Qed.
Lemma weighted n m (g : nat -> R) (s : nat -> R) (c : nat -> R) :
  rsum n (fun i => g i * pcoef m c (s i)) = rsum m (fun j => c j * rsum n (fun i => s i ^ j * g i)).
Proof.
  unfold pcoef. rewrite (rsum_ext n _ (fun i => rsum m (fun j => c j * (s i ^ j * g i)))).
  - rewrite rsum_swap. apply rsum_ext. intros. now rewrite rsum_scal.
  - intros. rewrite <- rsum_scal. apply rsum_ext. intros. ring.
Qed.
