(** Polynomial curves, trapezoidal velocity profile, clothoid: properties C38-C40, C70-C72. *)
From Coq Require Import Reals Lra Lia QArith Psatz.
From Coquelicot Require Import Coquelicot.
From Verif Require Import Prelude Prelude_Proofs Scalar RealLib Fmat Fmat_Proofs Pex_Model Pex_Spec Pex_Proofs LE_Model LE_Spec LE_Props IP4_Proofs Curve_Model Curve_Proofs Curve2_Proofs.
Local Open Scope R_scope.
Local Open Scope bool_scope.

(** the curve [pc] has position [pos], and velocity and acceleration are its derivatives *)
Definition is_curve (pc : pexip) (pos vel acc : R -> R) : Prop :=
  (forall t, zPexIPVal pc t = Ok (pos t) /\ zPexIPVel pc t = Ok (vel t) /\ zPexIPAcc pc t = Ok (acc t)) /\
  (forall t, derivable_pt_lim pos t (vel t)) /\ (forall t, derivable_pt_lim vel t (acc t)).
Lemma curve_of pc : pip_c pc <> [] -> pip_term pc <> 0 -> is_curve pc (ppos pc) (pvel pc) (pacc pc).
Proof. intros H1 H2. split; [|split]; intros t; [split; [|split]|..]; auto using pip_val, pip_vel, pip_acc, pip_dvel, pip_dacc. Qed.

(** ** C38 *)
Theorem C38_boundary term x1 v1 a1 x2 v2 a2 (v : list R) : term <> 0 ->
  exists pc pos vel acc, zPexIPCreateBoundary term x1 v1 a1 x2 v2 a2 v = Ok (Some pc) /\ is_curve pc pos vel acc /\
    pos 0 = x1 /\ vel 0 = v1 /\ acc 0 = a1 /\ pos term = x2 /\ vel term = v2 /\ acc term = a2 /\
    length (pip_c pc) = (length v + 6)%nat /\ (forall i, (i < length v)%nat -> coef (pip_c pc) (i + 3) = coef v i) /\
    (forall t, pos t = peval (pip_c pc) (t / term)).
Proof.
  intros HT. destruct (boundary_ok term x1 v1 a1 x2 v2 a2 v HT) as (c & E & L & c0 & c1 & c2 & cv & w0 & w1 & w2).
  set (pc := PIP term c) in *. exists pc, (ppos pc), (pvel pc), (pacc pc). split; [exact E|].
  split. { apply curve_of; auto. cbn. intros ->. cbn in L. lia. }
  destruct (pip_at0 pc HT) as (-> & -> & ->). destruct (pip_atT pc HT) as (A1 & A2 & A3). cbn [pip_term pip_c pc] in *.
  rewrite A1, A2, A3, c0, c1, c2, w0, w1, w2. conjs; auto; try (field; auto).
Qed.
Theorem C38_zero_term_rejected {T} {ST : Scalar T} (term x1 v1 a1 x2 v2 a2 : T) v : seq term s0 = true ->
  zPexIPCreateBoundary term x1 v1 a1 x2 v2 a2 v = Ok None.
Proof. intros H. unfold zPexIPCreateBoundary, zPexIPAlloc. now rewrite H. Qed.
(** fifth order, and with one free coefficient; the duration is 2 *)
Example C38_case : (zPexIPCreateBoundary 2 1 0 0 3 0 0 [] = Ok (Some (PIP 2 [1; 0; 0; 20; -30; 12])))%Q /\
  exists pc, (zPexIPCreateBoundary 2 1 2 (1 # 2) 3 (1 # 3) 5 [7] = Ok (Some pc))%Q /\
    (zPexIPVal pc 2 = Ok 3)%Q /\ (zPexIPVel pc 2 = Ok (1 # 3))%Q /\ (zPexIPAcc pc 2 = Ok 5)%Q.
Proof. split; [vm_compute; reflexivity|]. eexists. split; [vm_compute; reflexivity|]. vm_compute. auto. Qed.

(** the least-squares variant: if the equations have a unique solution, all conditions hold
    but the terminal velocity and acceleration, which are those of the normalized time *)
Theorem C38_boundary_lsm_partial term x1 v1 a1 x2 v2 a2 dim (t x : fvec R) : term <> 0 -> (5 <= dim)%nat -> vlen t = vlen x ->
  exists pc, zPexIPCreateBounderyLSM 0 term x1 v1 a1 x2 v2 a2 dim t x = Ok (Some pc) /\
   (pip_c pc = repeat 0 (dim + 1) \/
    exists pos vel acc, is_curve pc pos vel acc /\ pos 0 = x1 /\ vel 0 = v1 /\ acc 0 = a1 /\
      pos term = x2 /\ vel term = v2 / term /\ acc term = a2 / (term * term)).
Proof.
  intros HT Hd L. unfold zPexIPCreateBounderyLSM. rewrite L, Nat.eqb_refl. cbn [negb]. rewrite alloc_pip by auto.
  set (m := (dim + 1)%nat). destruct (lsm_sums_ok term m 3 (m - 3) t x L) as (a & b & E & A1 & A2 & B1 & Ha & Hb); [lia|]. rewrite E. cbn [bind].
  rewrite mset_ok by lia. cbn [bind]. rewrite mset_ok by (cbn; lia). cbn [bind]. rewrite mset_ok by (cbn; lia). cbn [bind nr nc el].
  destruct (Nat.ltb_spec m 3); [lia|].
  match goal with |- context [for_ 0 m ?f ?s] => destruct (row_loop s (m - 3) 0 m f (fun _ => 1)) as (M1 & E1 & R1 & C1 & H1); cbn [nr nc]; try lia; auto end.
  rewrite E1. cbn [bind]. cbn [nr nc el] in R1, C1, H1.
  match goal with |- context [for_ 1 m ?f M1] => destruct (row_loop M1 (m - 2) 1 m f (fun i => IZR (Z.of_nat i))) as (M2 & E2 & R2 & C2 & H2); try lia; auto end.
  rewrite E2. cbn [bind].
  match goal with |- context [for_ 2 m ?f M2] => destruct (row_loop M2 (m - 1) 2 m f (fun i => IZR (Z.of_nat (i * (i - 1))))) as (M3 & E3 & R3 & C3 & H3); try lia; auto end.
  rewrite E3. cbn [bind]. repeat (rewrite vset_ok by (cbn [vlen]; lia); cbn [bind vlen vel]).
  unfold lsm_solve. match goal with |- context [zLESolveGauss 0 M3 ?b (zvec m)] => set (bb := b) end.
  change (zLESolveGauss s0 M3 bb (zvec m)) with (zLESolveGauss 0 M3 bb (zvec m)).
  destruct (C23_gauss_exact m M3 bb (zvec m)) as (o & Eo & Ho); auto; try lia. rewrite Eo. cbn [bind].
  eexists. split; [reflexivity|]. cbn [pip_c]. destruct o as [y|]; [right|left; reflexivity]. destruct Ho as (Ly & Sy & _).
  set (pc := PIP term (to_list y)). exists (ppos pc), (pvel pc), (pacc pc).
  split. { apply curve_of; auto. cbn. intros Q. apply (f_equal (@length R)) in Q. rewrite length_to_list in Q. cbn in Q. lia. }
  destruct (pip_at0 pc HT) as (-> & -> & ->). destruct (pip_atT pc HT) as (P1 & P2 & P3). cbn [pip_term pip_c pc] in *.
  rewrite P1, P2, P3. unfold wsum. rewrite length_to_list, Ly. rewrite !coef_to_list by lia.
  assert (row : forall r, (r < m)%nat -> rsum m (fun k => el M3 r k * vel y k) = vel bb r) by exact Sy.
  assert (r0 : vel y 0%nat = x1).
  { specialize (row 0%nat ltac:(lia)). rewrite (rsum_delta _ 0%nat) in row; try lia.
    - rewrite H3, H2, H1 in row. unfold bb in row. cbn [vel] in row. revert row. nbp. cbn [s1 RealS]. intros; lra.
    - intros i Hi N. rewrite H3, H2, H1, Ha by lia. nbp. all: cbn [s0 RealS]; ring. }
  assert (r1 : vel y 1%nat = v1 * term).
  { specialize (row 1%nat ltac:(lia)). rewrite (rsum_delta _ 1%nat) in row; try lia.
    - rewrite H3, H2, H1 in row. unfold bb in row. cbn [vel] in row. revert row. nbp. cbn [s1 sdiv RealS]. intros row. rewrite <- row. field. auto.
    - intros i Hi N. rewrite H3, H2, H1, Ha by lia. nbp. all: cbn [s0 RealS]; ring. }
  assert (r2 : vel y 2%nat = a1 * (term * term) / 2).
  { specialize (row 2%nat ltac:(lia)). rewrite (rsum_delta _ 2%nat) in row; try lia.
    - rewrite H3, H2, H1 in row. unfold bb in row. cbn [vel] in row. revert row. nbp. unfold Curve_Model.sqr. cbn [s1 sdiv smul sofZ RealS]. intros row. rewrite <- row. field. auto.
    - intros i Hi N. rewrite H3, H2, H1, Ha by lia. nbp. all: cbn [s0 RealS]; ring. }
  assert (r3 : rsum m (fun i => 1 * coef (to_list y) i) = x2).
  { rewrite <- (eq_refl : vel bb (m - 3)%nat = _) || idtac. transitivity (vel bb (m - 3)%nat).
    - rewrite <- row by lia. apply rsum_ext. intros i Hi. rewrite coef_to_list by lia. rewrite H3, H2, H1. nbp.
    - unfold bb. cbn [vel]. nbp. }
  assert (r4 : rsum m (fun i => INR i * coef (to_list y) i) = v2).
  { transitivity (vel bb (m - 2)%nat).
    - rewrite <- row by lia. apply rsum_ext. intros i Hi. rewrite coef_to_list by lia. rewrite H3, H2, H1, Ha by lia. rewrite INR_IZR_INZ.
      destruct (Nat.eq_dec i 0) as [->|]; nbp.
    - unfold bb. cbn [vel]. nbp. }
  assert (r5 : rsum m (fun i => INR i * (INR i - 1) * coef (to_list y) i) = a2).
  { transitivity (vel bb (m - 1)%nat).
    - rewrite <- row by lia. apply rsum_ext. intros i Hi. rewrite coef_to_list by lia. rewrite H3, H2, H1, Ha by lia. rewrite <- INR_IZR_INZ, mult_INR.
      destruct (Nat.eq_dec i 0) as [->|]; [|destruct (Nat.eq_dec i 1) as [->|]; [|rewrite minus_INR by lia]]; nbp; cbn [INR]; try ring.
    - unfold bb. cbn [vel]. nbp. }
  rewrite r0, r1, r2, r3, r4, r5. conjs; auto; field; auto.
Qed.
(** duration 2, from rest at 0 to speed 1 at 3: the curve ends with speed 1/2 *)
Theorem C38_boundary_lsm_refuted : exists pc, (zPexIPCreateBounderyLSM 0 2 0 0 0 3 1 0 5 (vec_of 0 []) (vec_of 0 []) = Ok (Some pc))%Q /\
  (zPexIPVal pc 2 = Ok 3)%Q /\ (zPexIPVel pc 2 = Ok (1 # 2))%Q.
Proof. eexists. split; [vm_compute; reflexivity|]. vm_compute. auto. Qed.
(** order 6 with no sample: the equations have many solutions, zero is answered as a success *)
Theorem C38_boundary_lsm_singular_refuted : (zPexIPCreateBounderyLSM 0 1 1 0 0 3 1 0 6 (vec_of 0 []) (vec_of 0 []) = Ok (Some (PIP 1 [0; 0; 0; 0; 0; 0; 0])))%Q.
Proof. vm_compute. reflexivity. Qed.
Example C38_lsm_case : exists pc, (zPexIPCreateBounderyLSM 0 1 1 2 (1 # 2) 3 (1 # 3) 5 6 (vec_of 0 [1 # 2]) (vec_of 0 [4]) = Ok (Some pc))%Q /\
    (zPexIPVal pc 0 = Ok 1)%Q /\ (zPexIPVal pc (1 # 2) = Ok 4)%Q /\ (zPexIPVel pc 1 = Ok (1 # 3))%Q /\ (zPexIPAcc pc 1 = Ok 5)%Q.
Proof. eexists. split; [vm_compute; reflexivity|]. vm_compute. auto. Qed.

(** ** C70 *)
(** sum of the squared errors of the curve [pos] at the samples *)
Definition sq_error (pos : R -> R) (t x : fvec R) : R := rsum (vlen t) (fun i => (pos (vel t i) - vel x i) ^ 2).
Theorem C70_least_squares_partial term dim (t x : fvec R) : term <> 0 -> vlen t = vlen x ->
  (exists pick, (forall i, (i <= dim)%nat -> (pick i < vlen t)%nat) /\ forall i j, (i < j <= dim)%nat -> vel t (pick i) <> vel t (pick j)) ->
  exists pc pos vl acc, zPexIPCreateLSM 0 term dim t x = Ok (Some pc) /\ is_curve pc pos vl acc /\
    length (pip_c pc) = (dim + 1)%nat /\
    forall q, length q = (dim + 1)%nat -> sq_error pos t x <= sq_error (fun s => peval q (s / term)) t x.
Proof.
  intros HT L (pick & Hp & Dp). unfold zPexIPCreateLSM. rewrite L, Nat.eqb_refl. cbn [negb]. rewrite alloc_pip by auto.
  set (m := (dim + 1)%nat). destruct (lsm_sums_ok term m 0 m t x L) as (a & b & E & A1 & A2 & B1 & Ha & Hb); [lia|]. rewrite E. cbn [bind].
  unfold lsm_solve. change (zLESolveGauss s0 a b (zvec m)) with (zLESolveGauss 0 a b (zvec m)).
  destruct (C23_gauss_exact m a b (zvec m)) as (o & Eo & Ho); auto; try lia. rewrite Eo. cbn [bind].
  set (s := tau term t) in *. set (n := vlen t) in *.
  assert (row : forall y r, (r < m)%nat -> mv m (el a) y r = rsum n (fun i => s i ^ r * pcoef m y (s i))).
  { intros y r Hr. unfold mv. rewrite <- normal_row. apply rsum_ext. intros k Hk. rewrite Ha by auto. nbp. }
  assert (rb : forall r, (r < m)%nat -> vel b r = rsum n (fun i => s i ^ r * vel x i)).
  { intros r Hr. rewrite Hb by auto. nbp. apply rsum_ext. intros. ring. }
  assert (NS : nonsingular m (el a)).
  { intros y Hy. apply pcoef_zero. apply (roots m _ (fun i => s (pick i))).
    - intros i j Hij Q. apply (Dp i j); [lia|]. unfold s, tau in Q. apply (f_equal (fun z => z * term)) in Q. field_simplify in Q; auto.
    - intros i Hi. assert (Z : rsum n (fun i => pcoef m y (s i) * pcoef m y (s i)) = 0).
      { rewrite weighted. apply rsum_0. intros j Hj. specialize (Hy j Hj). rewrite row in Hy by auto. rewrite Hy. ring. }
      pose proof (rsum_nonneg_0 n (fun i => pcoef m y (s i) * pcoef m y (s i))) as K. cbv beta in K.
      assert (pcoef m y (s (pick i)) * pcoef m y (s (pick i)) = 0) as Q by (apply K; auto; [intros; nra|apply Hp; lia]).
      apply Rmult_integral in Q. tauto. }
  destruct o as [y|]; [|contradiction]. destruct Ho as (Ly & Sy & _). set (pc := PIP term (to_list y)). exists pc, (ppos pc), (pvel pc), (pacc pc).
  split; [reflexivity|]. split. { apply curve_of; auto. cbn. intros Q. apply (f_equal (@length R)) in Q. rewrite length_to_list in Q. cbn in Q. lia. }
  split. { cbn. rewrite length_to_list. auto. }
  intros q Hq. set (qv := FV m (coef q)).
  assert (PQ : forall z, peval q z = pcoef m (coef q) z) by (intros; unfold peval, pcoef; rewrite Hq; reflexivity).
  assert (PY : forall i, ppos pc (vel t i) = pcoef m (vel y) (s i)). { intros i. unfold ppos. cbn [pip_c pip_term pc]. rewrite peval_to_list, Ly. reflexivity. }
  unfold sq_error. fold n.
  assert (O : rsum n (fun i => (pcoef m (vel y) (s i) - vel x i) * pcoef m (fun k => coef q k - vel y k) (s i)) = 0).
  { rewrite weighted. apply rsum_0. intros j Hj. specialize (Sy j Hj). rewrite row, rb in Sy by auto.
    rewrite (rsum_ext n _ (fun i => s i ^ j * pcoef m (vel y) (s i) - s i ^ j * vel x i)) by (intros; ring). rewrite rsum_sub, Sy. ring. }
  assert (DQ : forall z, pcoef m (fun k => coef q k - vel y k) z = pcoef m (coef q) z - pcoef m (vel y) z).
  { intros z. unfold pcoef. rewrite <- rsum_sub. apply rsum_ext. intros. ring. }
  rewrite (rsum_ext n _ (fun i => (pcoef m (vel y) (s i) - vel x i) ^ 2)) by (intros; now rewrite PY).
  rewrite (rsum_ext n (fun i => (peval q (vel t i / term) - vel x i) ^ 2) (fun i => (pcoef m (vel y) (s i) - vel x i) ^ 2 +
     (2 * ((pcoef m (vel y) (s i) - vel x i) * pcoef m (fun k => coef q k - vel y k) (s i)) + (pcoef m (fun k => coef q k - vel y k) (s i)) ^ 2))).
  2:{ intros i Hi. rewrite PQ, DQ. unfold s, tau. ring. }
  rewrite rsum_add, rsum_add, rsum_scal, O.
  pose proof (rsum_nonneg n (fun i => pcoef m (fun k => coef q k - vel y k) (s i) ^ 2)) as NN. cbv beta in NN. assert (0 <= rsum n (fun i => pcoef m (fun k => coef q k - vel y k) (s i) ^ 2)) by (apply NN; intros; apply pow2_ge_0). lra.
Qed.
(** with fewer samples than coefficients zero is answered as a success: for the sample 5 at
    time 0 the straight line y = 0 instead of a line through the sample *)
Theorem C70_few_samples_refuted : (zPexIPCreateLSM 0 1 1 (vec_of 0 [0]) (vec_of 0 [5]) = Ok (Some (PIP 1 [0; 0])))%Q.
Proof. vm_compute. reflexivity. Qed.
Theorem C70_sizes {T} {ST : Scalar T} (tol term : T) dim t x : vlen t <> vlen x -> zPexIPCreateLSM tol term dim t x = Ok None.
Proof. intros H. unfold zPexIPCreateLSM. apply Nat.eqb_neq in H. now rewrite H. Qed.
(** four samples, a parabola *)
Example C70_case : exists pc, (zPexIPCreateLSM 0 2 2 (vec_of 0 [0; 1; 2; 3]) (vec_of 0 [1; 0; 3; 4]) = Ok (Some (PIP 2 pc)))%Q /\ pc = [(7 # 10)%Q; (-3 # 5)%Q; 2%Q].
Proof. eexists. split; [vm_compute; reflexivity|]. vm_compute. reflexivity. Qed.

(** ** C39 *)
Theorem C39_accepts v0 vT vmax acc dist :
  (exists p, zTRVelProfCreate v0 vT vmax acc dist = Some p) <-> 0 <= dist /\ 0 < vmax /\ v0 <= vmax /\ vT <= vmax /\ 0 < acc.
Proof.
  unfold zTRVelProfCreate. cbn [slt sle s0 RealS].
  destruct (Rltb_spec dist 0), (Rleb_spec vmax 0), (Rltb_spec vmax v0), (Rltb_spec vmax vT), (Rleb_spec acc 0); try (split; [intros (p & E); discriminate|lra]).
  split; [intros _; lra|]. intros _. match goal with |- context [if ?b then _ else _] => destruct b end; eauto.
Qed.
(** if the change of velocity fits into the distance *)
Theorem C39_profile_partial v0 vT vmax acc dist p : zTRVelProfCreate v0 vT vmax acc dist = Some p ->
  Rabs (v0 * v0 - vT * vT) <= 2 * acc * dist ->
  let T := zTRVelProfTerm p in
  0 <= T /\ zTRVelProfDist p 0 = 0 /\ zTRVelProfVel p 0 = v0 /\ zTRVelProfDist p T = dist /\ zTRVelProfVel p T = vT /\
  (forall t, derivable_pt_lim (zTRVelProfDist p) t (zTRVelProfVel p t)) /\
  (forall t u, Rabs (zTRVelProfVel p t - zTRVelProfVel p u) <= acc * Rabs (t - u)) /\
  (forall t, zTRVelProfVel p t <= vmax) /\ (forall t, 0 <= t <= T -> Rmin v0 vT <= zTRVelProfVel p t) /\
  (forall t, zTRVelProfAcc p t = acc \/ zTRVelProfAcc p t = 0 \/ zTRVelProfAcc p t = - acc) /\
  (exists t1 t2, 0 <= t1 <= t2 /\ t2 <= T /\ forall t, t <> t1 -> t <> t2 -> derivable_pt_lim (zTRVelProfVel p) t (zTRVelProfAcc p t)).
Proof.
  intros E H T. pose proof (create_wf v0 vT vmax acc dist p H E) as W. pose proof (prof_ends _ _ _ _ _ _ W) as (O & D0 & V0 & DT & VT).
  fold T. conjs; auto.
  - eapply prof_derive; eauto.
  - eapply prof_lip; eauto.
  - intros t. eapply prof_bound; eauto.
  - intros t. eapply prof_bound; eauto.
  - intros t. rewrite (prof_acc _ _ _ _ _ _ W). destruct (Rltb t (tr_t1 p)); auto. destruct (Rltb t (tr_t2 p)); auto.
  - exists (tr_t1 p), (tr_t2 p). split; [split; [apply (w_t1 _ _ _ _ _ _ W)|apply (w_t2 _ _ _ _ _ _ W)]|]. split; [apply (w_t _ _ _ _ _ _ W)|]. intros. eapply prof_derive2; eauto.
Qed.
(** from speed 5 to 1 within a distance of 3 at 1 per second squared takes a distance of 12:
    the profile is accepted, starts at -1 with speed 3 *)
Theorem C39_short_refuted : exists p, (zTRVelProfCreate 5 1 5 1 3 = Some p)%Q /\ (zTRVelProfDist p 0 = -1)%Q /\ (zTRVelProfVel p 0 = 3)%Q /\ (zTRVelProfTerm p = 2)%Q.
Proof. eexists. split; [vm_compute; reflexivity|]. vm_compute. auto. Qed.
(** a trapezoid and a triangle *)
Example C39_case : (exists p, zTRVelProfCreate 1 0 2 1 10 = Some p /\ zTRVelProfTerm p = 25 # 4 /\ zTRVelProfVel p 3 = 2 /\ zTRVelProfDist p (25 # 4) = 10)%Q /\
  (exists p, zTRVelProfCreate 1 1 5 1 3 = Some p /\ zTRVelProfTerm p = 2 /\ zTRVelProfVel p 1 = 2 /\ zTRVelProfDist p 2 = 3)%Q.
Proof. split; eexists; split; try (vm_compute; reflexivity); vm_compute; auto. Qed.

(** ** C71 *)
(** sine and cosine integrals of f0 + f1 t + f2 t^2 from the normalized Fresnel integrals:
    each of f1, f2 is either zero or above the tolerance *)
Theorem C71_fresnel_partial tol f0 f1 f2 : 0 <= tol -> clear tol f1 -> clear tol f2 ->
  exists s c : R -> R, (forall x, zFresnelIntgGen tol sin cos (PI / 2) fresnel_exact x f0 f1 f2 = (true, s x, c x)) /\
    s 0 = 0 /\ c 0 = 0 /\
    (forall x, derivable_pt_lim s x (sin (f0 + f1 * x + f2 * x ^ 2))) /\ (forall x, derivable_pt_lim c x (cos (f0 + f1 * x + f2 * x ^ 2))).
Proof.
  intros Ht H1 H2. destruct (gen_fun tol Ht f0 f1 f2 H1 H2) as (s & c & E & s0 & c0 & Ds & Dc). exists s, c. conjs; auto; intros x; apply is_derive_Reals; auto.
Qed.
Example C71_case : clear (/ 1000) (-2) /\ clear (/ 1000) 0 /\ clear (/ 1000) 1.
Proof. unfold clear. split; [right; rewrite Rabs_left by lra; lra|]. split; [left; reflexivity|right; rewrite Rabs_R1; lra]. Qed.

(** ** C40 *)
Local Notation XY tol := (zClothoidXY tol sin cos (PI / 2) fresnel_exact).
Lemma clothoid_fun tol (cl : clothoid) : 0 <= tol -> clear tol (cl_fc cl) -> clear tol (cl_fs cl) ->
  exists s c : R -> R, (forall x, zFresnelIntgGen tol sin cos (PI / 2) fresnel_exact x (cl_f0 cl) (cl_fc cl) (cl_fs cl) = (true, s x, c x)) /\
   (forall x, XY tol cl x = Some (cl_x0 cl + cl_h cl * c x, cl_x0 cl + cl_h cl * s x)) /\ s 0 = 0 /\ c 0 = 0 /\
   (forall x, derivable_pt_lim s x (sin (cl_f0 cl + cl_fc cl * x + cl_fs cl * x ^ 2))) /\ (forall x, derivable_pt_lim c x (cos (cl_f0 cl + cl_fc cl * x + cl_fs cl * x ^ 2))).
Proof.
  intros Ht H1 H2. destruct (C71_fresnel_partial tol (cl_f0 cl) _ _ Ht H1 H2) as (s & c & E & s0 & c0 & Ds & Dc). exists s, c. conjs; auto.
  intros x. unfold zClothoidXY. rewrite E. reflexivity.
Qed.
(** the start point is (x0, x0): right if x0 = y0 *)
Theorem C40_start_partial tol (cl : clothoid) : 0 <= tol -> clear tol (cl_fc cl) -> clear tol (cl_fs cl) -> cl_x0 cl = cl_y0 cl ->
  XY tol cl 0 = Some (cl_x0 cl, cl_y0 cl).
Proof.
  intros Ht H1 H2 H. destruct (clothoid_fun tol cl Ht H1 H2) as (s & c & _ & E & s0 & c0 & _). rewrite E, s0, c0, <- H. do 2 f_equal; ring.
Qed.
Theorem C40_start_refuted tol : 0 <= tol -> XY tol (CL 1 2 0 0 0 1) 0 = Some (1, 1).
Proof.
  intros Ht. destruct (clothoid_fun tol (CL 1 2 0 0 0 1) Ht) as (s & c & _ & E & s0 & c0 & _); try (left; reflexivity). rewrite E, s0, c0. cbn. do 2 f_equal; ring.
Qed.

(** ** C72 *)
(** whatever the search found: the curve leaves with angle f0 and arrives with angle f1, and its
    end points are as far from each other as the given ones *)
Theorem C72_clothoid_partial tol atan2 iter x0 y0 f0 x1 y1 f1 : 0 <= tol ->
  let cl := zClothoidCreateSegment tol sin cos (PI / 2) fresnel_exact atan2 PI iter x0 y0 f0 x1 y1 f1 in
  clear tol (cl_fc cl) -> clear tol (cl_fs cl) ->
  exists X Y : R -> R, (forall s, XY tol cl s = Some (X s, Y s)) /\
    derivable_pt_lim X 0 (cl_h cl * cos f0) /\ derivable_pt_lim Y 0 (cl_h cl * sin f0) /\
    derivable_pt_lim X 1 (cl_h cl * cos f1) /\ derivable_pt_lim Y 1 (cl_h cl * sin f1) /\
    (X 1 <> X 0 \/ Y 1 <> Y 0 -> (X 1 - X 0) ^ 2 + (Y 1 - Y 0) ^ 2 = (x1 - x0) ^ 2 + (y1 - y0) ^ 2).
Proof.
  intros Ht cl H1 H2. destruct (clothoid_fun tol cl Ht H1 H2) as (s & c & G & E & s0 & c0 & Ds & Dc).
  assert (F0 : cl_f0 cl = f0) by (unfold cl, zClothoidCreateSegment; destruct (zFresnelIntgGen _ _ _ _ _ _ _ _) as [[? ?] ?]; reflexivity).
  assert (F1 : cl_f0 cl + cl_fc cl + cl_fs cl = f1).
  { unfold cl, zClothoidCreateSegment. destruct (zFresnelIntgGen _ _ _ _ _ _ _ _) as [[? ?] ?]. cbn [cl_f0 cl_fc cl_fs ssub RealS]. ring. }
  assert (Hh : cl_h cl = R_sqrt.sqrt (((x1 - x0) * (x1 - x0) + (y1 - y0) * (y1 - y0)) / (s 1 * s 1 + c 1 * c 1))).
  { pose proof (G 1) as G1. unfold cl, zClothoidCreateSegment in G1 |- *.
    match goal with |- context [zFresnelIntgGen ?a ?b ?c ?d ?e ?f ?g ?h ?i] => destruct (zFresnelIntgGen a b c d e f g h i) as [[r1 r2] r3] eqn:Q end.
    cbn [cl_f0 cl_fc cl_fs] in G1. change s1 with 1 in Q. rewrite Q in G1. injection G1 as E1 E2 E3. rewrite E2, E3. reflexivity. }
  assert (DD : forall (f : R -> R) l x k, derivable_pt_lim f x l -> derivable_pt_lim (fun x => k + cl_h cl * f x) x (cl_h cl * l)).
  { intros f l x k D. replace (cl_h cl * l) with (0 + cl_h cl * l) by ring. apply (derivable_pt_lim_plus (fun _ => k) (fun x => cl_h cl * f x)); [apply derivable_pt_lim_const|]. apply (derivable_pt_lim_scal f); auto. }
  exists (fun x => cl_x0 cl + cl_h cl * c x), (fun x => cl_x0 cl + cl_h cl * s x). split; [exact E|].
  assert (A0 : f0 = cl_f0 cl + cl_fc cl * 0 + cl_fs cl * 0 ^ 2) by (rewrite F0; ring).
  assert (A1 : f1 = cl_f0 cl + cl_fc cl * 1 + cl_fs cl * 1 ^ 2) by (rewrite <- F1; ring).
  split; [rewrite A0 at 1; apply DD, Dc|]. split; [rewrite A0 at 1; apply DD, Ds|].
  split; [rewrite A1 at 1; apply DD, Dc|]. split; [rewrite A1 at 1; apply DD, Ds|].
  rewrite s0, c0. intros N.
  assert (P : 0 < s 1 * s 1 + c 1 * c 1).
  { destruct (Req_dec (c 1) 0) as [Z1|Z1]; [|nra]. destruct (Req_dec (s 1) 0) as [Z2|Z2]; [|nra]. rewrite Z1, Z2 in N. exfalso. destruct N as [N|N]; apply N; ring. }
  set (h := cl_h cl) in *. assert (h * h = ((x1 - x0) * (x1 - x0) + (y1 - y0) * (y1 - y0)) / (s 1 * s 1 + c 1 * c 1)) as HH.
  { rewrite Hh. apply R_sqrt.sqrt_sqrt. apply Rmult_le_pos; [apply Rplus_le_le_0_compat; apply Rle_0_sqr|left; now apply Rinv_0_lt_compat]. }
  transitivity (h * h * (s 1 * s 1 + c 1 * c 1)); [ring|]. rewrite HH. field. lra.
Qed.

Print Assumptions C38_boundary.
Print Assumptions C38_boundary_lsm_partial.
Print Assumptions C70_least_squares_partial.
Print Assumptions C39_profile_partial.
Print Assumptions C40_start_partial.
Print Assumptions C71_fresnel_partial.
Print Assumptions C72_clothoid_partial.
