(** C106: linear programming by the primal-dual interior-point method (zLPSolvePDIP_PC). *)
From Coq Require Import Reals Lra Lia List Floats.
From Verif Require Import Prelude Prelude_Proofs Scalar RealLib Fmat Fmat_Proofs LE_Model LE_Spec IP_Model IP_Proofs Vop Root_Model Stat_Model Qp_Spec Qp_Proofs Eig_Model Asm_Model Asm_Proofs Gen_Model Gen_Spec Gen_Proofs Gen2_Proofs Gen2_Props Stab_Proofs Small_Props Lcpip_Model Lcpip_Props Pdip_Model Pdip_Spec Pdip_Proofs.
Import ListNotations.
Local Open Scope R_scope.

(** ** the directions: for every matrix with independent rows and every positive x and z, Newton's equations are solved,
    for all small tolerances of the linear solver *)
Theorem C106_direction n p (a : fmat R) x z v1 v2 v3 dy : (0 < n)%nat -> nr a = n -> nc a = p -> rows_indep n p (el a) -> vlen x = p -> vlen z = p ->
  positive p (vel x) -> positive p (vel z) -> vlen v1 = n -> vlen v2 = p -> vlen v3 = p -> vlen dy = n ->
  exists d, 0 < d /\ forall t, 0 < t <= d -> exists lu DX DY DZ, _zLP_PDIPEqLUDecomp t a x z = Ok (Some lu) /\
    _zLP_PDIPEqLU t a x z lu (Some v1) (Some v2) v3 dy = Ok (DX, DY, DZ) /\ vlen DX = p /\ vlen DY = n /\ vlen DZ = p /\
    newton n p (el a) (vel x) (vel z) (vel v1) (vel v2) (vel v3) (vel DX) (vel DY) (vel DZ).
Proof.
  intros Hn A1 A2 RI X Z PX PZ V1 V2 V3 DY. destruct (decomp_ok n p a A1 A2 x z) as (l & u & idx & E & HS); auto.
  assert (S : st (fun t => _zLP_PDIPEqLUDecomp t a x z)). { unfold _zLP_PDIPEqLUDecomp. do 2 (apply st_bind; [apply st_const|]; intros ?). apply st_lu. }
  destruct S as (d & Hd & S). exists d. split; auto. intros t Ht. destruct (eqlu_ok n p a A1 A2 x z l u idx (Some v1) (Some v2) v3 dy) as (DX & DY' & DZ & EQ & D1 & D2 & D3 & N); auto.
  exists (l, u, idx, n), DX, DY', DZ. rewrite S by auto. split; [exact E|]. split; [|split; [exact D1|split; [exact D2|split; [exact D3|exact N]]]]. rewrite <- EQ. unfold _zLP_PDIPEqLU. rewrite A1, Nat.eqb_refl. reflexivity.
Qed.

(** ** the step length: for every positive x, every direction and tolerance, the components that decrease faster than the
    tolerance stay at or above zero, and one of them reaches it *)
Theorem C106_step p t (x dx : fvec R) : 0 <= t -> vlen x = p -> vlen dx = p -> positive p (vel x) ->
  exists m, _zLP_PDIP_PCStep t x dx = Ok m /\ 0 <= m /\ (forall k, (k < p)%nat -> vel dx k < - t -> 0 <= vel x k + m * vel dx k) /\
    ((exists k, (k < p)%nat /\ vel dx k < - t) -> 0 < m /\ exists k, (k < p)%nat /\ vel dx k < - t /\ vel x k + m * vel dx k = 0).
Proof. intros Ht X D P. destruct (step_ok p t x dx Ht X D P) as (m & E & M & S & _ & U). exists m. auto. Qed.
Lemma st_step x dx : st (fun t => _zLP_PDIP_PCStep t x dx).
Proof.
  unfold _zLP_PDIP_PCStep. apply st_bind; [|intros [[? ?]|?]; stab]. apply st_forb. intros i [mx mn]. unfold step_scan. apply st_bind; [apply st_const|]. intros dd. apply st_bind; [apply st_const|]. intros xi.
    apply st_if.
    - assert (ST2 : st (fun t => slt xi (sopp t))). { unfold st. rs. destruct (Rlt_le_dec xi 0). - exists (- xi / 2). split; [lra|]. intros t Ht. rs. destruct (Rltb_spec xi (- t)), (Rltb_spec xi (- 0)); auto; lra. - exists 1. split; [lra|]. intros t Ht. rs. destruct (Rltb_spec xi (- t)), (Rltb_spec xi (- 0)); auto; lra. }
      apply (st_if (fun t => is_tol t dd) (fun t => slt xi (sopp t)) (fun _ => false)); [apply st_is_tol|exact ST2|apply st_const].
    - apply st_const.
    - cbv zeta. apply (st_map (fun u => Ok (inl u))). apply st_if; [|apply st_const|apply st_if; [|apply st_const|apply st_const]].
      + unfold st. rs. destruct (Rlt_le_dec dd 0). * exists (- dd / 2). split; [lra|]. intros t Ht. rs. destruct (Rltb_spec dd (- t)), (Rltb_spec dd (- 0)); auto; lra. * exists 1. split; [lra|]. intros t Ht. rs. destruct (Rltb_spec dd (- t)), (Rltb_spec dd (- 0)); auto; lra.
      + unfold st. rs. destruct (Rlt_le_dec 0 dd). * exists (dd / 2). split; [lra|]. intros t Ht. rs. destruct (Rltb_spec t dd), (Rltb_spec 0 dd); auto; lra. * exists 1. split; [lra|]. intros t Ht. rs. destruct (Rltb_spec t dd), (Rltb_spec 0 dd); auto; lra.
Qed.
(** so it is the longest step that keeps x in the orthant, if a component decreases and the tolerance is below those that do *)
Theorem C106_longest p (x dx : fvec R) : vlen x = p -> vlen dx = p -> positive p (vel x) -> (exists k, (k < p)%nat /\ vel dx k < 0) ->
  exists d m, 0 < d /\ longest p (vel x) (vel dx) m /\ forall t, 0 < t <= d -> _zLP_PDIP_PCStep t x dx = Ok m.
Proof.
  intros X D P EX. pose proof (st_step x dx) as S.
  destruct S as (d & Hd & S). destruct (step_ok p 0 x dx) as (m & E & M & S1 & _ & S2); auto; try lra. exists d, m. split; auto. split; [|intros t Ht; rewrite S; auto].
  rewrite Ropp_0 in *. destruct (S2 EX) as (MP & k & Hk & Dk & Z). split.
  - intros j Hj. destruct (Rlt_le_dec (vel dx j) 0); [auto|]. specialize (P j Hj). nra.
  - intros m' Hm. exists k. split; auto. nra.
Qed.
(** ... but when no component decreases, so that every step is possible, the length is 0 *)
Theorem C106_unblocked_refuted p t (x dx : fvec R) : 0 <= t -> vlen x = p -> vlen dx = p -> positive p (vel x) -> (forall k, (k < p)%nat -> 0 <= vel dx k) ->
  _zLP_PDIP_PCStep t x dx = Ok 0 /\ forall m, 0 <= m -> forall k, (k < p)%nat -> 0 <= vel x k + m * vel dx k.
Proof.
  intros Ht X D P N. destruct (step_ok p t x dx Ht X D P) as (m & E & M & S & U & _). split.
  - rewrite E, U; auto. intros k Hk. specialize (N k Hk). lra.
  - intros m' Hm k Hk. specialize (P k Hk). specialize (N k Hk). nra.
Qed.

(** ** the whole run *)
Lemma rsum_abs_le n f : Rabs (rsum n f) <= rsum n (fun i => Rabs (f i)).
Proof. induction n as [|n IH]; cbn [rsum]; [rewrite Rabs_R0; lra|]. eapply Rle_trans; [apply Rabs_triang|]. lra. Qed.
(** how far from the optimum an interior point is whose errors are within the tolerance *)
Lemma subopt n p A b c x y z w tol : 0 <= tol -> (forall i, (i < n)%nat -> Rabs (primal p A b x i) <= tol) -> (forall k, (k < p)%nat -> Rabs (dual n A c y z k) <= tol) -> Rabs (dot p x z) <= tol ->
  positive p z -> std_feasible n p A b w -> dot p c x <= dot p c w + tol * (1 + rsum n (fun i => Rabs (y i)) + rsum p (fun k => Rabs (x k - w k))).
Proof.
  intros Ht H1 H2 H3 PZ (W & F).
  assert (E : dot p c x - dot p c w = rsum n (fun i => y i * primal p A b x i) + dot p x z - dot p z w - rsum p (fun k => dual n A c y z k * (x k - w k))).
  { unfold dot, primal, dual, mulv.
    rewrite (rsum_ext n _ (fun i => rsum p (fun k => y i * A i k * (x k - w k)))).
    - rewrite rsum_swap. rewrite <- !rsum_sub, <- rsum_add, <- !rsum_sub. apply rsum_ext. intros k Hk. rewrite (rsum_ext n _ (fun i => A i k * y i * (x k - w k))) by (intros; ring). rewrite rsum_scal_r. ring.
    - intros i Hi. rewrite <- (F i Hi). unfold mulv. rewrite <- rsum_sub, <- rsum_scal. apply rsum_ext. intros. ring. }
  assert (0 <= dot p z w). { apply rsum_nonneg. intros k Hk. specialize (PZ k Hk). specialize (W k Hk). nra. }
  assert (I1 : rsum n (fun i => y i * primal p A b x i) <= tol * rsum n (fun i => Rabs (y i))).
  { eapply Rle_trans; [apply Rle_abs|]. eapply Rle_trans; [apply rsum_abs_le|]. rewrite <- rsum_scal. apply rsum_le. intros i Hi. rewrite Rabs_mult. specialize (H1 i Hi). pose proof (Rabs_pos (y i)). nra. }
  assert (I2 : - rsum p (fun k => dual n A c y z k * (x k - w k)) <= tol * rsum p (fun k => Rabs (x k - w k))).
  { eapply Rle_trans; [apply Rle_abs|]. rewrite Rabs_Ropp. eapply Rle_trans; [apply rsum_abs_le|]. rewrite <- rsum_scal. apply rsum_le. intros i Hi. rewrite Rabs_mult. specialize (H2 i Hi). pose proof (Rabs_pos (x i - w i)). nra. }
  pose proof (Rle_abs (dot p x z)). lra.
Qed.

Lemma st_lq m l q : st (fun t => zMatDecompLQ t m l q).
Proof.
  unfold zMatDecompLQ, zMatDecompLQ_GramSchmidt_DST. apply st_bind; [|intros [[[? ?] ?] ?]; apply st_const]. destruct (negb _); [apply st_const|].
  apply st_for. intros i [[[m1 l1] q1] rank]. apply st_bind; [apply st_const|]. intros [m2 l2]. cbv zeta. stab.
Qed.
Lemma st_gauss_ nv na m b idx : st (fun t => gauss t nv na m b idx).
Proof. unfold gauss. destruct (_ && _)%bool; [apply st_gaussDST|apply st_const]. Qed.
Lemma st_normmin nv idx a b w ans : st (fun t => zLESolveNormMinDST t nv idx a b w ans).
Proof. unfold zLESolveNormMinDST. apply st_bind; [apply st_const|]. intros m. apply st_bind; [apply st_gauss_|]. intros o. apply st_const. Qed.
Lemma st_errmin nv idx a b w ans : st (fun t => zLESolveErrorMinDST t nv idx a b w ans).
Proof. unfold zLESolveErrorMinDST. do 3 (apply st_bind; [apply st_const|]; intros ?). apply st_gauss_. Qed.
(** zLESolveMP, and so every answer of C91, is the same for all small tolerances *)
Lemma st_mp idx2 a b wn we ans : st (fun t => zLESolveMP_LQ t t idx2 a b wn we ans).
Proof.
  unfold zLESolveMP_LQ. apply st_bind; [apply st_lq|]. intros [[l q] rank]. destruct (0 <? rank)%nat; [|apply st_const]. unfold zLESolveMP_LQ_DST. apply st_bind.
  - unfold _zLESolveMP_L. destruct (issqr _); [apply st_const|]. apply st_bind; [apply st_errmin|]. intros o. apply st_const.
  - intros v. destruct (issqr _); [apply st_const|]. unfold mp_norm_min. apply st_bind; [apply st_normmin|]. intros o. apply st_const.
Qed.
Lemma st_eqlu a x z lu v1 v2 v3 dy : st (fun t => _zLP_PDIPEqLU t a x z lu v1 v2 v3 dy).
Proof.
  unfold _zLP_PDIPEqLU. destruct lu as [[[l u] idx] rank]. do 6 (apply st_bind; [apply st_const|]; intros ?). cbv zeta. apply st_bind.
  - destruct (rank =? nr a)%nat; [apply st_const|]. unfold _zLESolveLUDeg. destruct (rank =? 0)%nat; [apply st_const|]. apply st_bind.
    + unfold zLESolveErrorMin. destruct (_ || _)%bool; [apply st_const|]. apply st_errmin.
    + intros o. apply st_bind; [|intros; apply st_const]. unfold zLESolveNormMin. destruct (_ || _)%bool; [apply st_const|]. apply st_normmin.
  - intros y. apply st_const.
Qed.
Lemma st_decomp a x z : st (fun t => _zLP_PDIPEqLUDecomp t a x z).
Proof. unfold _zLP_PDIPEqLUDecomp. do 2 (apply st_bind; [apply st_const|]; intros ?). apply st_lu. Qed.
Lemma st_directions ztol a v1 v2 v3 x z dy dy2 e : st (fun t => directions ztol t t a v1 v2 v3 x z dy dy2 e).
Proof.
  unfold directions. apply st_bind; [apply st_decomp|]. intros [lu|]; [|apply st_const]. apply st_bind; [apply st_eqlu|]. intros [[dx dy'] dz]. apply st_bind; [apply st_step|]. intros ap.
  apply st_bind; [apply st_step|]. intros ad. destruct (_ && _)%bool; [apply st_const|]. apply st_bind; [apply st_const|]. intros v. apply st_bind; [apply st_eqlu|]. intros [[? ?] ?]. apply st_const.
Qed.
Lemma st_pdip_loop ztol k : forall a b c x y z dy dy2 l, st (fun t => pdip_loop ztol t t k a b c x y z dy dy2 l).
Proof.
  induction k as [|k IH]; intros; cbn [pdip_loop]; [apply st_const|]. apply st_bind; [apply st_const|]. intros [[[v1 v2] v3] e]. destruct (_ && _)%bool; [apply st_const|].
  apply st_bind; [apply st_directions|]. intros [[[[[dx dy'] dz] dy2'] v]|]; [|apply st_const].
  apply st_bind. { unfold step_len. apply st_bind; [apply st_step|]. intros ?. apply st_const. } intros ap. apply st_bind. { unfold step_len. apply st_bind; [apply st_step|]. intros ?. apply st_const. } intros ad.
  destruct (_ && _)%bool; [apply st_const|]. do 3 (apply st_bind; [apply st_const|]; intros ?). apply IH.
Qed.
Lemma st_pdip ztol idx2 a b c x : st (fun t => zLPSolvePDIP_PC ztol t t t idx2 a b c x).
Proof.
  unfold zLPSolvePDIP_PC. apply st_bind.
  - unfold _zLP_PDIPInit. apply st_bind; [apply st_mp|]. intros v. apply st_const.
  - intros [[x' y'] z']. apply st_bind; [apply st_pdip_loop|]. intros o. apply st_const.
Qed.
Lemma find_nonzero n (f : nat -> R) : (exists i, (i < n)%nat /\ f i <> 0) \/ forall i, (i < n)%nat -> f i = 0.
Proof.
  induction n as [|n [(i & Hi & N)|Z]]; [right; intros; lia|left; exists i; split; auto|]. destruct (Req_EM_T (f n) 0) as [E|E]; [|left; exists n; auto].
  right. intros i Hi. assert (i = n \/ (i < n)%nat) as [->|H] by lia; auto.
Qed.
Lemma find_nonzero2 n p A : nonzero n p A \/ forall i k, (i < n)%nat -> (k < p)%nat -> A i k = 0.
Proof.
  induction n as [|n [(i & k & Hi & Hk & N)|Z]]; [right; intros; lia|left; exists i, k; auto|]. destruct (find_nonzero p (A n)) as [(k & Hk & N)|E]; [left; exists n, k; auto|].
  right. intros i k Hi Hk. assert (i = n \/ (i < n)%nat) as [->|H] by lia; auto.
Qed.
(** for every matrix with independent rows, every b and c, and every zTOL, as long as the tolerance of the linear solvers
    and of the test of the signs in the search for the step is small enough: x and z stay positive; x starts from the
    solution of A x = b of least norm raised by some s, so that A x - b is s A 1 at first and is reduced by each step; so
    is A^T y + z - c, which is some s' at first; the cost is that of the answer; and when the test of convergence is met
    the answer is feasible within the tolerance and its cost exceeds that of any feasible point by no more than the
    tolerance allows. *)
Theorem C106_run_partial n p (a : fmat R) (b c x : fvec R) idx2 ztol : (0 < n)%nat -> (0 < p)%nat -> nr a = n -> nc a = p -> vlen b = n -> vlen c = p -> vlen x = p ->
  (forall r, perm r (idx2 r)) -> rows_indep n p (el a) -> 0 < ztol ->
  exists d s s', 0 < d /\ 0 <= s /\ 0 <= s' /\ forall t, 0 < t <= d ->
  exists ans cost o, zLPSolvePDIP_PC ztol t t t idx2 a b c x = Ok (true, ans, cost, o) /\
    vlen ans = p /\ nonneg p (vel ans) /\ cost = dot p (vel ans) (vel c) /\ positive p (vel (px o)) /\ positive p (vel (pz o)) /\
    (forall l, In l (psteps o) -> 0 <= fst l <= 1 /\ 0 <= snd l <= 1) /\
    (forall i, (i < n)%nat -> primal p (el a) (vel b) (vel (px o)) i = left_of (map fst (psteps o)) * (s * mulv p (el a) (fun _ => 1) i)) /\
    (forall k, (k < p)%nat -> dual n (el a) (vel c) (vel (py o)) (vel (pz o)) k = left_of (map snd (psteps o)) * s') /\
    (forall k, (k < p)%nat -> Rabs (vel ans k - vel (px o) k) <= ztol) /\
    (pend o = Converged ->
      (forall i, (i < n)%nat -> Rabs (primal p (el a) (vel b) (vel ans) i) <= ztol * (1 + rsum p (fun k => Rabs (el a i k)))) /\
      (forall w, std_feasible n p (el a) (vel b) w ->
         cost <= dot p (vel c) w + ztol * (1 + rsum p (fun k => Rabs (vel c k)) + rsum n (fun i => Rabs (vel (py o) i)) + rsum p (fun k => Rabs (vel (px o) k - w k))))).
Proof.
  intros Hn Hp A1 A2 B C X PI RI Ht. destruct (st_pdip ztol idx2 a b c x) as (d & Hd & ST).
  assert (NZ : nonzero n p (el a)).
  { destruct (find_nonzero2 n p (el a)) as [N|N]; auto. exfalso. assert (H : 1 = 0) by (apply (RI (fun _ => 1)) with (i := O); auto; intros k Hk; apply rsum_0; intros i Hi; rewrite N by auto; ring). lra. }
  destruct (C91_mp_partial n p a b None None x idx2) as (xm & EM & XM & (LE & _)); auto; try exact Logic.I; try (intros; cbn; lra).
  assert (EX : forall i, (i < n)%nat -> mv p (el a) (vel xm) i = vel b i).
  { destruct (normmin_ok n p a Hn Hp A1 A2 b None (zvec p) (List.seq 0 n)) as (o & _ & HO); auto; try exact Logic.I; [intros k Hk; cbn; lra|apply perm_seq|]. destruct o as [w|]; [|contradiction].
    destruct HO as (_ & _ & (SW & _)). specialize (LE (vel w)). cbn [wt] in LE. rewrite (rsum_0 n (fun i => 1 * (mv p (el a) (vel w) i - vel b i) ^ 2)) in LE by (intros i Hi; rewrite SW by auto; ring).
    assert (Q : rsum n (fun i => 1 * (mv p (el a) (vel xm) i - vel b i) ^ 2) = 0). { apply Rle_antisym; auto. apply rsum_nonneg. intros i Hi. pose proof (pow2_ge_0 (mv p (el a) (vel xm) i - vel b i)). lra. }
    assert (QP : forall i, (i < n)%nat -> 0 <= 1 * (mv p (el a) (vel xm) i - vel b i) ^ 2) by (intros i Hi; pose proof (pow2_ge_0 (mv p (el a) (vel xm) i - vel b i)); lra).
    intros i Hi. pose proof (rsum_nonneg_0 n _ QP Q i Hi) as Z. cbn beta in Z. rewrite Rmult_1_l in Z. apply sq0 in Z. lra. }
  set (y0 := FV n (fun _ : nat => 1)).
  destruct (mulmtv_R a y0 (vzero p)) as (zt & EZ & Z1 & Z2); cbn [vlen vzero y0] in *; auto. rewrite A1 in Z2.
  assert (EI : exists x0 z0 s s', _zLP_PDIPInit ztol 0 0 idx2 a b c x = Ok (x0, y0, z0) /\ vlen x0 = p /\ vlen z0 = p /\ positive p (vel x0) /\ positive p (vel z0) /\ 0 <= s /\ 0 <= s' /\
     (forall i, (i < n)%nat -> primal p (el a) (vel b) (vel x0) i = s * mulv p (el a) (fun _ => 1) i) /\ (forall k, (k < p)%nat -> dual n (el a) (vel c) (vel y0) (vel z0) k = s')).
  { unfold _zLP_PDIPInit. rs. rewrite EM. cbn [bind]. rewrite B, C. fold y0. rewrite EZ. cbn [bind]. unfold zVecSubNC. rewrite vop2_ok by (cbn; congruence). cbn [bind].
    destruct (store_ok xm) as (SX1 & SX2). match goal with |- context [store (FV ?v ?f)] => destruct (store_ok (FV v f)) as (SZ1 & SZ2); set (zs := store (FV v f)) in *; clearbody zs end.
    set (xs := store xm) in *. clearbody xs. cbn [vlen vel] in *.
    destruct (lift_pos ztol xs Ht) as (x1 & s & -> & L1 & P1 & S1 & F1); [lia|]. destruct (lift_pos ztol zs Ht) as (z1 & s' & -> & L2 & P2 & S2 & F2); [lia|]. cbn [bind].
    destruct (store_ok x1) as (SX3 & SX4). destruct (store_ok z1) as (SZ3 & SZ4). exists (store x1), (store z1), s, s'. split; [reflexivity|].
    set (x2 := store x1) in *. set (z2 := store z1) in *. clearbody x2 z2. conjs; auto; try congruence.
    - intros k Hk. rewrite SX4 by lia. apply P1. lia.
    - intros k Hk. rewrite SZ4 by lia. apply P2. lia.
    - intros i Hi. unfold primal, mulv. rewrite (rsum_ext p _ (fun k => el a i k * vel xm k + s * (el a i k * 1))) by (intros k Hk; rewrite SX4, F1, SX2 by lia; ring). rewrite rsum_add, rsum_scal. specialize (EX i Hi). unfold mv in EX. rewrite EX. ring.
    - intros k Hk. unfold dual. rewrite SZ4, F2, SZ2 by lia. rs. rewrite Z2 by lia. ring. }
  destruct EI as (x0 & z0 & s & s' & EI & X0 & Z0 & PX & PZ & S1 & S2 & R1 & R2).
  exists d, s, s'. split; auto. split; auto. split; auto. intros t HT. rewrite ST by auto. unfold zLPSolvePDIP_PC. rs. rewrite EI. cbn [bind].
  destruct (loop_ok n p a b c ztol (vel x0) (vel y0) (vel z0) Hn Hp A1 A2 B C RI (ziter 0) x0 y0 z0 (vzero (vlen b)) (vzero (vlen b)) []) as (o & EO & (IX & IY & IZ & OP & OZ & OR & OD & OS) & CV); auto.
  { unfold pinv. conjs; auto; cbn [map left_of]; intros; try ring. destruct H. }
  rs. rewrite EO. cbn [bind]. set (ans := zVecTouchup ztol (px o)).
  assert (TU : touched ztol p (vel (px o)) (vel ans)). { intros k Hk. unfold ans, zVecTouchup. cbn [vel]. rewrite is_tol_R. rs. destruct (Rleb_spec (Rabs (vel (px o) k)) ztol), (Rle_dec (Rabs (vel (px o) k)) ztol); auto; lra. }
  assert (LA : vlen ans = p) by (unfold ans; cbn; congruence).
  exists ans, (zVecInnerProd ans c), o. split; [reflexivity|]. rewrite inner_R by congruence. rewrite LA. split; auto. split.
  { intros k Hk. rewrite TU by auto. destruct (Rle_dec _ _); [lra|]. specialize (OP k Hk). lra. }
  split; auto. split; auto. split; auto. split; auto. split. { intros i Hi. rewrite OR, R1 by auto. reflexivity. } split. { intros k Hk. rewrite OD, R2 by auto. reflexivity. }
  split. { intros k Hk. apply (touched_near ztol p); auto; lra. }
  intros CE. destruct (CV CE) as (C1 & C2 & C3). split.
  - intros i Hi. specialize (C1 i Hi). pose proof (touched_sum ztol p _ _ (el a i) (Rlt_le _ _ Ht) TU) as TS. unfold primal, mulv in *.
    replace (rsum p (fun j => el a i j * vel ans j) - vel b i) with ((rsum p (fun j => el a i j * vel (px o) j) - vel b i) + (rsum p (fun j => el a i j * vel ans j) - rsum p (fun j => el a i j * vel (px o) j))) by ring.
    eapply Rle_trans; [apply Rabs_triang|]. lra.
  - intros w FW. pose proof (subopt n p (el a) (vel b) (vel c) (vel (px o)) (vel (py o)) (vel (pz o)) w ztol (Rlt_le _ _ Ht) C1 C2 C3 OZ FW) as SB.
    pose proof (touched_sum ztol p _ _ (vel c) (Rlt_le _ _ Ht) TU) as TS. rewrite dot_sym. unfold dot in *. pose proof (Rle_abs (rsum p (fun j => vel c j * vel ans j) - rsum p (fun j => vel c j * vel (px o) j))). lra.
Qed.

(** the hypotheses are met: x1 + 2 x2 + x3 = 4, 3 x1 + x2 + x4 = 6 *)
Example C106_rows : rows_indep 2 4 (el (mat_of 0 [[1; 2; 1; 0]; [3; 1; 0; 1]])).
Proof. intros y H i Hi. pose proof (H 2%nat ltac:(lia)) as H2. pose proof (H 3%nat ltac:(lia)) as H3. cbn in H2, H3. destruct i as [|[|i]]; [lra|lra|lia]. Qed.

(** ** binary64 *)
Section Witness.
  Local Open Scope float_scope.
  Definition lp_run (a : list (list float)) (b c : list float) :=
    let t := 0x1.19799812dea11p-40 in
    match zLPSolvePDIP_PC t t t t (fun n => List.seq 0 n) (mat_of 0 a) (vec_of 0 b) (vec_of 0 c) (zvec (length c)) with
    | Ok (r, x, cost, o) => Some (r, to_list x, cost, pend o, length (psteps o))
    | UB => None
    end.
  Definition nearf (x y : float) : bool := abs (x - y) <? 0x1p-30.
  (** min - x1 - x2: the optimum is (8/5, 6/5, 0, 0) *)
  Example C106_case : exists x1 x2 x3 x4 cost, lp_run [[1; 2; 1; 0]; [3; 1; 0; 1]] [4; 6] [-(1); -(1); 0; 0] = Some (true, [x1; x2; x3; x4], cost, Stalled, 6%nat) /\
    (nearf x1 1.6 && nearf x2 1.2 && nearf x3 0 && nearf x4 0 && nearf cost (-(2.8)) = true)%bool.
  Proof. do 5 eexists. split; vm_compute; reflexivity. Qed.
  (** the test of convergence is met for x1 + x2 = 0, x1 + x3 = 1 *)
  Example C106_converges : exists x3 cost, lp_run [[1; 1; 0]; [1; 0; 1]] [0; 1] [1; 2; 3] = Some (true, [0; 0; x3], cost, Converged, 7%nat) /\ (nearf x3 1 && nearf cost 3 = true)%bool.
  Proof. do 2 eexists. split; vm_compute; reflexivity. Qed.
  (** min - x1 subject to x1 = x2 has no minimum: the answer is true, 0 and the cost 0 *)
  Theorem C106_unbounded_refuted : lp_run [[1; -(1)]] [0] [-(1); 0] = Some (true, [0; 0], 0, Stalled, 7%nat) /\
    forall m, exists x, std_feasible 1 2 (fun _ k => if (k =? 0)%nat then 1%R else (-1)%R) (fun _ => 0%R) x /\ (dot 2 (fun k => if (k =? 0)%nat then (-1)%R else 0%R) x < m)%R.
  Proof.
    split; [vm_compute; reflexivity|]. intros m. exists (fun _ => Rabs m + 1)%R. pose proof (Rabs_pos m). pose proof (Rle_abs (- m)). rewrite Rabs_Ropp in *.
    split; [split|]; unfold nonneg, mulv, dot; intros; cbn; lra.
  Qed.
  (** x1 + x2 = -1 has no solution that is not negative: the answer is true *)
  Theorem C106_infeasible_refuted : lp_run [[1; 1]] [-(1)] [1; 1] = Some (true, [0; 0], 0, Stalled, 1%nat) /\
    ~ exists x, std_feasible 1 2 (fun _ _ => 1%R) (fun _ => (-1)%R) x.
  Proof.
    split; [vm_compute; reflexivity|]. intros (x & N & F). specialize (F 0%nat ltac:(lia)). unfold mulv in F. cbn in F. pose proof (N 0%nat ltac:(lia)). pose proof (N 1%nat ltac:(lia)). lra.
  Qed.
  (** x1 + x2 + x3 = 1 written twice (the second time doubled), min x1 + 2 x2 + 3 x3: the answer is true and about
      (1/100, 0, 0), which is not feasible; the solution is (1, 0, 0) *)
  Theorem C106_redundant_refuted : (exists x1 cost, lp_run [[1; 1; 1]; [2; 2; 2]] [1; 2] [1; 2; 3] = Some (true, [x1; 0; 0], cost, Stalled, 9%nat) /\ ((0 <? x1) && (x1 <? 0.011) = true)%bool) /\
    std_feasible 2 3 (fun i _ => if (i =? 0)%nat then 1%R else 2%R) (fun i => if (i =? 0)%nat then 1%R else 2%R) (fun k => if (k =? 0)%nat then 1%R else 0%R).
  Proof.
    split; [do 2 eexists; split; vm_compute; reflexivity|]. split.
    - intros k Hk. destruct (k =? 0)%nat; lra.
    - intros i Hi. unfold mulv. destruct i as [|[|i]]; cbn; lra || lia.
  Qed.
End Witness.
Print Assumptions C106_direction.
Print Assumptions C106_step.
Print Assumptions C106_longest.
Print Assumptions C106_unblocked_refuted.
Print Assumptions C106_run_partial.
Print Assumptions C106_unbounded_refuted.
Print Assumptions C106_infeasible_refuted.
Print Assumptions C106_redundant_refuted.
