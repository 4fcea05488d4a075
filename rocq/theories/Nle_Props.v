(** C80: simultaneous equations. *)
From Coq Require Import Reals Lra Lia Psatz QArith.
From Verif Require Import Prelude Prelude_Proofs Scalar RealLib Fmat Fmat_Proofs LE_Model LE_Spec LE_Props IP_Model Vop Root_Model Root_Proofs Qp_Spec Qp_Proofs Qp2_Proofs Nle_Model Nle_Proofs.
Local Open Scope R_scope.

(** Success is reported only where all the equations are met within the tolerance; the evaluation answered is
    half the weighted sum of squares there.  For whatever Jacobian and directions. *)
Theorem C80_sound (f : fvec R -> fvec R) ztol nan we jac dir ne var tol iter k e v : (forall x, vlen x = vlen var -> vlen (f x) = ne) -> vlen we = ne ->
  zNLESolveNR ztol nan f we jac dir ne var tol iter = Ok (Some (k, e), v) \/ zNLESolveBroyden ztol nan f we jac ne var tol iter = Ok (Some (k, e), v) ->
  vlen v = vlen var /\ (forall i, (i < ne)%nat -> Rabs (vel (f v) i) <= tol) /\ (k < ziter iter)%nat /\
  e = rsum ne (fun i => vel we i * (vel (f v) i) ^ 2) / 2.
Proof.
  intros Lf Lw H.
  assert (S : zVecIsTol tol (f v) = true /\ e = zNLEEval f we v /\ (0 <= k < 0 + ziter iter)%nat /\ vlen v = vlen var).
  { destruct H as [H|H]; [exact (nr_sound _ _ _ _ _ _ _ _ _ _ _ _ _ _ H)|].
    unfold zNLESolveBroyden in H. destruct (zVecIsTol tol (f var)) eqn:E.
    - inversion H; subst. destruct (ziter_pos iter) as [n ->]. repeat split; auto; lia.
    - destruct (jac var _) as [j|]; cbn [bind] in H; [|discriminate]. exact (broyden_sound _ _ _ _ _ _ _ _ _ _ _ _ _ _ _ H). }
  destruct S as (A & -> & K & L). split; [auto|]. split; [|split; [lia|]].
  - intros i Hi. apply (istol_R _ _ A). rewrite (Lf v L). exact Hi.
  - unfold zNLEEval. rewrite inner_R by (cbn [vlen]; rewrite Lw; apply Lf; auto). rewrite (Lf v L). cbn [vel smul sdiv sofZ RealS].
    unfold dot, Rdiv. rewrite Rmult_comm. rewrite <- (Rmult_1_l (/ 2)) at 2. f_equal. apply rsum_ext. intros; ring.
Qed.
(** Affine equations A x + b = 0 with a regular A are solved by Broyden's method in the first iteration. *)
Theorem C80_broyden_affine (A : fmat R) (b : nat -> R) n var tol iter we : (0 < n)%nat -> nr A = n -> nc A = n -> vlen var = n -> nonsingular n (el A) -> 0 <= tol ->
  let f := fun x : fvec R => FV n (fun i => mulv n (el A) (vel x) i + b i) in
  exists e v, zNLESolveBroyden 0 (fun _ => false) f we (fun _ _ => Ok A) n var tol iter = Ok (Some (0%nat, e), v) /\ vlen v = n /\
    (forall i, (i < n)%nat -> Rabs (mulv n (el A) (vel v) i + b i) <= tol).
Proof.
  intros Hn HA1 HA2 Lv NS Ht f. unfold zNLESolveBroyden. cbv zeta. destruct (zVecIsTol tol (f var)) eqn:E0.
  { eexists _, var. split; [reflexivity|]. split; [auto|]. intros i Hi. apply (istol_R _ _ E0 i Hi). }
  cbn [bind]. destruct (ziter_pos iter) as [m ->]. cbn [broyden_loop].
  destruct (C23_gauss_exact n A (f var) (vzero (vlen var))) as (o & -> & Ho); auto. cbn [bind]. destruct o as [d|]; [|contradiction].
  destruct Ho as (Ld & Sd & _). cbn [bind]. unfold zNLEStep. assert (SF : exists k, step_fuel = S k) by (exists (pred step_fuel); vm_compute; reflexivity). destruct SF as [k ->]. cbn [step_loop]. cbn [slt RealS s1]. rewrite (Rltb_true 0 1) by lra.
  unfold zVecCatNC, vop2. rewrite Lv, Ld, Nat.leb_refl. cbn [andb bind]. set (x := FV n _).
  assert (NN : zVecIsNan (fun _ : R => false) (f x) = false) by (unfold zVecIsNan; induction (List.seq _ _); cbn; auto). rewrite NN. cbn [bind].
  assert (FX : forall i, (i < n)%nat -> vel (f x) i = 0).
  { intros i Hi. cbn [f vel]. rewrite (mulv_ext n (el A) (vel x) (fun k => vel var k + (-1) * vel d k)) by (intros; unfold x; cbn [vel sadd smul sopp RealS]; ring).
    rewrite mulv_lin. pose proof (Sd i Hi) as H. unfold LE_Spec.mv in H. cbn [f vel] in H. change (mulv n (el A) (vel d) i = mulv n (el A) (vel var) i + b i) in H. lra. }
  assert (ET : zVecIsTol tol (f x) = true).
  { destruct (zVecIsTol tol (f x)) eqn:E; auto. destruct (istol_R_f _ _ E) as (i & I1 & I2). cbn [vlen f] in I1. rewrite FX, Rabs_R0 in I2 by auto. lra. }
  rewrite ET. eexists _, x. split; [reflexivity|]. split; [reflexivity|]. intros i Hi. apply (istol_R _ _ ET i Hi).
Qed.
(** Broyden's rule: with J d = f(x) and the step x' = x - d, the new matrix maps x' - x to f(x') - f(x), and acts
    as before on everything orthogonal to the step. *)
Theorem C80_broyden_update (j : fmat R) (f0 f1 d : fvec R) n : nr j = n -> nc j = n -> vlen f0 = n -> vlen f1 = n -> vlen d = n ->
  (exists i, (i < n)%nat /\ vel d i <> 0) -> (forall i, (i < n)%nat -> mulv n (el j) (vel d) i = vel f0 i) ->
  exists j', broyden_update j f1 d = Ok j' /\ nr j' = n /\ nc j' = n /\
    (forall i, (i < n)%nat -> mulv n (el j') (fun k => - vel d k) i = vel f1 i - vel f0 i) /\
    (forall v, dot n (vel d) v = 0 -> forall i, (i < n)%nat -> mulv n (el j') v i = mulv n (el j) v i).
Proof.
  intros H1 H2 H3 H4 H5 D0 J. destruct (update_ok j f1 d n) as (j' & E & R1 & C1 & V); auto. exists j'. repeat split; auto.
  - intros i Hi. rewrite V by auto. pose proof (dot_pos n (vel d) D0) as P.
    assert (M : mulv n (el j) (fun k => - vel d k) i = - vel f0 i).
    { rewrite <- J by auto. unfold mulv. rewrite <- rsum_opp. apply rsum_ext. intros; ring. }
    assert (Q : dot n (vel d) (fun k => - vel d k) = - dot n (vel d) (vel d)) by (unfold dot; rewrite <- rsum_opp; apply rsum_ext; intros; ring).
    rewrite M, Q. field. lra.
  - intros v Hv i Hi. rewrite V by auto. rewrite Hv. unfold Rdiv. ring.
Qed.
(** The numerical Jacobian of n equations in n variables: row i holds the central differences with respect to
    variable i, so what is stored is the transpose of the Jacobian.  The variables are restored. *)
Theorem C80_jacobian_partial (f : fvec R -> fvec R) eps n var buf : (forall x, vlen x = n -> vlen (f x) = n) ->
  (forall x y, vlen x = n -> vlen y = n -> (forall i, (i < n)%nat -> vel x i = vel y i) -> forall k, (k < n)%nat -> vel (f x) k = vel (f y) k) ->
  vlen var = n -> vlen buf = (n * n)%nat -> eps <> 0 ->
  exists var' buf', zNLEJacobiNG f eps n n var buf = Ok (var', buf') /\ vlen var' = n /\ (forall i, (i < n)%nat -> vel var' i = vel var i) /\
    forall i k, (i < n)%nat -> (k < n)%nat -> buf_el n buf' i k =
      (vel (f (FV n (bump (vel var) i eps))) k - vel (f (FV n (bump (vel var) i (- eps)))) k) / (2 * eps).
Proof.
  intros Lf Ef Lv Lb He. destruct (jac_ng_ok f eps n Lf Ef var buf Lv Lb) as (v & b & E & L1 & L2 & S & D). exists v, b. repeat split; auto.
  intros i k Hi Hk. rewrite D by auto. field. auto.
Qed.
(** hence wrong for the equations (x + y, y), *)
Theorem C80_jacobian_refuted :
  let f := fun x : fvec Q => FV 2 (fun k => if (k =? 0)%nat then vel x 0 + vel x 1 else vel x 1)%Q in
  match zNLEJacobiNG f (1 # 100)%Q 2 2 (vec_of 0%Q [0; 0]%Q) (vec_of 0%Q [0; 0; 0; 0]%Q) with
  | Ok (_, b) => (buf_el 2 b 0 1 == 0)%Q /\ (buf_el 2 b 1 0 == 1)%Q
  | UB => False end.
Proof. vm_compute. auto. Qed.
(** and outside of the matrix for more variables than equations. *)
Theorem C80_jacobian_overflow_refuted {T} {ST : Scalar T} (f : fvec T -> fvec T) eps var buf :
  (forall x, vlen (f x) = 1%nat) -> vlen var = 2%nat -> vlen buf = 2%nat -> zNLEJacobiNG f eps 1 2 var buf = UB.
Proof.
  intros Lf Lv Lb. unfold zNLEJacobiNG. rewrite Lv. unfold for_. cbn [Nat.sub loop]. rewrite vget_ok by lia. cbn [bind].
  rewrite vset_ok by lia. cbn [bind]. rewrite vset_ok by (cbn [vlen]; lia). cbn [bind].
  rewrite !vget_ok by (rewrite Lf; lia). cbn [bind]. rewrite vset_ok by (cbn [vlen]; lia). cbn [bind].
  rewrite vset_ok by (cbn [vlen]; lia). cbn [bind]. rewrite vget_ok by (cbn [vlen]; lia). cbn [bind]. rewrite vset_ok by (cbn [vlen]; lia). cbn [bind]. rewrite vset_ok by (cbn [vlen]; lia). cbn [bind].
  rewrite !vget_ok by (rewrite Lf; lia). cbn [bind]. unfold vset at 1. cbn [vlen]. rewrite Lb. reflexivity.
Qed.
(** Successive substitution: the answer is an iterate; one that was left early is nearly fixed; for a contraction
    with factor K it is near to the fixed point. *)
Lemma vmax_ex m (u : nat -> R) : exists M, 0 <= M /\ (forall i, (i < m)%nat -> Rabs (u i) <= M) /\ (M = 0 \/ exists i, (i < m)%nat /\ M = Rabs (u i)).
Proof.
  induction m as [|m (M & M0 & B & E)]; [exists 0; repeat split; auto; try lra; intros; lia|].
  destruct (Rle_dec (Rabs (u m)) M) as [L|L].
  - exists M. repeat split; auto.
    + intros i Hi. destruct (Nat.eq_dec i m) as [->|]; [auto|apply B; lia].
    + destruct E as [E|(i & Hi & E)]; [auto|right; exists i; split; [lia|auto]].
  - exists (Rabs (u m)). repeat split; try lra.
    + intros i Hi. destruct (Nat.eq_dec i m) as [->|]; [lra|]. assert (Rabs (u i) <= M) by (apply B; lia). lra.
    + right. exists m. split; [lia|auto].
Qed.
Theorem C80_substitution (f : fvec R -> fvec R) ztol m x iter : (forall x, vlen x = m -> vlen (f x) = m) -> vlen x = m ->
  exists j y, zSSSolve ztol f x iter = Ok (j, y) /\ vlen y = m /\ y = Nat.iter j f x /\ (j <= ziter iter)%nat /\
    ((j < ziter iter)%nat -> forall i, (i < m)%nat -> Rabs (vel (f y) i - vel y i) <= ztol) /\
    forall K D xs, 0 <= K < 1 -> vlen xs = m -> (forall i, (i < m)%nat -> vel (f xs) i = vel xs i) -> 
      (forall u v d, vlen u = m -> vlen v = m -> (forall i, (i < m)%nat -> Rabs (vel u i - vel v i) <= d) -> forall i, (i < m)%nat -> Rabs (vel (f u) i - vel (f v) i) <= K * d) ->
      (forall i, (i < m)%nat -> Rabs (vel x i - vel xs i) <= D) ->
      (forall i, (i < m)%nat -> Rabs (vel y i - vel xs i) <= K ^ j * D) /\
      ((j < ziter iter)%nat -> 0 <= ztol -> forall i, (i < m)%nat -> Rabs (vel y i - vel xs i) <= ztol / (1 - K)).
Proof.
  intros Lf Lx. destruct (ss_ok f ztol (ziter iter) m 0 x Lf Lx) as (j & Hj & y & E & Ly & V & Tl). exists j, y.
  split; [exact E|]. split; [auto|]. split; [auto|]. split; [auto|]. split; [exact Tl|].
  intros K D xs HK Lxs Fx Li D0. split.
  - rewrite V. clear E V Tl Hj Ly y. revert x Lx D D0. induction j as [|j IH]; intros x Lx D D0 i Hi; [cbn; rewrite Rmult_1_l; auto|].
    rewrite iter_S. replace (K ^ S j * D) with (K ^ j * (K * D)) by (cbn [pow]; ring). apply IH; auto.
    intros k Hk. rewrite <- Fx by auto. apply Li; auto.
  - intros Hlt Ht. destruct (vmax_ex m (fun i => vel y i - vel xs i)) as (M & M0 & B & A). intros i Hi.
    assert (MB : M <= ztol / (1 - K)).
    { destruct A as [->|(k & Hk & EM)]; [apply Rmult_le_pos; [lra|left; apply Rinv_0_lt_compat; lra]|].
      assert (M <= ztol + K * M).
      { rewrite EM at 1. replace (vel y k - vel xs k) with ((vel y k - vel (f y) k) + (vel (f y) k - vel (f xs) k)) by (rewrite Fx by auto; ring).
        eapply Rle_trans; [apply Rabs_triang|]. apply Rplus_le_compat; [rewrite Rabs_minus_sym; apply Tl; auto|]. apply Li; auto. }
      apply Rmult_le_reg_r with (1 - K); [lra|]. replace (ztol / (1 - K) * (1 - K)) with ztol by (field; lra). lra. }
    eapply Rle_trans; [apply B; auto|exact MB].
Qed.
(** An answer that is far from fixed is not told apart: x = -x from 1. *)
Theorem C80_substitution_refuted :
  match zSSSolve (1 # 100)%Q (fun x => FV (vlen x) (fun i => - vel x i)%Q) (vec_of 0%Q [1]%Q) 4 with
  | Ok (_, y) => (vel y 0%nat == 1)%Q | UB => False end.
Proof. vm_compute. reflexivity. Qed.

(** *** the hypotheses can be met *)
Example C80_case : nonsingular 1 (fun _ _ => 2).
Proof. intros v H i Hi. specialize (H 0%nat ltac:(lia)). cbn in H. replace i with 0%nat by lia. lra. Qed.
Example C80_contraction_case : let f := fun x : fvec R => FV 1 (fun i => vel x i / 2 + 1) in let xs := FV 1 (fun _ => 2) in
  vel (f xs) 0%nat = vel xs 0%nat /\
  forall u v d, vlen u = 1%nat -> vlen v = 1%nat -> (forall i, (i < 1)%nat -> Rabs (vel u i - vel v i) <= d) -> forall i, (i < 1)%nat -> Rabs (vel (f u) i - vel (f v) i) <= / 2 * d.
Proof.
  cbn. split; [lra|]. intros u v d _ _ H i Hi. specialize (H i Hi). replace (vel u i / 2 + 1 - (vel v i / 2 + 1)) with (/ 2 * (vel u i - vel v i)) by field.
  rewrite Rabs_mult, (Rabs_pos_eq (/ 2)) by lra. lra.
Qed.
(** runs: the affine equation 2x - 4 = 0 and the quadratic one x^2 - 2 = 0 by Broyden's method, x = x/2 + 1 *)
Example C80_run :
  let go f j0 x0 n := match zNLESolveBroyden (1 # 1000000)%Q (fun _ => false) (fun x => FV 1 (fun i => f (vel x i))) (vec_of 0%Q [1]%Q) (fun _ _ => Ok (mat_of 0%Q [[j0]])) 1 (vec_of 0%Q [x0]) (1 # 1000)%Q n with
                      | Ok (Some (k, _), v) => Some (k, Qred (vel v 0%nat)) | _ => None end in
  go (fun x => Qred (2 * x - 4))%Q 2%Q 0%Q 5%Z = Some (0%nat, 2%Q) /\
  (match go (fun x => Qred (x * x - 2))%Q 3%Q (3 # 2)%Q 6%Z with Some (_, x) => Qle_bool (Qabs.Qabs (x - (1414 # 1000))) (1 # 500) = true | None => False end) /\
  match zSSSolve (1 # 100)%Q (fun x => FV (vlen x) (fun i => Qred (vel x i / 2 + 1))%Q) (vec_of 0%Q [0]%Q) 0 with
  | Ok (k, y) => k = 7%nat /\ vel y 0%nat = (127 # 64)%Q | UB => False end.
Proof. vm_compute. auto. Qed.
Print Assumptions C80_sound.
Print Assumptions C80_broyden_affine.
Print Assumptions C80_broyden_update.
Print Assumptions C80_jacobian_partial.
Print Assumptions C80_jacobian_refuted.
Print Assumptions C80_jacobian_overflow_refuted.
Print Assumptions C80_substitution.
Print Assumptions C80_substitution_refuted.
