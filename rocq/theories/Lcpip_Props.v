(** C102: the linear complementarity problem by the infeasible-interior-point method (zLCPSolveIP).  See Lcpip_Spec.v, Qp_Spec.v. *)
From Coq Require Import Reals Lra Lia List Floats.
From Verif Require Import Prelude Prelude_Proofs Scalar RealLib Fmat Fmat_Proofs Safe LE_Model LE_Spec IP_Model IP_Proofs Vop Root_Model Qp_Model Qp_Spec Qp_Proofs Asm_Model Asm_Proofs Stab_Proofs Lcpip_Model Lcpip_Spec Lcpip_Proofs Lcpip2_Proofs.
Import ListNotations.
Local Open Scope R_scope.

(** any scalar type, so also doubles: matching sizes are all that is needed for no access outside of an object; what is returned has the sizes of the problem *)
Theorem C102_safe {T} {ST : Scalar T} ztol gtol (m : fmat T) q w z : (0 < vlen q)%nat -> vlen z = vlen q ->
  exists o, zLCPSolveIP ztol gtol m q w z = Ok o /\ match o with Some l => vlen (lw l) = vlen q /\ vlen (lz l) = vlen q | None => True end.
Proof.
  intros Hn Z. unfold zLCPSolveIP. destruct (Nat.eqb_spec (nr m) (nc m)) as [E1|]; cbn [negb]; [|exists None; auto]. destruct (Nat.eqb_spec (nr m) (vlen q)) as [E2|]; cbn [negb]; [|exists None; auto].
  destruct (match w with Some w0 => _ | None => false end) eqn:EW; [exists None; auto|]. unfold zLCPIP_PCIni.
  set (w0 := match w with Some w1 => w1 | None => zvec (vlen q) end). assert (W : vlen w0 = vlen q).
  { unfold w0. destruct w as [w1|]; auto. apply Bool.orb_false_iff in EW. destruct EW as (A & _). apply Bool.negb_false_iff, Nat.eqb_eq in A. exact A. }
  edestruct (s_loop ztol gtol (vlen q) m q Hn) as (o & E & H); [split; congruence|reflexivity|..|rewrite E; cbn [bind]; exists (option_map (fun o => Lcpip (ranout o) (lw o) (zVecTouchup ztol (lz o)) (steps o)) o); split; [reflexivity|]].
  - exact W.
  - exact Z.
  - apply perm_seq.
  - destruct o as [l|]; cbn; auto.
Qed.
Theorem C102_rejects {T} {ST : Scalar T} ztol gtol (m : fmat T) q w z :
  nr m <> nc m \/ nr m <> vlen q \/ (exists v, w = Some v /\ (vlen v <> vlen q \/ vlen v <> vlen z)) -> zLCPSolveIP ztol gtol m q w z = Ok None.
Proof.
  intros H. unfold zLCPSolveIP. destruct (Nat.eqb_spec (nr m) (nc m)); cbn [negb]; auto. destruct (Nat.eqb_spec (nr m) (vlen q)); cbn [negb]; auto.
  destruct H as [H|[H|(v & -> & H)]]; try contradiction. destruct (Nat.eqb_spec (vlen v) (vlen q)); cbn [negb orb]; auto. destruct (Nat.eqb_spec (vlen v) (vlen z)); cbn [negb]; auto. tauto.
Qed.
(** ... but with the null pointer for w the size of z is not looked at *)
Theorem C102_overflow_refuted {T} {ST : Scalar T} ztol gtol (m : fmat T) q z : nr m = vlen q -> nc m = vlen q -> (vlen z < vlen q)%nat -> zLCPSolveIP ztol gtol m q None z = UB.
Proof.
  intros M1 M2 Z. unfold zLCPSolveIP. rewrite M1, M2, !Nat.eqb_refl. cbn [negb]. unfold zLCPIP_PCIni. change (ziter 0) with (S (Z.to_nat 9999)). cbn [lcpip_loop].
  unfold zLCPIP_PCErr, zMulMatVecNC. cbn [vlen]. rewrite M2. destruct (Nat.leb_spec (vlen q) (vlen z)); [lia|]. reflexivity.
Qed.

(** the point at which the method starts *)
Definition start (n : nat) (i : nat) : R := 100 / INR n.
(** z is z' with the components within the tolerance replaced by zero *)
Definition touched (tol : R) (n : nat) (z' z : nat -> R) : Prop := forall i, (i < n)%nat -> z i = if Rle_dec (Rabs (z' i)) tol then 0 else z' i.
Lemma sofnat n : @sofZ R RealS (Z.of_nat n) = INR n.
Proof. cbn. now rewrite <- INR_IZR_INZ. Qed.
Definition t_start (n : nat) : R := rsum n (fun i => start n i * start n i) / (INR n + 1 / 4 * sqrt (INR n)).
Lemma start_centred n : (0 < n)%nat -> centred n (start n) (start n) (t_start n).
Proof.
  intros Hn. assert (N : 0 < INR n) by now apply lt_0_INR. pose proof (sqrt_lt_R0 _ N) as S. assert (SS : sqrt (INR n) * sqrt (INR n) = INR n) by (apply sqrt_sqrt; lra).
  assert (P : 0 < 100 / INR n) by (apply Rdiv_lt_0_compat; lra). unfold t_start, start. rewrite rsum_const. set (r := 100 / INR n) in *. set (s := sqrt (INR n)) in *. clearbody r.
  assert (T : INR n * (r * r) / (INR n + 1 / 4 * s) = r * r * s / (s + 1 / 4)) by (rewrite <- SS; field; lra).
  rewrite T. split; [apply Rdiv_lt_0_compat; [repeat apply Rmult_lt_0_compat; auto|lra]|]. split; [intros; lra|]. rewrite rsum_const. rewrite <- SS. apply Req_le. field. lra.
Qed.
Lemma run_ok ztol gtol m q w z l : (0 < vlen q)%nat -> vlen z = vlen q -> zLCPSolveIP ztol gtol m q w z = Ok (Some l) ->
  let n := vlen q in vlen (lw l) = n /\ vlen (lz l) = n /\ nr m = n /\ nc m = n /\
  exists z', touched ztol n z' (vel (lz l)) /\
    (forall i, (i < n)%nat -> residual n (el m) (vel q) (vel (lw l)) z' i = left_over (steps l) * residual n (el m) (vel q) (start n) (start n) i) /\
    (ranout l = false -> (forall i, (i < n)%nat -> Rabs (residual n (el m) (vel q) (vel (lw l)) z' i) <= ztol) /\ Rabs (dot n (vel (lw l)) z') <= ztol) /\
    (ranout l = true -> length (steps l) = ziter 0) /\
    (gtol = 0 -> psd n (el m) -> (forall a, In a (steps l) -> 0 < a < 1) -> centred n (vel (lw l)) z' (t_start n * left_over (steps l))).
Proof.
  intros Hn Z H n. unfold zLCPSolveIP in H. destruct (Nat.eqb_spec (nr m) (nc m)) as [E1|]; cbn [negb] in H; [|discriminate]. destruct (Nat.eqb_spec (nr m) (vlen q)) as [E2|]; cbn [negb] in H; [|discriminate].
  destruct (match w with Some w0 => _ | None => false end) eqn:EW; [discriminate|]. unfold zLCPIP_PCIni in H.
  set (w0 := match w with Some w1 => w1 | None => zvec (vlen q) end) in H. assert (W : vlen w0 = n).
  { unfold w0. destruct w as [w1|]; auto. apply Bool.orb_false_iff in EW. destruct EW as (A & _). apply Bool.negb_false_iff, Nat.eqb_eq in A. exact A. }
  rewrite W, Z in H. fold n in H.
  match type of H with context [lcpip_loop _ _ _ _ _ _ ?u _ _] => set (ws := u) in H end.
  match type of H with context [lcpip_loop _ _ _ _ _ _ _ _ ?t] => set (ts := t) in H end.
  destruct (lcpip_loop ztol gtol (ziter 0) n m q ws ws ts (List.seq 0 n) []) as [[l'|]|] eqn:EL; try discriminate. cbn [bind option_map] in H. injection H as <-.
  destruct (loop_R ztol gtol n m q Hn E2 ltac:(unfold n; congruence) eq_refl (ziter 0) ws ws ts (List.seq 0 n) [] l' eq_refl eq_refl (perm_seq n) EL) as (L1 & L2 & new & N1 & N2 & N3 & N4 & N5).
  rewrite app_nil_r in N1. cbn [lw lz ranout steps zVecTouchup vlen vel]. split; auto. split; auto. split; auto. split; [unfold n; congruence|]. exists (vel (lz l')). rewrite N1.
  assert (SW : forall i, vel ws i = start n i) by (intros i; unfold ws, start; cbn [vel]; rewrite sofnat; reflexivity).
  split. { intros i Hi. rewrite is_tol_R. unfold Rleb. destruct (Rle_dec (Rabs (vel (lz l') i)) ztol); reflexivity. }
  split. { intros i Hi. rewrite N2 by auto. f_equal. unfold residual. rewrite SW. f_equal. f_equal. apply mulv_ext. auto. }
  split; auto. split; auto. intros G PSD AS.
  replace (t_start n) with ts. 2:{ unfold ts, t_start. rewrite inner_R by reflexivity. cbn [vlen]. rewrite sofnat. cbn [sadd smul sdiv ssqrt RealS]. unfold PC_A. change (@sofZ R RealS 1) with 1. change (@sofZ R RealS 4) with 4.
    f_equal. apply rsum_ext. intros i Hi. now rewrite SW. }
  apply N5; auto. apply (centred_ext n (start n) (start n)); auto.
  replace ts with (t_start n); [now apply start_centred|]. unfold ts, t_start. rewrite inner_R by reflexivity. cbn [vlen]. rewrite sofnat. cbn [sadd smul sdiv ssqrt RealS]. unfold PC_A. change (@sofZ R RealS 1) with 1. change (@sofZ R RealS 4) with 4.
  f_equal. apply rsum_ext. intros i Hi. now rewrite SW.
Qed.
(** the residual keeps the direction of the initial one, whatever the accuracy of the linear solver, and is scaled by the step lengths *)
Theorem C102_residual ztol gtol m q w z l : (0 < vlen q)%nat -> vlen z = vlen q -> zLCPSolveIP ztol gtol m q w z = Ok (Some l) ->
  let n := vlen q in vlen (lw l) = n /\ vlen (lz l) = n /\
  exists z', touched ztol n z' (vel (lz l)) /\
    (forall i, (i < n)%nat -> residual n (el m) (vel q) (vel (lw l)) z' i = left_over (steps l) * residual n (el m) (vel q) (start n) (start n) i) /\
    (ranout l = true -> length (steps l) = Z.to_nat 10000).
Proof.
  intros Hn Z H n. destruct (run_ok _ _ _ _ _ _ _ Hn Z H) as (A & B & _ & _ & z' & T & R1 & _ & L & _). split; auto. split; auto. exists z'. auto.
Qed.
Lemma touched_near tol n z' z i : 0 <= tol -> touched tol n z' z -> (i < n)%nat -> Rabs (z i - z' i) <= tol.
Proof. intros Ht T Hi. rewrite T by auto. destruct (Rle_dec _ _) as [L|L]; [replace (0 - z' i) with (- z' i) by ring; now rewrite Rabs_Ropp|]. replace (z' i - z' i) with 0 by ring. rewrite Rabs_R0. auto. Qed.
Lemma rsum_abs n f : Rabs (rsum n f) <= rsum n (fun i => Rabs (f i)).
Proof. induction n as [|n IH]; cbn [rsum]; [rewrite Rabs_R0; lra|]. eapply Rle_trans; [apply Rabs_triang|]. lra. Qed.
Lemma touched_sum tol n z' z (c : nat -> R) : 0 <= tol -> touched tol n z' z -> Rabs (rsum n (fun j => c j * z j) - rsum n (fun j => c j * z' j)) <= tol * rsum n (fun j => Rabs (c j)).
Proof.
  intros Ht T. rewrite <- rsum_sub. eapply Rle_trans; [apply rsum_abs|]. rewrite <- rsum_scal. apply rsum_le. intros i Hi.
  replace (c i * z i - c i * z' i) with (c i * (z i - z' i)) by ring. rewrite Rabs_mult. pose proof (touched_near _ _ _ _ i Ht T Hi). pose proof (Rabs_pos (c i)). nra.
Qed.
(** what is returned without the warning of the iteration limit: w = M z + q and w^T z = 0 within the tolerance and what the touch-up of z adds *)
Theorem C102_converged_partial ztol gtol m q w z l : 0 <= ztol -> (0 < vlen q)%nat -> vlen z = vlen q -> zLCPSolveIP ztol gtol m q w z = Ok (Some l) -> ranout l = false ->
  let n := vlen q in
  (forall i, (i < n)%nat -> Rabs (residual n (el m) (vel q) (vel (lw l)) (vel (lz l)) i) <= ztol * (1 + rsum n (fun j => Rabs (el m i j)))) /\
  Rabs (dot n (vel (lw l)) (vel (lz l))) <= ztol * (1 + rsum n (fun j => Rabs (vel (lw l) j))).
Proof.
  intros Ht Hn Z H RO n. destruct (run_ok _ _ _ _ _ _ _ Hn Z H) as (A & B & _ & _ & z' & T & _ & C & _). destruct (C RO) as (C1 & C2). fold n in T, C1, C2. split.
  - intros i Hi. specialize (C1 i Hi). pose proof (touched_sum ztol n z' _ (el m i) Ht T) as TS. unfold residual, mulv in *.
    replace (rsum n (fun j => el m i j * vel (lz l) j) + vel q i - vel (lw l) i) with ((rsum n (fun j => el m i j * z' j) + vel q i - vel (lw l) i) + (rsum n (fun j => el m i j * vel (lz l) j) - rsum n (fun j => el m i j * z' j))) by ring.
    eapply Rle_trans; [apply Rabs_triang|]. lra.
  - pose proof (touched_sum ztol n z' _ (vel (lw l)) Ht T) as TS. unfold dot in *.
    replace (rsum n (fun j => vel (lw l) j * vel (lz l) j)) with (rsum n (fun j => vel (lw l) j * z' j) + (rsum n (fun j => vel (lw l) j * vel (lz l) j) - rsum n (fun j => vel (lw l) j * z' j))) by ring.
    eapply Rle_trans; [apply Rabs_triang|]. lra.
Qed.
(** a monotone problem (M positive semidefinite), linear equations solved exactly, all the steps shorter than 1: every
    iterate is an interior point, near the central path, so that the answer is a solution up to the tolerance *)
Theorem C102_interior_partial ztol m q w z l : 0 <= ztol -> (0 < vlen q)%nat -> vlen z = vlen q -> psd (vlen q) (el m) ->
  zLCPSolveIP ztol 0 m q w z = Ok (Some l) -> (forall a, In a (steps l) -> 0 < a < 1) ->
  let n := vlen q in
  (forall i, (i < n)%nat -> 0 < vel (lw l) i /\ 0 <= vel (lz l) i) /\
  (exists z' t, touched ztol n z' (vel (lz l)) /\ centred n (vel (lw l)) z' t) /\
  (ranout l = false -> 0 <= dot n (vel (lw l)) (vel (lz l)) <= ztol).
Proof.
  intros Ht Hn Z PSD H AS n. destruct (run_ok _ _ _ _ _ _ _ Hn Z H) as (A & B & _ & _ & z' & T & _ & C & _ & I). specialize (I eq_refl PSD AS). fold n in T, C, I.
  pose proof I as (I1 & I2 & I3).
  assert (S : forall i, (i < n)%nat -> 0 < vel (lw l) i /\ 0 <= vel (lz l) i <= z' i). { intros i Hi. rewrite (T i Hi). destruct (I2 i Hi). destruct (Rle_dec _ _); split; auto; lra. }
  split. { intros i Hi. destruct (S i Hi) as (? & ? & ?). auto. } split. { exists z', (t_start n * left_over (steps l)). auto. }
  intros RO. destruct (C RO) as (_ & C2). split.
  - apply rsum_nonneg. intros i Hi. destruct (S i Hi) as (? & ? & ?). nra.
  - apply Rle_trans with (dot n (vel (lw l)) z'). { apply rsum_le. intros i Hi. destruct (S i Hi) as (? & ? & ?). nra. }
    eapply Rle_trans; [apply Rle_abs|exact C2].
Qed.
(** the same for an elimination with a tolerance that is small enough for the problem *)
Lemma st_gauss_idx a b ans idx s : st (fun g => gauss_idx g a b ans idx s).
Proof.
  unfold gauss_idx. apply st_bind; [apply st_const|]. intros [[a2 b2] s2]. apply st_bind; [apply st_forward|]. intros [[[a3 b3] i3]|]; [|apply st_const].
  apply st_bind; [apply st_gaussDST|]. intros o. apply st_const.
Qed.
Lemma st_grad m w z b idx : st (fun g => zLCPIP_PCGrad g m w z b idx).
Proof. unfold zLCPIP_PCGrad. apply st_bind; [apply st_const|]. intros g. apply st_gauss_idx. Qed.
Lemma st_loop_ip ztol k : forall n m q w z t idx s, st (fun g => lcpip_loop ztol g k n m q w z t idx s).
Proof.
  induction k as [|k IH]; intros; cbn [lcpip_loop]; [apply st_const|]. apply st_bind; [apply st_const|]. intros [r e]. destruct (_ && _); [apply st_const|].
  apply st_bind. { unfold zLCPIP_PCPred. do 3 (apply st_bind; [apply st_const|]; intros ?). apply st_bind; [apply st_grad|]. intros [[? ?]|]; apply st_const. }
  intros [[[dz dw] i1]|]; [|apply st_const]. apply st_bind; [apply st_const|]. intros [[a t']|]; [|apply st_const]. do 2 (apply st_bind; [apply st_const|]; intros ?). cbv zeta.
  apply st_bind. { unfold zLCPIP_PCCorr. apply st_bind; [apply st_const|]. intros ?. cbv zeta. apply st_bind; [apply st_grad|]. intros [[? ?]|]; apply st_const. }
  intros [[[dz2 dw2] i2]|]; [|apply st_const]. do 2 (apply st_bind; [apply st_const|]; intros ?). apply IH.
Qed.
Theorem C102_interior_small_partial ztol m q w z : 0 <= ztol -> (0 < vlen q)%nat -> vlen z = vlen q -> psd (vlen q) (el m) ->
  exists d, 0 < d /\ forall gtol, 0 < gtol <= d -> forall l, zLCPSolveIP ztol gtol m q w z = Ok (Some l) -> (forall a, In a (steps l) -> 0 < a < 1) ->
  let n := vlen q in
  (forall i, (i < n)%nat -> 0 < vel (lw l) i /\ 0 <= vel (lz l) i) /\ (ranout l = false -> 0 <= dot n (vel (lw l)) (vel (lz l)) <= ztol).
Proof.
  intros Ht Hn Z PSD. assert (ST : st (fun g => zLCPSolveIP ztol g m q w z)).
  { unfold zLCPSolveIP. destruct (negb _); [apply st_const|]. destruct (negb _); [apply st_const|]. destruct (match w with Some w0 => _ | None => _ end); [apply st_const|].
    destruct (zLCPIP_PCIni _ z) as [[w1 z1] t1]. apply st_bind; [apply st_loop_ip|]. intros ?. apply st_const. }
  destruct ST as (d & Hd & E). exists d. split; auto. intros g Hg l H AS. rewrite E in H by auto. destruct (C102_interior_partial ztol m q w z l) as (A & _ & B); auto.
Qed.

(** ** binary64 *)
Section Witness.
  Local Open Scope float_scope.
  Definition run (m : list (list float)) (q : list float) := zLCPSolveIP 0x1.19799812dea11p-40 0x1.19799812dea11p-40 (mat_of 0 m) (vec_of 0 q) (Some (zvec (length q))) (zvec (length q)).
  Definition shown (r : res (option (@lcpip float))) := match r with Ok (Some o) => Some (ranout o, to_list (lw o), to_list (lz o), forallb (fun a => (0 <? a) && (a <? 1))%bool (steps o), length (steps o)) | _ => None end.
  (** two unknowns: M = (2 1; 1 2), q = (-5, -6), the solution is z = (4/3, 7/3): 12 steps, all between 0 and 1 *)
  Example C102_case : exists w0 w1 z0 z1, shown (run [[2; 1]; [1; 2]] [-(5); -(6)]) = Some (false, [w0; w1], [z0; z1], true, 12%nat) /\
     ((0 <? w0) && (w0 <? 0x1p-50) && (0 <? w1) && (w1 <? 0x1p-50) && (abs (z0 - 4 / 3) <? 0x1p-50) && (abs (z1 - 7 / 3) <? 0x1p-50) = true)%bool.
  Proof. do 4 eexists. split; vm_compute; reflexivity. Qed.
  (** M = 1, q = -150: the solution is z = 150, w = 0, and the function gives up at the first step *)
  Theorem C102_solvable_refuted : run [[1]] [-(150)] = Ok None /\ pos_def 1 (fun _ _ => 1%R) /\ solves_lcp 1 (fun _ _ => 1%R) (fun _ => (-150)%R) (fun _ => 150%R).
  Proof.
    split; [vm_compute; reflexivity|]. split.
    - intros v (i & Hi & Nv). assert (i = 0)%nat as -> by lia. unfold dot, mulv. cbn [rsum]. destruct (Rtotal_order (v O) 0) as [L|[L|L]]; try lra; nra.
    - unfold solves_lcp, nonneg, dot, mulv. cbn [rsum]. repeat split; intros; lra.
  Qed.
  (** M = 1, q = -100: the first direction of z is zero; the function returns true after all the iterations, with w and z
      that are not numbers; the solution is z = 100, w = 0 *)
  Theorem C102_nan_refuted : (exists w z l, shown (run [[1]] [-(100)]) = Some (true, [w], [z], l, Z.to_nat 10000) /\ PrimFloat.eqb w w = false /\ PrimFloat.eqb z z = false) /\
     solves_lcp 1 (fun _ _ => 1%R) (fun _ => (-100)%R) (fun _ => 100%R).
  Proof.
    split; [do 3 eexists; split; [vm_compute; reflexivity|split; vm_compute; reflexivity]|]. unfold solves_lcp, nonneg, dot, mulv. cbn [rsum]. repeat split; intros; lra.
  Qed.
  (** M = 1, q = -100.0009765625: the steps are longer than 1; w is negative *)
  Theorem C102_negative_refuted : exists w z n, shown (run [[1]] [-(100.0009765625)]) = Some (false, [w], [z], false, n) /\ (w <? 0) = true.
  Proof. do 3 eexists. split; vm_compute; reflexivity. Qed.
End Witness.
Print Assumptions C102_safe.
Print Assumptions C102_rejects.
Print Assumptions C102_overflow_refuted.
Print Assumptions C102_residual.
Print Assumptions C102_converged_partial.
Print Assumptions C102_interior_partial.
Print Assumptions C102_interior_small_partial.
Print Assumptions C102_solvable_refuted.
Print Assumptions C102_nan_refuted.
Print Assumptions C102_negative_refuted.
