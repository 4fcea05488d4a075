(** C43 (the simplex method), C44 (Lemke's method). *)
From Coq Require Import Reals Lra Lia Psatz QArith List.
From Verif Require Import Prelude Prelude_Proofs Scalar RealLib Fmat Fmat_Proofs LE_Model IP_Model Vop Stat_Model Qp_Spec Lp_Spec Lp_Model Lp_Proofs Lp2_Proofs Lp3_Proofs Lp4_Proofs Lp5_Proofs Lp6_Proofs Lp7_Proofs.
Import ListNotations.
Local Open Scope R_scope.

(** ** C43.  The code compares with a fixed tolerance.  For a problem with fewer equations than variables and
    independent rows, and every tolerance that is small enough for that problem, the method accesses nothing out
    of bounds, and an answer it reports is a minimum.  Missing: dependent rows, a tolerance independent of the
    problem (both refuted below), success on every solvable problem (refuted below). *)
Theorem C43_simplex_partial (A : fmat R) (b c : fvec R) (m n : nat) : nr A = m -> nc A = n -> vlen b = m -> vlen c = n ->
  (m < n)%nat -> independent m n (el A) ->
  exists d, 0 < d /\ forall tol ans, 0 < tol <= d -> vlen ans = n ->
    exists r, zLPSolveSimplex tol A b c ans = Ok r /\
    match r with
    | None => True
    | Some (x, cost) => vlen x = n /\ lp_optimal m n (el A) (vel b) (vel c) (vel x) /\ cost = dot n (vel c) (vel x)
    end.
Proof.
  intros A1 A2 B1 C1 Hmn IN.
  destruct (good_ex m (n + m) (sT n A b) (sb b) (c1 n)) as (d1 & D1 & G1). destruct (good_ex m n (sT n A b) (sb b) (vel c)) as (d2 & D2 & G2).
  exists (Rmin d1 d2). split; [now apply Rmin_glb_lt|]. intros tol ans (T0 & T1) LA.
  assert (tol <= d1) by (pose proof (Rmin_l d1 d2); lra). assert (tol <= d2) by (pose proof (Rmin_r d1 d2); lra).
  destruct (simplex_main m n tol T0 A b A1 A2 B1 c C1 Hmn ans LA) as (r & E & P). { apply indep_nr; auto. }
  exists r. split; [exact E|]. destruct r as [[x cost]|]; auto. destruct P as (P1 & P2 & P3 & P4 & P5). auto.
Qed.
(** an infeasible problem is reported, whether or not the rows are independent *)
Theorem C43_infeasible (A : fmat R) (b c : fvec R) (m n : nat) : nr A = m -> nc A = n -> vlen b = m -> (0 < n)%nat ->
  ~ (exists x, std_feasible m n (el A) (vel b) x) ->
  exists d, 0 < d /\ forall tol ans, 0 < tol <= d -> zLPSolveSimplex tol A b c ans = Ok None.
Proof.
  intros A1 A2 B1 Hn NF. destruct (good_ex m (n + m) (sT n A b) (sb b) (c1 n)) as (d & D & G). exists d. split; auto.
  intros tol ans (T0 & T1). apply (infeasible_main m n tol T0 A b A1 A2 B1 Hn c ans); auto.
Qed.
(** with any fixed tolerance to which the rows are far enough from dependent: the equations hold exactly, the cost
    is the cost of the answer, and no feasible point is better by more than the tolerance times its sum; the answer
    may have negative components (refuted below) *)
Theorem C43_tolerance_partial (A : fmat R) (b c : fvec R) (m n : nat) (tol : R) (ans : fvec R) : nr A = m -> nc A = n -> vlen b = m -> vlen c = n ->
  (m < n)%nat -> 0 < tol -> robust tol m n (el A) -> vlen ans = n ->
  exists r, zLPSolveSimplex tol A b c ans = Ok r /\
    match r with
    | None => True
    | Some (x, cost) => vlen x = n /\ (forall i, (i < m)%nat -> mulv n (el A) (vel x) i = vel b i) /\ cost = dot n (vel c) (vel x) /\
        forall y, std_feasible m n (el A) (vel b) y -> cost - tol * rsum n y <= dot n (vel c) y
    end.
Proof.
  intros A1 A2 B1 C1 Hmn T0 RB LA.
  destruct (simplex_main m n tol T0 A b A1 A2 B1 c C1 Hmn ans LA) as (r & E & P). { apply robust_nr; auto. }
  exists r. split; [exact E|]. destruct r as [[x cost]|]; auto. destruct P as (P1 & P2 & P3 & P4 & P5). auto.
Qed.
(** the sizes that do not match are reported, whatever the values *)
Theorem C43_sizes {T} `{Scalar T} (tol : T) (A : fmat T) (b c ans : fvec T) :
  nc A <> vlen ans \/ nr A <> vlen b \/ vlen c <> vlen ans -> zLPSolveSimplex tol A b c ans = Ok None.
Proof.
  intros H1. unfold zLPSolveSimplex. destruct (Nat.eqb_spec (nc A) (vlen ans)), (Nat.eqb_spec (nr A) (vlen b)), (Nat.eqb_spec (vlen c) (vlen ans)); cbn [negb andb]; auto.
  exfalso. tauto.
Qed.
(** a base found by zLPFeasibleBase is a feasible point.  Missing: it writes out of bounds when an artificial
    variable remains in the base (refuted below). *)
Theorem C43_feasible_base_partial (A : fmat R) (b : fvec R) (m n : nat) : nr A = m -> nc A = n -> vlen b = m -> (0 < n)%nat ->
  exists d, 0 < d /\ forall tol base x, 0 < tol <= d -> vlen base = n ->
    zLPFeasibleBase tol A b base = Ok (Some x) -> vlen x = n /\ std_feasible m n (el A) (vel b) (vel x).
Proof.
  intros A1 A2 B1 Hn. destruct (good_ex m (n + m) (sT n A b) (sb b) (c1 n)) as (d & D & G). exists d. split; auto.
  intros tol base x (T0 & T1) LB. apply (base_main m n tol T0 A b A1 A2 B1 Hn base x LB). auto.
Qed.

(** the hypotheses are met: x0 + x1 + x2 = 4, x0 + 3 x1 + x3 = 6 *)
Definition exA : fmat R := mat_of 0 [[1; 1; 1; 0]; [1; 3; 0; 1]].
Example C43_ex_independent : independent 2 4 (el exA).
Proof.
  intros l H i Hi. pose proof (H 2%nat ltac:(lia)) as H2. pose proof (H 3%nat ltac:(lia)) as H3. unfold comb, exA in *. cbn in H2, H3.
  assert (i = 0 \/ i = 1)%nat as [-> | ->] by lia; lra.
Qed.
Example C43_ex_robust : robust (1 / 1000000000000) 2 4 (el exA).
Proof.
  intros l (i & Hi & E). assert (i = 0 \/ i = 1)%nat as [-> | ->] by lia.
  - exists 2%nat. split; [lia|]. unfold comb, exA. cbn. replace (0 + l 0%nat * 1 + l 1%nat * 0) with (l 0%nat) by ring. rewrite E. lra.
  - exists 3%nat. split; [lia|]. unfold comb, exA. cbn. replace (0 + l 0%nat * 0 + l 1%nat * 1) with (l 1%nat) by ring. rewrite E. lra.
Qed.
(** an infeasible problem with dependent rows *)
Example C43_ex_infeasible : ~ (exists x, std_feasible 2 3 (el (mat_of 0 [[1; 1; 0]; [2; 2; 0]])) (vel (vec_of 0 [1; 3])) x).
Proof.
  intros (x & N & E). pose proof (E 0%nat ltac:(lia)) as E0. pose proof (E 1%nat ltac:(lia)) as E1. unfold mulv in *. cbn in E0, E1. lra.
Qed.

Section Q.
Local Open Scope Q_scope.
Definition tol12 : Q := 1 # 1000000000000.
Definition show (r : res (option (fvec Q * Q))) : res (option (list Q * Q)) :=
  x <- r ;; Ok (match x with Some (x, d) => Some (map Qred (to_list x), Qred d) | None => None end).
Definition qdot (a x : list Q) : Q := fold_right Qplus 0 (map (fun p => fst p * snd p) (combine a x)).
Definition qnonneg (x : list Q) : Prop := Forall (fun v => 0 <= v) x.
Definition qfeasible (A : list (list Q)) (b x : list Q) : Prop :=
  qnonneg x /\ Forall2 (fun r v => qdot r x == v) A b.
Definition qsolve (A : list (list Q)) (b c : list Q) : res (option (list Q * Q)) :=
  show (zLPSolveSimplex tol12 (mat_of 0 A) (vec_of 0 b) (vec_of 0 c) (vec_of 0 (map (fun _ => 0) c))).

Example C43_ex_run : qsolve [[1; 1; 1; 0]; [1; 3; 0; 1]] [4; 6] [-(3); -(5); 0; 0] = Ok (Some ([3; 1; 0; 0], -(14))).
Proof. vm_compute. reflexivity. Qed.
Example C43_ex_infeasible_run : qsolve [[1; 1; 0]; [2; 2; 0]] [1; 3] [1; 1; 1] = Ok None.
Proof. vm_compute. reflexivity. Qed.
Example C43_ex_unbounded_run : qsolve [[1; -(1); 0]; [0; 0; 1]] [1; 1] [-(1); 0; 0] = Ok None.
Proof. vm_compute. reflexivity. Qed.

(** dependent rows: a row of the base is removed, and another than the remaining ones is read, so that the answer
    breaks the third equation *)
Theorem C43_dependent_refuted : exists A b c x cost, qsolve A b c = Ok (Some (x, cost)) /\
  (exists y, qfeasible A b y) /\ ~ qfeasible A b x.
Proof.
  exists [[0; 1; 0; 1]; [0; 1; 0; 1]; [1; 0; 1; 0]], [1; 1; 1], [1; 0; 0; 1], [0; 1; 0; 0], 0.
  split; [vm_compute; reflexivity|]. split.
  - exists [1; 1; 0; 0]. split; [repeat constructor; discriminate|]. repeat constructor; vm_compute; reflexivity.
  - intros (_ & F). inversion F as [|? ? ? ? _ F1]; subst. inversion F1 as [|? ? ? ? _ F2]; subst. inversion F2 as [|? ? ? ? F3 _]; subst. vm_compute in F3. discriminate.
Qed.
(** the fixed tolerance: independent rows, but an entry below the tolerance is passed over in the ratio test, so
    that the answer has a negative component *)
Theorem C43_tolerance_refuted : exists A b c x cost, qsolve A b c = Ok (Some (x, cost)) /\
  (exists y, qfeasible A b y) /\ ~ qnonneg x.
Proof.
  exists [[tol12; 1; 0]; [tol12 * (9 # 10); 0; 1]], [1; 1 # 2], [-(1); 0; 0], [1000000000000; 0; -(2 # 5)], (-(1000000000000)).
  split; [vm_compute; reflexivity|]. split.
  - exists [0; 1; 1 # 2]. split; [repeat constructor; discriminate|]. repeat constructor; vm_compute; reflexivity.
  - intros F. inversion F as [|? ? _ F1]; subst. inversion F1 as [|? ? _ F2]; subst. inversion F2 as [|? ? F3 _]; subst. vm_compute in F3. apply F3. reflexivity.
Qed.
(** the number of exchanges is limited by the number of the columns: a solvable problem may be reported to fail.
    The program of Klee and Minty in six variables, with slack variables. *)
Definition km : list (list Q) :=
  [[1; 0; 0; 0; 0; 0; 1; 0; 0; 0; 0; 0];
   [4; 1; 0; 0; 0; 0; 0; 1; 0; 0; 0; 0];
   [8; 4; 1; 0; 0; 0; 0; 0; 1; 0; 0; 0];
   [16; 8; 4; 1; 0; 0; 0; 0; 0; 1; 0; 0];
   [32; 16; 8; 4; 1; 0; 0; 0; 0; 0; 1; 0];
   [64; 32; 16; 8; 4; 1; 0; 0; 0; 0; 0; 1]].
Theorem C43_limit_refuted : exists A b c x, qsolve A b c = Ok None /\
  qfeasible A b x /\ forall y, length y = length c -> qfeasible A b y -> qdot c x <= qdot c y.
Proof.
  exists km, [5; 25; 125; 625; 3125; 15625], [-(32); -(16); -(8); -(4); -(2); -(1); 0; 0; 0; 0; 0; 0], [0; 0; 0; 0; 0; 15625; 5; 25; 125; 625; 3125; 0].
  split; [vm_compute; reflexivity|]. split.
  - split; [repeat constructor; discriminate|]. repeat constructor; vm_compute; reflexivity.
  - intros y L (N & F). do 12 (destruct y as [|? y]; [discriminate|]). destruct y; [|discriminate].
    unfold km in F. do 5 (let F' := fresh in inversion F as [|? ? ? ? _ F']; subst; clear F; rename F' into F). inversion F as [|? ? ? ? E _]; subst. clear F.
    do 12 (let N' := fresh in let P := fresh "P" in inversion N as [|? ? P N']; subst; clear N; rename N' into N). 
    cbn in E |- *. lra.
Qed.
(** as many equations as variables: the index of the variables outside the base is empty, and is read *)
Theorem C43_square_refuted : exists A b c, length A = 1%nat /\ length c = 1%nat /\ qsolve A b c = UB.
Proof. exists [[1]], [1], [1]. repeat split. Qed.
Theorem C43_feasible_base_refuted : zLPFeasibleBase tol12 (mat_of 0 [[1]; [1]]) (vec_of 0 [1; 1]) (vec_of 0 [0]) = UB.
Proof. vm_compute. reflexivity. Qed.
Example C43_ex_base : (x <- zLPFeasibleBase tol12 (mat_of 0 [[1; 1; 1; 0]; [1; 3; 0; 1]]) (vec_of 0 [4; 6]) (vec_of 0 [0; 0; 0; 0]) ;;
  Ok (option_map (fun x => map Qred (to_list x)) x)) = Ok (Some [0; 2; 2; 0]).
Proof. vm_compute. reflexivity. Qed.
End Q.

(** ** C44.  With any positive tolerance: nothing is accessed out of bounds, and when the method ends with an answer,
    w = M z + q, and of each pair one of w_i and z_i is zero; q >= 0 is answered by z = 0.  Missing: the signs
    (next theorem; refuted below for a fixed tolerance), and that the method ends. *)
Theorem C44_lemke_partial (M : fmat R) (q z0 : fvec R) (w0 : option (fvec R)) (n : nat) (tol : R) (fuel : nat) :
  nr M = n -> nc M = n -> vlen q = n -> vlen z0 = n -> match w0 with Some w => vlen w = n | None => True end -> (0 < n)%nat -> 0 < tol ->
  exists r, zLCPSolveLemke tol fuel M q w0 z0 = Ok r /\
    match r with
    | Done (w, z) => vlen z = n /\
        (forall i, (i < n)%nat -> (mulv n (el M) (vel z) i + vel q i) * vel z i = 0) /\
        match w0, w with
        | Some _, Some w => vlen w = n /\ forall i, (i < n)%nat -> vel w i = mulv n (el M) (vel z) i + vel q i
        | None, None => True
        | _, _ => False
        end /\
        (nonneg n (vel q) -> forall i, (i < n)%nat -> vel z i = 0)
    | _ => ~ nonneg n (vel q)
    end.
Proof.
  intros M1 M2 Q1 Z1 W1 Hn T0. destruct (lemke_main n Hn tol T0 M q M1 M2 Q1 fuel w0 z0 (fun _ => 0) Z1 W1) as (r & E & P).
  exists r. split; [exact E|]. destruct r as [|[w z]|]; auto. destruct P as (P1 & P2 & P3 & P4 & P5). auto.
Qed.
(** with every tolerance that is small enough for the problem, the answer solves it *)
Theorem C44_sound_partial (M : fmat R) (q : fvec R) (n : nat) : nr M = n -> nc M = n -> vlen q = n -> (0 < n)%nat ->
  exists d, 0 < d /\ forall tol fuel z0 w0, 0 < tol <= d -> vlen z0 = n -> match w0 with Some w => vlen w = n | None => True end ->
  exists r, zLCPSolveLemke tol fuel M q w0 z0 = Ok r /\
    match r with
    | Done (w, z) => vlen z = n /\ solves_lcp n (el M) (vel q) (vel z) /\
        match w0, w with
        | Some _, Some w => vlen w = n /\ forall i, (i < n)%nat -> vel w i = mulv n (el M) (vel z) i + vel q i
        | None, None => True
        | _, _ => False
        end
    | _ => ~ nonneg n (vel q)
    end.
Proof.
  intros M1 M2 Q1 Hn. destruct (good_ex n (2 * n + 1) (lT n M) (vel q) (fun _ => 0)) as (d & D & G). exists d. split; auto.
  intros tol fuel z0 w0 (T0 & T1) Z1 W1. destruct (lemke_main n Hn tol T0 M q M1 M2 Q1 fuel w0 z0 (fun _ => 0) Z1 W1) as (r & E & P).
  exists r. split; [exact E|]. destruct r as [|[w z]|]; auto. destruct P as (P1 & P2 & P3 & P4 & P5). conjs; auto.
  specialize (P4 (G tol T1)). split; [intros i Hi; apply P4; auto|]. split; [intros i Hi; apply P4; auto|].
  unfold dot. apply rsum_0. intros i Hi. rewrite Rmult_comm. auto.
Qed.

Section QL.
Local Open Scope Q_scope.
Definition qlemke (M : list (list Q)) (q : list Q) : res (option (option (list Q) * list Q)) :=
  r <- zLCPSolveLemke tol12 10 (mat_of 0 M) (vec_of 0 q) (Some (vec_of 0 (map (fun _ => 0) q))) (vec_of 0 (map (fun _ => 0) q)) ;;
  Ok (match r with Done (w, z) => Some (option_map (fun w => map Qred (to_list w)) w, map Qred (to_list z)) | _ => None end).
Example C44_ex_run : qlemke [[2; 1]; [1; 2]] [-(5); -(6)] = Ok (Some (Some [0; 0], [4 # 3; 7 # 3])).
Proof. vm_compute. reflexivity. Qed.
Example C44_ex_run2 : qlemke [[2; 1]; [1; 2]] [-(5); 3] = Ok (Some (Some [0; 11 # 2], [5 # 2; 0])).
Proof. vm_compute. reflexivity. Qed.
Theorem C44_tolerance_refuted : exists M q w z, qlemke M q = Ok (Some (Some w, z)) /\ ~ qnonneg w.
Proof.
  exists [[tol12; 0]; [tol12 * (1 # 2); 0]], [-(1); -(9 # 10)], [0; -(2 # 5)], [1000000000000; 0].
  split; [vm_compute; reflexivity|]. intros F. inversion F as [|? ? _ F1]; subst. inversion F1 as [|? ? F2 _]; subst. vm_compute in F2. apply F2. reflexivity.
Qed.
End QL.

Print Assumptions C43_simplex_partial.
Print Assumptions C43_infeasible.
Print Assumptions C43_tolerance_partial.
Print Assumptions C43_sizes.
Print Assumptions C43_feasible_base_partial.
Print Assumptions C43_dependent_refuted.
Print Assumptions C43_tolerance_refuted.
Print Assumptions C43_limit_refuted.
Print Assumptions C43_square_refuted.
Print Assumptions C43_feasible_base_refuted.
Print Assumptions C44_lemke_partial.
Print Assumptions C44_sound_partial.
Print Assumptions C44_tolerance_refuted.
