(** C85: particle swarm optimization. *)
From Coq Require Import List Arith Lia Reals Lra QArith.
From Verif Require Import Prelude Prelude_Proofs Scalar RealLib Pso_Model Pso_Spec Pso_Proofs.
Import ListNotations.
Local Open Scope R_scope.

Section C85.
  Variables (f : list R -> R) (ri : nat -> nat -> R) (ru : nat -> nat -> nat -> nat -> R) (ztol : R).
  Variables (mn mx : list R) (num : nat) (k1 k2 vel_rate : R).
  Hypothesis Lmx : length mx = length mn.
  Hypothesis Hbox : forall j, (j < length mn)%nat -> nth j mn 0 <= nth j mx 0.
  Hypothesis Hri : forall i k, (k < 2)%nat -> 0 <= ri i k <= 1.
  Hypothesis Hnum : (0 < num)%nat.
  Let dim := length mn.
  Let vmx := vec dim (fun i => (nth i mx 0 - nth i mn 0) * vel_rate).
  Let vmn := vec dim (fun i => - nth i vmx 0).
  Local Notation after n := (swarm_after f dim ri ru ztol mn mx vmn vmx num k1 k2 n).

  (** For every function and every random stream, after any number of rounds: every particle is in the box, its record is a
      point of the box with the value that is stored, not worse than the present position; no velocity exceeds the limit. *)
  Theorem C85_particles : forall n, exists s, after n = Ok s /\ length (parts s) = num /\
    forall p, In p (parts s) -> in_box mn mx (px p) /\ in_box mn mx (mybest p) /\ peval p = f (mybest p) /\ peval p <= f (px p) /\
      ((0 < n)%nat -> 0 <= vel_rate -> forall j, (j < dim)%nat -> Rabs (nth j (pv p) 0) <= vel_rate * (nth j mx 0 - nth j mn 0)).
  Proof using Lmx Hbox Hri Hnum.
    intros n. destruct (after_ok f dim ri ru ztol mn mx vmx eq_refl Lmx Hbox Hri num k1 k2 Hnum n) as [s [A [B [C D]]]]. exists s.
    split; [exact A|]. split; auto. intros p Hp. rewrite Forall_forall in C. destruct (C p Hp) as [G1 [G2 [G3 G4]]]. split; auto. split; auto. split; auto. split; auto.
    intros Hn Hv j Hj. specialize (D Hn). rewrite Forall_forall in D. specialize (D p Hp j Hj). unfold vmx in D. rewrite el_vec in D by auto.
    rewrite Rmult_comm. apply D. apply Rmult_le_pos; auto. specialize (Hbox j Hj). lra.
  Qed.

  (** The records never get worse. *)
  Theorem C85_monotone : forall m n s s', (m <= n)%nat -> after m = Ok s -> after n = Ok s' ->
    forall i p p', nth_error (parts s) i = Some p -> nth_error (parts s') i = Some p' -> peval p' <= peval p.
  Proof using Lmx Hbox Hri Hnum.
    intros m n s s' Hm A B. apply (after_later f dim ri ru ztol mn mx vmx eq_refl Lmx Hbox Hri num k1 k2 Hnum n m s s' Hm A B).
  Qed.

  (** The solver ends after rounds 1..N; the answer is in the box; the reported value is taken by f at a record of round N-1, is
      not better than the value of the answer, and not worse than the value of any position of any particle before the last
      round; an early end happens only if all particles are at rest. *)
  Theorem C85_solve_partial : forall zmax iter tol, (0 < zmax)%nat ->
    exists r N ans eval, zOptSolvePSO f dim ri ru ztol zmax mn mx iter tol num k1 k2 vel_rate = Ok (Some (r, ans, eval)) /\
      (0 < N)%nat /\ (N <= match iter with O => zmax | _ => iter end)%nat /\
      in_box mn mx ans /\ f ans <= eval /\
      (exists x, in_box mn mx x /\ eval = f x) /\
      (forall m s p, (m < N)%nat -> after m = Ok s -> In p (parts s) -> eval <= f (px p)) /\
      (exists s, after N = Ok s /\
        ((r = Nat.pred N /\ forall p v, In p (parts s) -> In v (pv p) -> Rabs v <= ztol) \/
         (r = N /\ r = match iter with O => zmax | _ => iter end))).
  Proof using Lmx Hbox Hri Hnum.
    intros zmax iter tol Hz. unfold zOptSolvePSO. fold dim. rewrite Lmx. fold dim. rewrite Nat.eqb_refl. cbn [negb andb]. cbv zeta.
    change (vec dim (fun i => ((el mx i - el mn i) * vel_rate)%S)) with vmx.
    change (vec dim (fun i => (- el vmx i)%S)) with vmn.
    set (it := match iter with O => zmax | _ => iter end). assert (Hit : (0 < it)%nat) by (unfold it; destruct iter; lia).
    destruct (create_ok f dim ri ru ztol mn mx vmx eq_refl Lmx Hbox Hri num k1 k2 Hnum) as [s0 [A0 _]].
    pose proof (loop_ok f dim ri ru ztol mn mx vmx eq_refl Lmx Hbox Hri num k1 k2 Hnum it 0 s0 A0 Hit) as (r & n & s' & B1 & _ & B3 & B4 & B5 & s1 & p & p' & E1 & E2 & E3 & E4 & E5 & E6).
    change (_zOptPSOSwarmCreate f dim ri num mn mx vmn vmx k1 k2 = Ok s0) in A0. rewrite A0. cbn [bind].
    change (pso_loop f dim ru ztol it 0 s0 mn mx vmn vmx = Ok (r, s')) in B1. rewrite B1. cbn [bind].
    unfold get. rewrite E3. cbn [bind].
    destruct (after_ok f dim ri ru ztol mn mx vmx eq_refl Lmx Hbox Hri num k1 k2 Hnum (S n)) as [s2 [F1 [F2 [F3 _]]]]. rewrite B4 in F1. injection F1 as <-.
    destruct (after_ok f dim ri ru ztol mn mx vmx eq_refl Lmx Hbox Hri num k1 k2 Hnum n) as [s2 [F1 [F4 [F5 _]]]]. rewrite E1 in F1. injection F1 as <-.
    rewrite Forall_forall in F3, F5. destruct (F3 p' (nth_error_In _ _ E3)) as [G1 [G2 [G3 G4]]]. destruct (F5 p (nth_error_In _ _ E2)) as [J1 [J2 [J3 J4]]].
    exists r, (S n), (mybest p'), (seval s'). split; [reflexivity|]. split; [lia|]. split. { destruct B5 as [[? [? _]]|[? [? _]]]; lia. }
    split; auto. split; [lra|]. split. { exists (mybest p). split; auto. congruence. } split.
    - intros m s q Hm Am Hq. destruct (In_nth_error _ _ Hq) as [i Hi].
      destruct (after_later f dim ri ru ztol mn mx vmx eq_refl Lmx Hbox Hri num k1 k2 Hnum n m s s1 ltac:(lia) Am E1) as [X1 X2].
      destruct (nth_error (parts s1) i) as [q1|] eqn:Eq1. 2: { apply nth_error_None in Eq1. assert (i < length (parts s))%nat by (apply nth_error_Some; congruence). lia. }
      destruct (after_ok f dim ri ru ztol mn mx vmx eq_refl Lmx Hbox Hri num k1 k2 Hnum m) as [s3 [K1 [_ [K3 _]]]]. change (after m = Ok s3) in K1. rewrite Am in K1. injection K1 as <-.
      rewrite Forall_forall in K3. destruct (K3 q Hq) as [_ [_ [_ K]]]. specialize (X2 i q q1 Hi Eq1). specialize (E6 q1 (nth_error_In _ _ Eq1)). lra.
    - exists s'. split; [exact B4|]. destruct B5 as [[? [? B5]]|[? [? _]]]; [left|right]; split; auto. rewrite Forall_forall in B5. intros. eapply B5; eauto.
  Qed.
End C85.
Print Assumptions C85_particles.
Print Assumptions C85_monotone.
Print Assumptions C85_solve_partial.

(** (x-3)^2 on [0,4]; the random numbers after the creation are 0, so a particle only keeps a part of its velocity *)
Definition bowl (x : list Q) : Q := ((nth 0 x 0 - 3) * (nth 0 x 0 - 3))%Q.
(** particle 0: at 0 with the full speed; inertia 3/4 *)
Definition ri1 (i k : nat) : Q := match k with O => 0 | 1%nat => 1 | _ => 3 # 4 end.
(** "The reported value is the value of the answer" is false: the answer 3 has the value 0, 9 is reported. *)
Theorem C85_eval_refuted : exists ans eval, zOptSolvePSO bowl 1 ri1 (fun _ _ _ _ => 0%Q) 0%Q 10 [0%Q] [4%Q] 1 0%Q 1 2%Q 2%Q 1%Q = Ok (Some (1%nat, ans, eval)) /\
  (bowl ans == 0)%Q /\ (eval == 9)%Q.
Proof. eexists _, _. split; [vm_compute; reflexivity|]. split; reflexivity. Qed.
Print Assumptions C85_eval_refuted.
(** "The answer is the best point at which the function was evaluated" is false: particle 1 is at 3 with the value 0 after the
    last round, the answer is 1 with the value 4.  Particle 0 is at 1 at rest. *)
Definition ri2 (i k : nat) : Q := match i, k with O, O => 1 # 4 | O, 1%nat => 1 # 2 | _, _ => ri1 i k end.
Theorem C85_best_refuted : exists ans s p, zOptSolvePSO bowl 1 ri2 (fun _ _ _ _ => 0%Q) 0%Q 10 [0%Q] [4%Q] 1 0%Q 2 2%Q 2%Q 1%Q = Ok (Some (1%nat, ans, 4%Q)) /\
  (bowl ans == 4)%Q /\
  (s0 <- _zOptPSOSwarmCreate bowl 1 ri2 2 [0%Q] [4%Q] [(-4)%Q] [4%Q] 2%Q 2%Q ;; _zOptPSOSwarmUpdate bowl 1 (fun _ _ _ _ => 0%Q) 0%Q 0 s0 [0%Q] [4%Q] [(-4)%Q] [4%Q]) = Ok (s, false) /\
  In p (parts s) /\ (bowl (px p) == 0)%Q.
Proof.
  eexists _, _, _. split; [vm_compute; reflexivity|]. split; [reflexivity|]. split; [vm_compute; reflexivity|]. split; [right; left; reflexivity|]. reflexivity.
Qed.
Print Assumptions C85_best_refuted.
(** A swarm without particles is read out of bounds. *)
Theorem C85_no_particles_refuted : zOptSolvePSO bowl 1 ri1 (fun _ _ _ _ => 0%Q) 0%Q 10 [0%Q] [4%Q] 1 0%Q 0 2%Q 2%Q 1%Q = UB.
Proof. reflexivity. Qed.
Print Assumptions C85_no_particles_refuted.

(** the hypotheses of the theorems hold for the box [0,4], random numbers 1/2 and two particles *)
Example C85_ex_hyps : length [4] = length [0] /\ (forall j, (j < length [0])%nat -> nth j [0] 0 <= nth j [4] 0) /\
  (forall i k : nat, (k < 2)%nat -> 0 <= (fun _ _ => / 2) i k <= 1) /\ (0 < 2)%nat.
Proof. split; [reflexivity|]. split. { intros [|j] Hj; cbn in *; [lra|lia]. } split; [intros; lra|lia]. Qed.
