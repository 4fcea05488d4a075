(** C88: the oscillators. *)
From Coq Require Import List Arith Lia Reals Lra Psatz ZArith.
From Coq Require Import Floats.
From Verif Require Import Prelude Scalar RealLib Osc_Model Osc_Proofs.
Import ListNotations.
Local Open Scope R_scope.

(** the oscillator after the updates with the inputs and time steps of a list *)
Definition kruns (sn : R -> R) (o : @kura R) (l : list (R * R)) : kura := fold_left (fun o ud => _zOscUpdateKura sn o (fst ud) (snd ud)) l o.
Definition vruns {T} {ST : Scalar T} (o : @vdp T) (l : list (T * T)) : vdp := fold_left (fun o ud => _zOscUpdateVDP o (fst ud) (snd ud)) l o.
Definition elapsed (l : list (R * R)) : R := fold_right (fun ud s => snd ud + s) 0 l.

(** The phase after any inputs is within the entrainment gain of the natural rotation. *)
Theorem C88_kura_rate : forall sn wn ke po p0 w0 l, (forall x, Rabs (sn x) <= 1) -> (forall ud, In ud l -> 0 <= snd ud) ->
  Rabs (_zOscOutputKura (kruns sn (_zOscInitKura (zOscCreateKura wn ke po) p0 w0) l) - (p0 + wn * elapsed l)) <= Rabs ke * elapsed l.
Proof.
  intros sn wn ke po p0 w0 l Hsn. unfold _zOscInitKura, zOscCreateKura. cbn [k_wn k_ke k_po]. revert p0 w0. induction l as [|[u dt] l IH]; intros p0 w0 Hl.
  - unfold kruns, elapsed, _zOscOutputKura. cbn. replace (p0 - (p0 + wn * 0)) with 0 by lra. rewrite Rabs_R0. lra.
  - unfold kruns, elapsed. cbn [fold_left fold_right fst snd]. unfold _zOscUpdateKura at 2. cbn [k_wn k_ke k_po k_p]. cbv zeta.
    set (w := (wn + ke * sn (u - p0 - po))%S). specialize (IH (p0 + w * dt) w (fun ud H => Hl ud (or_intror H))). unfold kruns, elapsed in IH. set (t := fold_right (fun ud s => snd ud + s) 0 l) in *.
    change ((p0 + w * dt)%S) with (p0 + w * dt). set (q := _zOscOutputKura _) in *.
    pose proof (Hl (u, dt) (or_introl eq_refl)) as Hd. cbn [snd] in Hd.
    replace (q - (p0 + wn * (dt + t))) with ((q - (p0 + w * dt + wn * t)) + (w - wn) * dt) by lra.
    eapply Rle_trans; [apply Rabs_triang|]. rewrite Rmult_plus_distr_l, Rplus_comm. apply Rplus_le_compat; auto.
    rewrite Rabs_mult, (Rabs_pos_eq dt Hd). apply Rmult_le_compat_r; auto. replace (w - wn) with (ke * sn (u - p0 - po)) by (unfold w; rs; lra).
    rewrite Rabs_mult. rewrite <- (Rmult_1_r (Rabs ke)) at 2. apply Rmult_le_compat_l; [apply Rabs_pos|auto].
Qed.
Print Assumptions C88_kura_rate.

(** the inputs of a rotation with the frequency wu, sampled every dt *)
Definition rotation (u0 wu dt : R) (n : nat) : list (R * R) := map (fun i => (u0 + INR i * (wu * dt), dt)) (List.seq 0 n).
(** Entrainment: driven by a rotation whose frequency differs from the natural one by less than the gain, the oscillator locks: its
    delay converges to the angle s (plus the offset), from every start but the opposite phase, never moving away from it. *)
Theorem C88_kura_entrained : forall wn ke po p0 w0 u0 wu dt s, 0 < dt -> 0 < ke -> ke * dt <= 1 -> - (PI / 2) < s < PI / 2 -> ke * sin s = wu - wn ->
  - PI - s < u0 - p0 - po < PI - s ->
  let delay n := u0 + INR n * (wu * dt) - _zOscOutputKura (kruns sin (_zOscInitKura (zOscCreateKura wn ke po) p0 w0) (rotation u0 wu dt n)) - po in
  Un_cv delay s /\ forall n, Rabs (delay (S n) - s) <= Rabs (delay n - s).
Proof.
  intros wn ke po p0 w0 u0 wu dt s Hdt Hke Hkd Hs Hd H0 delay.
  assert (E : forall n, delay n = ph s (ke * dt) (u0 - p0 - po) n).
  { assert (G : forall n, delay n = ph s (ke * dt) (u0 - p0 - po) n /\ exists p w, kruns sin (_zOscInitKura (zOscCreateKura wn ke po) p0 w0) (rotation u0 wu dt n) = Kura wn ke po p w).
    { induction n as [|n [IH [p [w Ep]]]].
      - split; [|exists p0, w0; reflexivity]. unfold delay, kruns, rotation, _zOscOutputKura, _zOscInitKura. cbn. lra.
      - assert (Er : kruns sin (_zOscInitKura (zOscCreateKura wn ke po) p0 w0) (rotation u0 wu dt (S n)) = _zOscUpdateKura sin (Kura wn ke po p w) (u0 + INR n * (wu * dt)) dt).
        { unfold kruns, rotation in *. rewrite seq_S, map_app, fold_left_app. rewrite Ep. cbn [fold_left map fst snd plus]. reflexivity. }
        split; [|rewrite Er; unfold _zOscUpdateKura; cbn [k_wn k_ke k_po]; eauto].
        unfold delay in *. rewrite Er. rewrite Ep in IH. unfold _zOscOutputKura, _zOscUpdateKura in *. cbn [k_p k_wn k_ke k_po] in *. cbv zeta. cbn [k_p] in *.
        cbn [ph]. rewrite <- IH. rs. rewrite S_INR. replace wn with (wu - ke * sin s) by lra. ring. }
    intros n. apply G. }
  assert (K : 0 < ke * dt <= 1) by (split; [apply Rmult_lt_0_compat; auto|auto]).
  destruct (Rle_dec s (u0 - p0 - po)) as [H1|H1].
  - split.
    + pose proof (above_cv s (ke * dt) (u0 - p0 - po) Hs K ltac:(lra)) as C. intros e He. destruct (C e He) as [N HN]. exists N. intros n Hn. rewrite E. apply HN; auto.
    + intros n. rewrite !E. pose proof (above s (ke * dt) (u0 - p0 - po) Hs K ltac:(lra)) as A. destruct (A n) as [A1 A2], (A (S n)) as [A3 _]. rewrite !Rabs_right by lra. lra.
  - destruct (below s (ke * dt) (u0 - p0 - po) Hs K ltac:(lra)) as [A C]. split.
    + intros e He. destruct (C e He) as [N HN]. exists N. intros n Hn. rewrite E. apply HN; auto.
    + intros n. rewrite !E. destruct (A n) as [A1 A2], (A (S n)) as [A3 _]. rewrite !Rabs_left1 by lra. lra.
Qed.
Print Assumptions C88_kura_entrained.

(** ** van der Pol *)
(** An oscillator is made unless the term is tiny; its output starts at the given value. *)
Theorem C88_vdp_create : forall pix2 ztol t damp amp, zOscCreateVDP pix2 ztol t damp amp = None <-> Rabs t <= ztol.
Proof. intros. unfold zOscCreateVDP. rewrite is_tol_R. destruct (Rleb_spec (Rabs t) ztol); split; auto; try discriminate; tauto. Qed.
Print Assumptions C88_vdp_create.
Theorem C88_vdp_init : forall pix2 ztol t damp amp o x0 v0, zOscCreateVDP pix2 ztol t damp amp = Some o -> amp <> 0 -> _zOscOutputVDP (_zOscInitVDP o x0 v0) = x0.
Proof.
  intros pix2 ztol t damp amp o x0 v0 H Ha. unfold zOscCreateVDP in H. destruct (is_tol ztol t); [discriminate|]. injection H as <-. unfold _zOscOutputVDP, _zOscInitVDP. cbn [v_amp v_x]. rs. field. lra.
Qed.
Print Assumptions C88_vdp_init.
(** The outputs follow the van der Pol equation of the given term t, damping and amplitude, y'' + w (damp ((y/A)^2 - 1) y' + w y) + A u = 0
    with w = 2 pi / t and A = amp / 2, integrated by the semi-implicit Euler rule: [vdp_euler] is one step of (y, y'). *)
Definition vdp_euler (w damp A u dt : R) (s : R * R) : R * R :=
  let '(y, y') := s in let z := y' + (- (w * (damp * ((y / A) ^ 2 - 1) * y' + w * y)) - A * u) * dt in (y + z * dt, z).
Theorem C88_vdp_equation : forall pix2 ztol t damp amp o y0 z0 l, zOscCreateVDP pix2 ztol t damp amp = Some o -> amp <> 0 ->
  _zOscOutputVDP (vruns (_zOscInitVDP o y0 z0) l) =
  fst (fold_left (fun s ud => vdp_euler (pix2 / t) damp (amp / 2) (fst ud) (snd ud) s) l (y0, z0)).
Proof.
  intros pix2 ztol t damp amp o y0 z0 l H Ha. unfold zOscCreateVDP in H. destruct (is_tol ztol t); [discriminate|]. injection H as <-. unfold _zOscInitVDP. cbn [v_omega v_eps v_amp].
  unfold vruns. rs. replace (amp * (1 / 2)) with (amp / 2) by lra. assert (HA : amp / 2 <> 0) by lra. revert HA. generalize (amp / 2) as A. generalize (pix2 / t) as w. intros w A HA.
  revert y0 z0. induction l as [|[u dt] l IH]; intros y0 z0; cbn [fold_left fst snd].
  - unfold _zOscOutputVDP. cbn [v_amp v_x]. rs. field. auto.
  - unfold vdp_euler at 2. unfold _zOscUpdateVDP at 2. cbn [v_omega v_eps v_amp v_x v_v]. cbv zeta. rs. rewrite <- IH. f_equal. f_equal. f_equal; field; auto.
Qed.
Print Assumptions C88_vdp_equation.
(** Without damping and input the energy stays within a constant factor for ever, if the step is shorter than 2/omega; more
    precisely, v^2 + omega^2 x^2 - omega^2 dt x v is the same after any number of steps. *)
Theorem C88_vdp_conserved : forall o dt n, v_eps o = 0 ->
  let w := v_omega o in let e (o : vdp) := v_v o * v_v o + w * w * (v_x o * v_x o) in
  let q := vruns o (repeat (0, dt) n) in
  e q - w * w * dt * (v_x q * v_v q) = e o - w * w * dt * (v_x o * v_v o) /\ (2 - Rabs (w * dt)) * e q <= (2 + Rabs (w * dt)) * e o.
Proof.
  intros o dt n He w e q.
  assert (I : forall n o, v_eps o = 0 -> v_omega o = w -> v_omega (vruns o (repeat (0, dt) n)) = w /\
    e (vruns o (repeat (0, dt) n)) - w * w * dt * (v_x (vruns o (repeat (0, dt) n)) * v_v (vruns o (repeat (0, dt) n))) = e o - w * w * dt * (v_x o * v_v o)).
  { clear q He n. clearbody w. clear o. induction n as [|n IHn]; intros o He Hw; [auto|]. unfold vruns. cbn [repeat fold_left fst snd]. fold (vruns (_zOscUpdateVDP o 0 dt) (repeat (0, dt) n)).
    destruct (IHn (_zOscUpdateVDP o 0 dt)) as [A B]; auto. split; auto. rewrite B. unfold e, _zOscUpdateVDP. cbv zeta. cbn [v_x v_v]. rewrite He, Hw. rs. ring. }
  destruct (I n o He eq_refl) as [A B]. fold q in A, B. split; auto.
  assert (Y : forall o : vdp, Rabs (w * w * dt * (v_x o * v_v o)) <= Rabs (w * dt) / 2 * e o).
  { intros x. replace (w * w * dt * (v_x x * v_v x)) with ((w * dt) * (w * v_x x * v_v x)) by ring. rewrite Rabs_mult. replace (Rabs (w * dt) / 2 * e x) with (Rabs (w * dt) * (/ 2 * e x)) by (unfold Rdiv; ring). apply Rmult_le_compat_l; [apply Rabs_pos|].
    unfold e. apply Rabs_le. assert (0 <= (w * v_x x + v_v x) * (w * v_x x + v_v x)) by apply Rle_0_sqr. assert (0 <= (w * v_x x - v_v x) * (w * v_x x - v_v x)) by apply Rle_0_sqr. lra. }
  pose proof (Y o) as Y1. pose proof (Y q) as Y2. pose proof (Rle_abs (- (w * w * dt * (v_x o * v_v o)))) as Z1. rewrite Rabs_Ropp in Z1. pose proof (Rle_abs (w * w * dt * (v_x q * v_v q))) as Z2. lra.
Qed.
Print Assumptions C88_vdp_conserved.
(** The oscillator is odd: opposite start and inputs give the opposite output. *)
Theorem C88_vdp_odd : forall o x0 v0 l, v_amp o <> 0 ->
  _zOscOutputVDP (vruns (_zOscInitVDP o (- x0) (- v0)) (map (fun ud => (- fst ud, snd ud)) l)) = - _zOscOutputVDP (vruns (_zOscInitVDP o x0 v0) l).
Proof.
  intros o x0 v0 l Ha. unfold _zOscInitVDP. rs. replace (- x0 / v_amp o) with (- (x0 / v_amp o)) by (field; auto). replace (- v0 / v_amp o) with (- (v0 / v_amp o)) by (field; auto).
  generalize (x0 / v_amp o) (v0 / v_amp o). clear Ha. unfold vruns. induction l as [|[u dt] l IH]; intros x v; cbn [map fold_left fst snd].
  - unfold _zOscOutputVDP. cbn [v_amp v_x]. rs. ring.
  - unfold _zOscUpdateVDP at 2 4. cbn [v_omega v_eps v_amp v_x v_v]. cbv zeta. rewrite <- IH. do 2 f_equal. f_equal; rs; ring.
Qed.
Print Assumptions C88_vdp_odd.
(** At rest it stays at rest. *)
Theorem C88_vdp_rest : forall o l, v_x o = 0 -> v_v o = 0 -> (forall ud, In ud l -> fst ud = 0) -> _zOscOutputVDP (vruns o l) = 0.
Proof.
  intros o l. revert o. unfold vruns. induction l as [|[u dt] l IH]; intros o Hx Hv Hl; cbn [fold_left fst snd].
  - unfold _zOscOutputVDP. rewrite Hx. rs. ring.
  - pose proof (Hl (u, dt) (or_introl eq_refl)) as Hu. cbn [fst] in Hu. apply IH; [| |intros; apply Hl; right; auto]; unfold _zOscUpdateVDP; cbv zeta; cbn [v_x v_v]; rewrite Hx, Hv, Hu; rs; ring.
Qed.
Print Assumptions C88_vdp_rest.

(** "The output starts at the given value" is false for the amplitude 0: 0/0. *)
Theorem C88_vdp_amp_refuted : match zOscCreateVDP 6.283185307179586%float 0%float 1%float 1%float 0%float with
  | Some o => _zOscOutputVDP (_zOscInitVDP o 0%float 0%float) = nan | None => False end.
Proof. vm_compute. reflexivity. Qed.
Print Assumptions C88_vdp_amp_refuted.
(** "The output is drawn to the given amplitude" is false for coarse steps: from twice the amplitude, 2, the output is not a
    number after 12 steps of a sixth of the term. *)
Theorem C88_vdp_limit_refuted : match zOscCreateVDP 6%float 0%float 6%float 1%float 2%float with
  | Some o => _zOscOutputVDP (vruns (_zOscInitVDP o 4%float 0%float) (repeat (0%float, 1%float) 12)) = nan | None => False end.
Proof. vm_compute. reflexivity. Qed.
Print Assumptions C88_vdp_limit_refuted.

(** the hypotheses of the entrainment hold for equal frequencies and any start within half a turn *)
Example C88_ex_entrained : 0 < / 10 /\ 0 < 2 /\ 2 * / 10 <= 1 /\ - (PI / 2) < 0 < PI / 2 /\ 2 * sin 0 = 3 - 3 /\ - PI - 0 < 3 - 0 - 0 < PI - 0.
Proof. pose proof PI_RGT_0. rewrite sin_0. pose proof (PI2_3_2). repeat split; lra. Qed.
