(** Implicit methods, deferred correction, Gear's update, quadratures and second-order solvers. *)
From Coq Require Import Reals Lra Lia Psatz.
From Coq Require Import FunctionalExtensionality.
From Coquelicot Require Import Coquelicot.
From Verif Require Import Prelude Prelude_Proofs Scalar RealLib Fmat Fmat_Proofs Pex_Spec Pex_Proofs
  Ode_Model Ode_Spec Ode_Proofs Ode2_Proofs Ode3_Proofs Ode4_Proofs.
Local Open Scope R_scope.

Definition vzero (n : nat) (x : fvec R) : Prop := forall i, (i < n)%nat -> vel x i = 0.
Definition vnear (n : nat) (e : R) (x : fvec R) : Prop := forall i, (i < n)%nat -> Rabs (vel x i) <= e.

(** *** implicit methods *)
Lemma beuler_rk n f solve t x dt : ext_rhs n f ->
  vzero n (_zODE_BEuler_Func f dcat dsub (t + dt) dt x (zODEUpdateBEuler f dcat dsub solve t x dt)) ->
  rk_step n f tabBEuler t x dt (zODEUpdateBEuler f dcat dsub solve t x dt).
Proof.
  set (y := zODEUpdateBEuler f dcat dsub solve t x dt). intros E Z.
  assert (Z' : forall i, (i < n)%nat -> vel y i = vel x i + dt * vel (f (t + dt) y) i).
  { intros i Hi. specialize (Z i Hi). cbn in Z. lra. }
  exists (fun _ => f (t + dt) y). split.
  - intros j Hj. unfold tabBEuler in *. cbn in Hj. idx j. unr.
    replace (t + 1 * dt) with (t + dt) by ring. apply E. intros i Hi. cbn. rewrite Z' by auto. ring.
  - intros i Hi. unfold tabBEuler. unr. rewrite Z' by auto. ring.
Qed.
Lemma tr_rk n f solve t x dt : ext_rhs n f ->
  vzero n (_zODE_BEuler_Func f dcat dsub (t + dt) (1 / 2 * dt) (dcat x (1 / 2 * dt) (f t x)) (zODEUpdateTR f dcat dsub solve t x dt)) ->
  rk_step n f tabTR t x dt (zODEUpdateTR f dcat dsub solve t x dt).
Proof.
  set (y := zODEUpdateTR f dcat dsub solve t x dt). intros E Z.
  assert (Z' : forall i, (i < n)%nat -> vel y i = vel x i + dt * (1 / 2 * vel (f t x) i + 1 / 2 * vel (f (t + dt) y) i)).
  { intros i Hi. specialize (Z i Hi). cbn in Z. lra. }
  exists (fun j => match j with O => f t x | _ => f (t + dt) y end). split.
  - intros j Hj. unfold tabTR in *. cbn in Hj. idx j; [|idx j]; unr.
    + replace (t + 0 * dt) with t by ring. apply E. intros i Hi. cbn. ring.
    + replace (t + 1 * dt) with (t + dt) by ring. apply E. intros i Hi. cbn. rewrite Z' by auto. ring.
  - intros i Hi. unfold tabTR. unr. rewrite Z' by auto. ring.
Qed.
Lemma gauss_rk n f solve2 t x dt : ext_rhs n f ->
  let s := R_sqrt.sqrt 3 / 6 in
  let r := _zODE_BK4_Func f dcat dsub (t + (1 / 2 + s) * dt) (t + (1 / 2 - s) * dt)
             (1 / 4 * dt) ((1 / 4 + s) * dt) ((1 / 4 - s) * dt) (1 / 4 * dt) x in
  let k := solve2 r (dzero n, dzero n) in
  vzero n (fst (r k)) -> vzero n (snd (r k)) ->
  rk_step n f tabGauss t x dt (zODEUpdateGauss f dcat dsub solve2 (dzero n) t x dt).
Proof.
  intros E s r k Z1 Z2.
  exists (fun j => match j with O => fst k | _ => snd k end). split.
  - intros j Hj. unfold tabGauss in *. fold s in Hj. fold s. cbn in Hj. idx j; [|idx j]; unr; intros i Hi.
    + specialize (Z1 i Hi). cbn in Z1.
      match type of Z1 with ?a - vel (f _ ?u) i = 0 => transitivity (vel (f (t + (1/2+s) * dt) u) i) end; [rs; lra|].
      apply E; auto. intros l Hl. cbn. ring.
    + specialize (Z2 i Hi). cbn in Z2.
      match type of Z2 with ?a - vel (f _ ?u) i = 0 => transitivity (vel (f (t + (1/2-s) * dt) u) i) end; [rs; lra|].
      apply E; auto. intros l Hl. cbn. ring.
  - intros i Hi. unfold tabGauss. fold s. unr.
    change (zODEUpdateGauss f dcat dsub solve2 (dzero n) t x dt) with (dcat (dcat x (dt * (1 / 2)) (fst k)) (dt * (1 / 2)) (snd k)).
    cbn. field.
Qed.
Lemma radau_rk n f solve2 t x dt : ext_rhs n f ->
  let r := _zODE_BK4_Func f dcat dsub (t + dt / 3) (t + dt) (-5 * (-1 / 12 * dt)) (-1 / 12 * dt) (3 * (1 / 4 * dt)) (1 / 4 * dt) x in
  let k := solve2 r (dzero n, dzero n) in
  vzero n (fst (r k)) -> vzero n (snd (r k)) ->
  rk_step n f tabRadau t x dt (zODEUpdateRadau f dcat dsub solve2 (dzero n) t x dt).
Proof.
  intros E r k Z1 Z2.
  exists (fun j => match j with O => fst k | _ => snd k end). split.
  - intros j Hj. unfold tabRadau in *. cbn in Hj. idx j; [|idx j]; unr; intros i Hi.
    + specialize (Z1 i Hi). cbn in Z1. replace (t + 1 / 3 * dt) with (t + dt / 3) by field.
      match type of Z1 with ?a - vel (f _ ?u) i = 0 => transitivity (vel (f (t + dt / 3) u) i) end; [rs; lra|].
      apply E; auto. intros l Hl. cbn. field.
    + specialize (Z2 i Hi). cbn in Z2. replace (t + 1 * dt) with (t + dt) by field.
      match type of Z2 with ?a - vel (f _ ?u) i = 0 => transitivity (vel (f (t + dt) u) i) end; [rs; lra|].
      apply E; auto. intros l Hl. cbn. field.
  - intros i Hi. unfold tabRadau. unr.
    change (zODEUpdateRadau f dcat dsub solve2 (dzero n) t x dt) with (dcat (dcat x (3 * (1 / 4 * dt)) (fst k)) (1 / 4 * dt) (snd k)).
    cbn. field.
Qed.

(** *** deferred correction *)
Section DC.
  Variable upd : R -> fvec R -> R -> fvec R.
  Definition dc_full t x h := upd t x h.
  Definition dc_half t x h := upd (t + h / 2) (upd t x (h / 2)) (h / 2).
  Inductive dc_chain : list (R * R) -> fvec R -> fvec R -> Prop :=
  | dc_nil x : dc_chain [] x x
  | dc_cons u h x y l z :
      R_sqrt.sqrt (rsum (vlen (dc_full u x h)) (fun i => (vel (dc_full u x h) i - vel (dc_half u x h) i) ^ 2)) <= 1 / 1000000 ->
      vlen y = vlen (dc_half u x h) ->
      (forall i, vel y i = 2 * vel (dc_half u x h) i - vel (dc_full u x h) i) ->
      dc_chain l y z -> dc_chain ((u, h) :: l) x z.
  Lemma dc_chain_app l1 l2 x y z : dc_chain l1 x y -> dc_chain l2 y z -> dc_chain (l1 ++ l2) x z.
  Proof. induction 1; cbn; intros; auto. econstructor; eauto. Qed.
  Lemma dc_S fuel t x dt : zODEUpdateDC dsub dmul ddist upd (S fuel) t x dt =
    (let x1 := upd t x dt in let x2 := upd (t + dt * (1 / 2)) (upd t x (dt * (1 / 2))) (dt * (1 / 2)) in
     if Rltb (1 / 1000000) (ddist x1 x2) then
       x <- zODEUpdateDC dsub dmul ddist upd fuel t x (dt * (1 / 2)) ;;
       zODEUpdateDC dsub dmul ddist upd fuel (t + dt * (1 / 2)) x (dt * (1 / 2))
     else Ok (dsub (dmul x2 2) x1)).
  Proof. reflexivity. Qed.
  Lemma dc_ok fuel : forall t x dt x', zODEUpdateDC dsub dmul ddist upd fuel t x dt = Ok x' ->
    exists l, dc_chain l x x' /\ covers t l (t + dt) /\
      Forall (fun uh => exists k, (k < fuel)%nat /\ snd uh = dt / 2 ^ k) l.
  Proof.
    induction fuel; intros t x dt x'; [discriminate|]. rewrite dc_S. cbv zeta.
    replace (dt * (1 / 2)) with (dt / 2) by field.
    destruct (Rltb (1 / 1000000) _) eqn:T.
    - destruct (zODEUpdateDC dsub dmul ddist upd fuel t x (dt / 2)) as [x1|] eqn:E1; [|discriminate].
      cbn [bind]. intros E2.
      destruct (IHfuel _ _ _ _ E1) as (l1 & C1 & V1 & A1).
      destruct (IHfuel _ _ _ _ E2) as (l2 & C2 & V2 & A2).
      exists (l1 ++ l2). split; [eapply dc_chain_app; eauto|]. split.
      { eapply covers_app; eauto. replace (t + dt) with (t + dt / 2 + dt / 2) by field. exact V2. }
      rewrite Forall_forall in *. intros uh Hin. apply in_app_or in Hin.
      assert (HH : exists k, (k < fuel)%nat /\ snd uh = dt / 2 / 2 ^ k) by (destruct Hin; auto).
      destruct HH as (k & Hk & HE); exists (S k); split; [lia|]; rewrite HE; cbn; field; apply pow_nonzero; lra.
    - intros [= <-]. exists [(t, dt)]. split; [|split; [cbn; auto|]].
      + econstructor; [| | |constructor].
        * apply Rltb_f in T. unfold ddist in T. rewrite dsum_R in T. cbn in T.
          erewrite rsum_ext; [exact T|]. intros; unfold dc_full, dc_half; cbn; ring.
        * reflexivity.
        * intros i. unfold dc_full, dc_half. cbn. ring.
      + constructor; [|constructor]. exists 0%nat. cbn. split; [lia|field].
  Qed.
End DC.
Definition tabMid := tab_of [[0;0]; [1/2;0]] [0;1] [0;1/2].
(** Richardson's extrapolation of Euler's method is the midpoint rule *)
Lemma dc_euler n f t x h y : ext_rhs n f ->
  (forall i, vel y i = 2 * vel (dc_half (zODEUpdateEuler f dcat) t x h) i - vel (dc_full (zODEUpdateEuler f dcat) t x h) i) ->
  rk_step n f tabMid t x h y.
Proof.
  intros E Y. set (k0 := f t x). set (x1 := dcat x (h / 2) k0). set (k1 := f (t + h / 2) x1).
  exists (fun j => match j with O => k0 | _ => k1 end). split.
  - intros j Hj. unfold tabMid in *. cbn in Hj. idx j; [|idx j]; unr.
    + replace (t + 0 * h) with t by ring. apply E. intros i Hi. cbn. ring.
    + replace (t + 1 / 2 * h) with (t + h / 2) by field. apply E. intros i Hi. cbn. field.
  - intros i Hi. unfold tabMid. unr. rewrite Y. cbn. fold k0. fold k1.
    change (f (t + h / 2) _) with k1. field.
Qed.

(** *** Gear *)
Section GearUpd.
  Variables (n step : nat) (p q : nat -> list R).
  Hypothesis Hs : (1 <= step <= 6)%nat.
  Hypothesis Hq : forall i, (i < n)%nat -> (length (q i) <= S step)%nat.
  (** q_i is a solution of x_i' = p_i( t ) *)
  Hypothesis Hpq : forall i, (i < n)%nat -> forall u, Derive (peval (q i)) u = peval (p i) u.
  Let f := poly_rhs n p.
  (** the history holds the values at t-dt, t-2dt, ... after its head *)
  Definition gear_hist (h : list (fvec R)) (t dt : R) : Prop :=
    length h = step /\ forall k, (1 <= k < step)%nat -> forall i, (i < n)%nat -> vel (nth k h dv) i = peval (q i) (t - INR k * dt).
  Lemma gear_a_nth k : (k < step)%nat -> nth k (firstn step (nth (step - 1) gear_a [])) 0 = gear_row step k.
  Proof.
    intros Hk. unfold gear_row. generalize (nth (step - 1) (@gear_a R RealS) []). intros l. revert k Hk l.
    clear. induction step; intros k Hk l; [lia|]. destruct l; cbn; [destruct k; reflexivity|].
    destruct k; [reflexivity|]. apply IHn. lia.
  Qed.
  Lemma gear_a_len : length (firstn step (nth (step - 1) (@gear_a R RealS) [])) = step.
  Proof. destruct step as [|[|[|[|[|[|[|s]]]]]]]; try lia; reflexivity. Qed.
  Lemma gear_func (g : gear R (fvec R)) h t dt x y : gr_a g = firstn step (nth (step - 1) gear_a []) -> gr_b g = gear_w step ->
    gr_hist g = x :: h -> length h = (step - 1)%nat ->
    exists r, _zODE_Gear_Func f dcat g t dt y = Ok r /\ forall i, vel r i =
       vel y i + rsum step (fun k => gear_row step k * vel (nth k (x :: h) dv) i) - gear_w step * dt * vel (f (t + dt) y) i.
  Proof.
    intros Ha Hb Hh L. unfold _zODE_Gear_Func. rewrite Ha, gear_a_len, Hh.
    match goal with |- context [for_ 0 step ?g ?s] =>
     destruct (for_inv (fun j (v : fvec R) => forall i, vel v i = vel y i + rsum j (fun k => gear_row step k * vel (nth k (x :: h) dv) i)) 0 step g s)
       as (v & E & Hv) end.
    - lia.
    - intros i. cbn. ring.
    - intros j v Hj Hv. rewrite (get_nth_A _ j 0) by (rewrite gear_a_len; lia). cbn [bind].
      rewrite (get_nth_A _ j dv) by (cbn; lia). cbn [bind].
      eexists. split; [reflexivity|]. intros i. rewrite gear_a_nth by lia. cbn [dcat vel rsum]. rewrite Hv. rs. ring.
    - rewrite E. cbn [bind]. eexists. split; [reflexivity|]. intros i. cbn [dcat vel]. rewrite Hv, Hb. rs. ring.
  Qed.
  Lemma gear_step (solver : (fvec R -> res (fvec R)) -> fvec R -> fvec R) (g : gear R (fvec R)) t x dt :
    gr_a g = firstn step (nth (step - 1) gear_a []) -> gr_b g = gear_w step ->
    gear_hist (gr_hist g) t dt ->
    (forall i, (i < n)%nat -> vel x i = peval (q i) t) ->
    let r := _zODE_Gear_Func f dcat (Gear (gr_a g) (gr_b g) (x :: tl (gr_hist g))) t dt in
    let x' := solver r x in
    (* the solver has found a zero *)
    (exists z, r x' = Ok z /\ vzero n z) ->
    exists g', zODEUpdateGear f dcat solver g t x dt = Ok (g', x') /\
      gr_a g' = gr_a g /\ gr_b g' = gr_b g /\ gear_hist (gr_hist g') (t + dt) dt /\
      forall i, (i < n)%nat -> vel x' i = peval (q i) (t + dt).
  Proof.
    intros Ha Hb (Lh & Hh) Hx r x' (w & Ew & Hw). subst r. unfold zODEUpdateGear.
    destruct (gr_hist g) as [|z h] eqn:EH; [cbn in Lh; lia|]. cbn [length] in Lh. cbn [tl] in *.
    set (g1 := Gear (gr_a g) (gr_b g) (x :: h)) in *.
    exists (Gear (gr_a g) (gr_b g) (ringdec (x :: h))).
    split; [reflexivity|]. split; [reflexivity|]. split; [reflexivity|]. split.
    - split. { cbn [gr_hist]. rewrite ringdec_length. cbn. lia. }
      intros k Hk i Hi. destruct k; [lia|]. cbn [gr_hist]. rewrite ringdec_nth by (cbn; lia).
      destruct k.
      + cbn [nth]. rewrite Hx by auto. f_equal. cbn. ring.
      + cbn [nth]. specialize (Hh (S k) ltac:(lia) i Hi). cbn [nth] in Hh. rewrite Hh. f_equal. rewrite !S_INR. ring.
    - intros i Hi.
      destruct (gear_func g1 h t dt x x' Ha Hb eq_refl ltac:(lia)) as (r1 & E1 & H1).
      rewrite E1 in Ew; injection Ew as <-; specialize (Hw i Hi); rewrite H1 in Hw.
      all: pose proof (gear_poly step (q i) t dt Hs (Hq i Hi)) as GP;
        rewrite Hpq in GP by auto; cbn [f poly_rhs vel] in Hw;
        rewrite (rsum_ext step _ (fun k => gear_row step k * peval (q i) (t - INR k * dt))) in Hw;
        [change (vel (f (t + dt) x') i) with (peval (p i) (t + dt)) in Hw; lra|].
      all: intros k Hk; destruct k; cbn [nth];
        [rewrite Hx by auto; do 2 f_equal; cbn; ring
        |specialize (Hh (S k) ltac:(lia) i Hi); cbn [nth] in Hh; rewrite Hh; reflexivity].
  Qed.
End GearUpd.
