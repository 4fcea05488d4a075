(** Adams and Gear updates, implicit Runge-Kutta methods, deferred correction. *)
From Coq Require Import Reals Lra Lia Psatz.
From Coquelicot Require Import Coquelicot.
From Verif Require Import Prelude Prelude_Proofs Scalar RealLib Fmat Fmat_Proofs Misc_Model Misc_Proofs Pex_Spec Pex_Proofs
  Ode_Model Ode_Spec Ode_Proofs Ode2_Proofs Ode3_Proofs.
Local Open Scope R_scope.

(** *** Adams *)
Lemma RingLinearSum_ok n (w : fvec R) h : (vlen w <= length h)%nat ->
  exists v, zVecRingLinearSum dcat (dzero n) w h = Ok v /\ vlen v = n /\
    forall i, vel v i = rsum (vlen w) (fun k => vel w k * vel (nth k h dv) i).
Proof.
  intros L. unfold zVecRingLinearSum.
  match goal with |- context [for_ 0 (vlen w) ?g ?s] =>
   destruct (for_inv (fun j (v : fvec R) => vlen v = n /\ forall i, vel v i = rsum j (fun k => vel w k * vel (nth k h dv) i)) 0 (vlen w) g s)
     as (v & E & Lv & Hv) end.
  - lia.
  - split; reflexivity.
  - intros j v Hj (Lv & Hv). rewrite vget_ok by lia. cbn [bind]. rewrite (get_nth_A h j dv) by lia. cbn [bind].
    eexists. split; [reflexivity|]. split; [exact Lv|]. intros i. cbn [dcat vel rsum]. rewrite Hv. rs. ring.
  - exists v. auto.
Qed.
Lemma ringdec_length {A} (h : list A) : length (ringdec h) = length h.
Proof.
  unfold ringdec. destruct (rev h) as [|z r] eqn:E.
  - rewrite <- (rev_length h), E. reflexivity.
  - rewrite <- (rev_length h), E. cbn. rewrite rev_length. reflexivity.
Qed.
Lemma ringdec_nth {A} (h : list A) k d : (S k < length h)%nat -> nth (S k) (ringdec h) d = nth k h d.
Proof.
  intros H. unfold ringdec. destruct (rev h) as [|z r] eqn:E.
  - apply (f_equal (@length A)) in E. rewrite rev_length in E. cbn in E. lia.
  - cbn [nth]. assert (E' : h = rev r ++ [z]) by (rewrite <- (rev_involutive h), E; reflexivity).
    rewrite E'. rewrite app_nth1; [reflexivity|]. rewrite E', app_length in H. cbn in H. lia.
Qed.
Lemma ringinc_length {A} (h : list A) : length (ringinc h) = length h.
Proof. destruct h; cbn; auto. rewrite app_length. cbn. lia. Qed.
Lemma ringinc_nth {A} (h : list A) k d : (S k < length h)%nat -> nth k (ringinc h) d = nth (S k) h d.
Proof. destruct h; cbn; [lia|]. intros H. rewrite app_nth1 by lia. reflexivity. Qed.

Section Adams.
  Variables (n step : nat) (p : nat -> list R) (tol : R) (iter : nat).
  Hypothesis Hs : (1 <= step)%nat.
  Hypothesis Hp : forall i, (i < n)%nat -> (length (p i) <= step)%nat.
  Hypothesis Htol : 0 <= tol.
  Hypothesis Hit : (1 <= iter)%nat.
  Let f := poly_rhs n p.
  (** the history holds the derivatives at t-dt, t-2dt, ... *)
  Definition adams_hist (h : list (fvec R)) (t dt : R) : Prop :=
    length h = step /\ forall k, (k < step - 1)%nat -> forall i, (i < n)%nat ->
      vel (nth k h dv) i = peval (p i) (t - INR (S k) * dt).
  Lemma inner_adams (w : fvec R) e t (x xo : fvec R) dt h :
    vlen w = step -> (forall i, (i < step)%nat -> vel w i = wadams e step i) ->
    adams_hist (tl h ++ [dv]) t dt -> h <> [] ->
    exists y, _zODEUpdateAdams f dcat dcat (dzero n) t x xo w dt h = Ok (f t xo :: tl h, y) /\ vlen y = vlen x /\
      forall i, (i < n)%nat -> vel y i = vel x i + RInt (peval (p i)) (t + e * dt) (t + (e + 1) * dt).
  Proof.
    intros Lw Hw (Lh & Hh) NE. destruct h as [|z r]; [congruence|]. cbn [tl] in *.
    rewrite app_length in Lh. cbn [length] in Lh.
    unfold _zODEUpdateAdams.
    destruct (RingLinearSum_ok n w (f t xo :: r)) as (v & E & Lv & Hv); [cbn; lia|].
    rewrite E. cbn [bind]. eexists. split; [reflexivity|]. split; [reflexivity|].
    intros i Hi. cbn [dcat vel]. rewrite Hv, Lw.
    rewrite <- (adams_exact e step (p i) t dt (Hp i Hi)). rs. f_equal. rewrite Rmult_comm. f_equal.
    apply rsum_ext. intros k Hk. rewrite Hw by auto. f_equal. destruct k; cbn [nth].
    - cbn. f_equal. ring.
    - specialize (Hh k ltac:(lia) i Hi). rewrite app_nth1 in Hh by lia. exact Hh.
  Qed.
  Lemma adams_step h t (x x2 : fvec R) dt : vlen x = n -> adams_hist h t dt ->
    exists wb wm h' x',
      _zODESetWeightAdams step 1 = Ok wb /\ _zODESetWeightAdams step 0 = Ok wm /\
      zODEUpdateAdams f dcat dcat ddist (dzero n) tol iter wb wm h x2 t x dt = Ok (h', x') /\
      vlen x' = n /\ adams_hist h' (t + dt) dt /\
      forall i, (i < n)%nat -> vel x' i = vel x i + RInt (peval (p i)) t (t + dt).
  Proof.
    intros Lx (Lh & Hh).
    destruct (SetWeight_ok step 0 1 Hs ltac:(left; auto)) as (wb & EB & LB & HB).
    destruct (SetWeight_ok step (-1) 0 Hs ltac:(right; auto)) as (wm & EM & LM & HM).
    exists wb, wm.
    unfold zODEUpdateAdams.
    set (h1 := ringdec h).
    assert (L1 : length h1 = step) by (unfold h1; rewrite ringdec_length; auto).
    assert (T1 : forall k, nth k (tl h1) dv = nth (S k) h1 dv) by (destruct h1; [destruct k; reflexivity|reflexivity]).
    assert (LT1 : length (tl h1) = (step - 1)%nat) by (destruct h1; cbn in *; lia).
    assert (A1 : adams_hist (tl h1 ++ [dv]) t dt).
    { split; [rewrite app_length; cbn; lia|]. intros k Hk i Hi. rewrite app_nth1 by lia. rewrite T1.
      unfold h1. rewrite ringdec_nth by lia. apply Hh; auto. }
    destruct (inner_adams wb 0 t x x dt h1 LB HB A1) as (xo & E1 & Lo & Ho).
    { intros E. rewrite E in L1. cbn in L1. lia. }
    change (_zODEUpdateAdams f dcat dcat (dzero n) t x x wb dt (ringdec h)) with (_zODEUpdateAdams f dcat dcat (dzero n) t x x wb dt h1).
    rewrite E1. cbn [bind].
    set (h2 := f t x :: tl h1). set (h3 := ringdec h2).
    assert (L2 : length h2 = step) by (cbn; lia).
    assert (L3 : length h3 = step) by (unfold h3; rewrite ringdec_length; auto).
    assert (T3 : forall k, nth k (tl h3) dv = nth (S k) h3 dv) by (destruct h3; [destruct k; reflexivity|reflexivity]).
    assert (LT3 : length (tl h3) = (step - 1)%nat) by (destruct h3; cbn in *; lia).
    assert (H2 : forall k, (k < step)%nat -> forall i, (i < n)%nat -> vel (nth k h2 dv) i = peval (p i) (t - INR k * dt)).
    { intros k Hk i Hi. destruct k; cbn [h2 nth].
      - cbn. f_equal. ring.
      - destruct A1 as (_ & A1). specialize (A1 k ltac:(lia) i Hi). rewrite app_nth1 in A1 by lia. exact A1. }
    assert (A3 : adams_hist (tl h3 ++ [dv]) (t + dt) dt).
    { split; [rewrite app_length; cbn; lia|]. intros k Hk i Hi. rewrite app_nth1 by lia. rewrite T3.
      unfold h3. rewrite ringdec_nth by lia. rewrite H2 by lia. f_equal. rewrite S_INR. ring. }
    destruct (inner_adams wm (-1) (t + dt) x xo dt h3 LM HM A3) as (xn & E3 & Ln & Hn).
    { intros E. rewrite E in L3. cbn in L3. lia. }
    destruct iter as [|it]; [lia|]. cbn [adams_corr].
    change (t + dt)%S with (t + dt).
    rewrite E3. cbn [bind].
    assert (D : ddist xo xn = 0).
    { unfold ddist. rewrite dsum_R. rewrite rsum_0; [apply sqrt_0|]. intros i Hi. rewrite Lo, Lx in Hi.
      rewrite Ho, Hn by auto. rs. replace (t + dt + (-1) * dt) with (t + 0 * dt) by ring.
      replace (t + dt + (-1 + 1) * dt) with (t + (0 + 1) * dt) by ring. ring. }
    rewrite D, is_tol_R, Rabs_R0. replace (Rleb 0 tol) with true by (destruct (Rleb_spec 0 tol); [reflexivity|lra]). cbn [bind].
    eexists _, xn. split; [exact EB|]. split; [exact EM|]. split; [reflexivity|]. split; [lia|]. split.
    - split. { rewrite ringinc_length. cbn. lia. }
      intros k Hk i Hi. rewrite ringinc_nth by (cbn; lia). cbn [nth]. rewrite T3.
      unfold h3. rewrite ringdec_nth by lia. rewrite H2 by lia. f_equal. rewrite S_INR. ring.
    - intros i Hi. rewrite Hn by auto. f_equal.
      replace (t + dt + (-1) * dt) with t by ring. replace (t + dt + (-1 + 1) * dt) with (t + dt) by ring. reflexivity.
  Qed.
End Adams.

(** *** Gear *)
Definition gear_row (step k : nat) : R := nth k (nth (step - 1) gear_a []) 0.
Definition gear_w (step : nat) : R := nth (step - 1) gear_b 0.
Lemma gear_conditions step m : (1 <= step <= 6)%nat -> (m <= step)%nat ->
  0 ^ m + rsum step (fun k => gear_row step k * (- INR (S k)) ^ m) = if (m =? 1)%nat then gear_w step else 0.
Proof.
  intros Hs Hm. unfold gear_row, gear_w.
  destruct step as [|[|[|[|[|[|[|s]]]]]]]; try lia; destruct m as [|[|[|[|[|[|[|m]]]]]]]; try lia;
   cbn [rsum gear_a gear_b nth Nat.sub Nat.eqb INR pow]; rs; field.
Qed.
Lemma Derive_shift q t dt (g : nat -> R) N :
  (forall s, peval q (t + s * dt) = rsum N (fun k => g k * s ^ k)) -> (length q <= N)%nat -> (2 <= N)%nat ->
  dt * Derive (peval q) t = g 1%nat.
Proof.
  intros G L HN.
  assert (D1 : is_derive (fun s => peval q (t + s * dt)) 0 (dt * Derive (peval q) t)).
  { apply (is_derive_comp (V:=R_NormedModule) (peval q) (fun s => t + s * dt)).
    - replace (t + 0 * dt) with t by ring. apply Derive_correct. eexists. apply is_derive_peval.
    - auto_derive; auto. ring. }
  assert (D2 : is_derive (fun s => peval q (t + s * dt)) 0 (g 1%nat)).
  { apply (is_derive_ext (fun s => rsum N (fun k => g k * s ^ k))). { intros; symmetry; apply G. }
    clear - HN. destruct N as [|[|N]]; try lia. clear HN.
    apply (is_derive_ext (fun s => g 0%nat + s * g 1%nat + s * s * rsum N (fun k => g (S (S k)) * s ^ k))).
    { intros s. rewrite !rsum_S_l. cbn [pow].
      rewrite (rsum_ext N (fun i => g (S (S i)) * (s * (s * s ^ i))) (fun i => (s * s) * (g (S (S i)) * s ^ i))) by (intros; ring).
      rewrite rsum_scal. cbn [plus]. change (@eq R_AbsRing) with (@eq R). match goal with |- ?a = ?b => change (a = b :> R) end. ring. }
    set (r := fun s => rsum N (fun k => g (S (S k)) * s ^ k)).
    assert (X : ex_derive r 0).
    { unfold r. clear. induction N; cbn [rsum].
      - apply ex_derive_const.
      - apply (ex_derive_plus (V:=R_NormedModule)); [exact IHN|]. auto_derive. auto. }
    destruct X as (r' & X).
    change (fun s => g 0%nat + s * g 1%nat + s * s * rsum N (fun k => g (S (S k)) * s ^ k))
      with (fun s => g 0%nat + s * g 1%nat + s * s * r s).
    auto_derive. { repeat split; auto. exists r'. exact X. }
    ring. }
  rewrite <- (is_derive_unique _ _ _ D1). apply is_derive_unique. exact D2.
Qed.
Lemma gear_poly step q t dt : (1 <= step <= 6)%nat -> (length q <= S step)%nat ->
  peval q (t + dt) + rsum step (fun k => gear_row step k * peval q (t - INR k * dt)) =
  gear_w step * dt * Derive (peval q) (t + dt).
Proof.
  intros Hs L. destruct (shift_coef (t + dt) dt q) as (g' & G').
  set (g := fun k => if (k <? length q)%nat then g' k else 0).
  assert (G : forall s, peval q (t + dt + s * dt) = rsum (S step) (fun k => g k * s ^ k)).
  { intros s. rewrite G'. symmetry. rewrite (rsum_cut (S step) (length q)); [|lia|].
    - apply rsum_ext. intros i Hi. unfold g. destruct (Nat.ltb_spec i (length q)); [reflexivity|lia].
    - intros i Hi. unfold g. destruct (Nat.ltb_spec i (length q)); [lia|ring]. }
  rewrite Rmult_assoc, (Derive_shift q (t + dt) dt g (S step) G L ltac:(lia)).
  replace (peval q (t + dt)) with (rsum (S step) (fun m => g m * 0 ^ m)).
  2:{ rewrite <- G. f_equal. ring. }
  rewrite (rsum_ext step _ (fun k => rsum (S step) (fun m => g m * (gear_row step k * (- INR (S k)) ^ m)))).
  2:{ intros k Hk. replace (t - INR k * dt) with (t + dt + (- INR (S k)) * dt) by (rewrite S_INR; ring).
      rewrite G, <- rsum_scal. apply rsum_ext. intros; ring. }
  rewrite rsum_swap, <- rsum_add.
  rewrite (rsum_ext (S step) _ (fun m => if (m =? 1)%nat then gear_w step * g 1%nat else 0)).
  - rewrite (rsum_delta (S step) 1); [reflexivity|lia|].
    intros i Hi Hn. destruct (Nat.eqb_spec i 1); [contradiction|reflexivity].
  - intros m Hm. rewrite rsum_scal, <- Rmult_plus_distr_l, gear_conditions by lia.
    destruct (Nat.eqb_spec m 1) as [->|]; ring.
Qed.
