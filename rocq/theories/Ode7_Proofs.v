(** The corrector iteration of the Adams method, and implicit methods from solvers that find existing zeros. *)
From Coq Require Import Reals Lra Lia Psatz.
From Verif Require Import Prelude Prelude_Proofs Scalar RealLib Fmat Fmat_Proofs
  Ode_Model Ode_Spec Ode_Proofs Ode2_Proofs Ode4_Proofs Ode5_Proofs.
Local Open Scope R_scope.

(** *** Adams *)
Section Corr.
  Variables (n : nat) (f : R -> fvec R -> fvec R).
  Notation upd := (_zODEUpdateAdams f dcat dcat (dzero n)).
  Lemma upd_ok t x xo w dt h : (1 <= length h)%nat -> (vlen w <= length h)%nat ->
    exists y, upd t x xo w dt h = Ok (f t xo :: tl h, y) /\ vlen y = vlen x /\
      forall i, vel y i = vel x i + dt * rsum (vlen w) (fun j => vel w j * vel (nth j (f t xo :: tl h) dv) i).
  Proof.
    intros L1 L2. destruct h as [|a r]; [cbn in L1; lia|]. unfold _zODEUpdateAdams. cbn [tl].
    destruct (RingLinearSum_ok n w (f t xo :: r)) as (v & E & Lv & Hv); [cbn in *; lia|].
    rewrite E. cbn [bind]. eexists. split; [reflexivity|]. split; [reflexivity|].
    intros i. cbn [dcat vel]. rewrite Hv. rs. ring.
  Qed.
  Variables (t : R) (x : fvec R) (w : fvec R) (dt : R) (r : list (fvec R)).
  Hypothesis Lw : (vlen w <= S (length r))%nat.
  Definition nextz (z : fvec R) : fvec R :=
    match upd t x z w dt (dv :: r) with Ok (_, y) => y | UB => z end.
  Lemma nextz_ok a z : upd t x z w dt (a :: r) = Ok (f t z :: r, nextz z) /\ vlen (nextz z) = vlen x /\
      forall i, vel (nextz z) i = vel x i + dt * rsum (vlen w) (fun j => vel w j * vel (nth j (f t z :: r) dv) i).
  Proof.
    destruct (upd_ok t x z w dt (dv :: r)) as (y & E & L & H); [cbn; lia|cbn; lia|].
    unfold nextz. rewrite E. split; [exact E|split; auto].
  Qed.
  Fixpoint zit (z : fvec R) (k : nat) : fvec R := match k with O => z | S k => nextz (zit z k) end.
  Lemma zit_S z k : zit (nextz z) k = zit z (S k).
  Proof. induction k; cbn in *; congruence. Qed.
  (** the answer of the corrector: the first iterate within [tol] of its predecessor; with [iter] iterations
      spent, the last one but one *)
  Lemma corr_ok tol : forall iter a z zo,
    exists h' k, adams_corr f dcat dcat ddist (dzero n) tol iter t x z zo w dt (a :: r) = Ok (h', k) /\
    (exists b, h' = b :: r) /\
    ((exists k', (k' < iter)%nat /\ k = zit z (S k') /\ ddist (zit z k') (zit z (S k')) <= tol /\
        forall l, (l < k')%nat -> tol < ddist (zit z l) (zit z (S l))) \/
     ((forall l, (l < iter)%nat -> tol < ddist (zit z l) (zit z (S l))) /\ k = match iter with O => zo | S i => zit z i end)).
  Proof.
    induction iter as [|it IH]; intros a z zo.
    - cbn. eexists _, _. split; [reflexivity|]. split; [eauto|]. right. split; [intros; lia|reflexivity].
    - cbn [adams_corr]. destruct (nextz_ok a z) as (E & _ & _). rewrite E. cbn [bind].
      rewrite is_tol_R. rewrite (Rabs_right (ddist z (nextz z))).
      2:{ unfold ddist. apply Rle_ge. apply sqrt_pos. }
      destruct (Rleb_spec (ddist z (nextz z)) tol) as [D|D].
      + eexists _, _. split; [reflexivity|]. split; [eauto|]. left. exists 0%nat.
        split; [lia|]. split; [reflexivity|]. split; [exact D|]. intros; lia.
      + destruct (IH (f t z) (nextz z) z) as (h' & k & E' & B & H).
        exists h', k. split; [exact E'|]. split; [exact B|].
        destruct H as [(k' & H1 & H2 & H3 & H4)|(H1 & H2)].
        * left. exists (S k'). split; [lia|]. rewrite <- (zit_S z k'), <- (zit_S z (S k')). split; [exact H2|]. split; [exact H3|].
          intros [|l] Hl; [cbn [zit]; apply Rnot_le_lt; exact D|]. rewrite <- (zit_S z l), <- (zit_S z (S l)). apply H4. lia.
        * right. split.
          -- intros [|l] Hl; [cbn [zit]; apply Rnot_le_lt; exact D|]. rewrite <- (zit_S z l), <- (zit_S z (S l)). apply H1. lia.
          -- rewrite H2. destruct it; [reflexivity|]. apply zit_S.
  Qed.
End Corr.

Lemma adams_correction n f tol iter (wb wm : fvec R) h x2 t x dt :
  (1 <= length h)%nat -> vlen wb = length h -> vlen wm = length h -> vlen x = n -> (1 <= iter)%nat ->
  exists (h' : list (fvec R)) (x' : fvec R) (z : nat -> fvec R),
    zODEUpdateAdams f dcat dcat ddist (dzero n) tol iter wb wm h x2 t x dt = Ok (h', x') /\
    (forall k, vlen (z k) = n) /\
    (forall i, vel (z O) i = vel x i + dt * rsum (length h) (fun j => vel wb j * vel (nth j (f t x :: h) dv) i)) /\
    (forall k i, vel (z (S k)) i =
       vel x i + dt * rsum (length h) (fun j => vel wm j * vel (nth j (f (t + dt) (z k) :: f t x :: h) dv) i)) /\
    ((exists k, (k < iter)%nat /\ x' = z (S k) /\ ddist (z k) (z (S k)) <= tol /\
        forall l, (l < k)%nat -> tol < ddist (z l) (z (S l))) \/
     ((forall l, (l < iter)%nat -> tol < ddist (z l) (z (S l))) /\ x' = z (iter - 1)%nat)).
Proof.
  intros Lh Lb Lm Lx Hi. unfold zODEUpdateAdams.
  set (h1 := ringdec h). assert (L1 : length h1 = length h) by apply ringdec_length.
  assert (T1 : forall k, nth k (tl h1) dv = nth (S k) h1 dv) by (destruct h1; [destruct k; reflexivity|reflexivity]).
  assert (LT1 : length (tl h1) = (length h - 1)%nat) by (destruct h1; cbn in *; lia).
  destruct (upd_ok n f t x x wb dt h1) as (z0 & E0 & L0 & H0); [lia|lia|].
  rewrite E0. cbn [bind]. set (h2 := f t x :: tl h1). set (h3 := ringdec h2).
  assert (L2 : length h2 = length h) by (cbn; lia).
  assert (L3 : length h3 = length h) by (unfold h3; rewrite ringdec_length; auto).
  assert (H3 : forall k, (S k < length h)%nat -> nth (S k) h3 dv = nth k (f t x :: h) dv).
  { intros k Hk. unfold h3. rewrite ringdec_nth by lia. unfold h2. destruct k; [reflexivity|]. cbn [nth].
    rewrite T1. unfold h1. rewrite ringdec_nth by lia. reflexivity. }
  destruct h3 as [|a r]; [cbn in L3; lia|].
  assert (Lr : (vlen wm <= S (length r))%nat) by (cbn in L3; lia).
  change (t + dt)%S with (t + dt).
  destruct (corr_ok n f (t + dt) x wm dt r Lr tol iter a z0 x2) as (h' & k & E & B & H).
  rewrite E. cbn [bind]. exists (ringinc h'), k, (zit n f (t + dt) x wm dt r z0).
  split; [reflexivity|]. split; [|split; [|split; [|]]].
  - intros [|j]; cbn [zit]; [lia|].
    destruct (nextz_ok n f (t + dt) x wm dt r Lr dv (zit n f (t + dt) x wm dt r z0 j)) as (_ & V & _). lia.
  - intros i. cbn [zit]. rewrite H0. rewrite Lb. do 2 f_equal. apply rsum_ext. intros j Hj. do 2 f_equal.
    destruct j; cbn [nth]; [reflexivity|]. rewrite T1. unfold h1. rewrite ringdec_nth by lia. reflexivity.
  - intros j i. cbn [zit].
    destruct (nextz_ok n f (t + dt) x wm dt r Lr dv (zit n f (t + dt) x wm dt r z0 j)) as (_ & _ & V).
    rewrite V. rewrite Lm. do 2 f_equal. apply rsum_ext. intros m Hm. do 2 f_equal.
    destruct m; cbn [nth]; [reflexivity|]. specialize (H3 m ltac:(lia)). cbn [nth] in H3. exact H3.
  - destruct H as [H|(H1 & H2)]; [left; exact H|right]. split; [exact H1|]. rewrite H2.
    destruct iter; [lia|]. cbn [Nat.sub]. rewrite Nat.sub_0_r. reflexivity.
Qed.

(** *** implicit methods *)
(** The solver finds a zero of any function that vanishes exactly at the vectors [P], if there is one. *)
Definition solver_finds (n : nat) (P : fvec R -> Prop) (solve : (fvec R -> fvec R) -> fvec R -> fvec R) : Prop :=
  forall r x, (forall y, vzero n (r y) <-> P y) -> (exists y, P y) -> vzero n (r (solve r x)).
Definition solver2_finds (n : nat) (P : fvec R * fvec R -> Prop)
    (solve : (fvec R * fvec R -> fvec R * fvec R) -> fvec R * fvec R -> fvec R * fvec R) : Prop :=
  forall r x, (forall k, (vzero n (fst (r k)) /\ vzero n (snd (r k))) <-> P k) -> (exists k, P k) ->
    vzero n (fst (r (solve r x))) /\ vzero n (snd (r (solve r x))).
(** the equations of the stages of a method with two stages *)
Definition rk_stages2 (n : nat) (f : R -> fvec R -> fvec R) (m : tableau) (t : R) (x : fvec R) (dt : R)
    (k : fvec R * fvec R) : Prop :=
  veq n (fst k) (f (t + tc m 0 * dt) (FV n (fun i => vel x i + dt * (ta m 0 0 * vel (fst k) i + ta m 0 1 * vel (snd k) i)))) /\
  veq n (snd k) (f (t + tc m 1 * dt) (FV n (fun i => vel x i + dt * (ta m 1 0 * vel (fst k) i + ta m 1 1 * vel (snd k) i)))).

Lemma beuler_iff n f t x dt y : ext_rhs n f ->
  vzero n (_zODE_BEuler_Func f dcat dsub (t + dt) dt x y) <-> rk_step n f tabBEuler t x dt y.
Proof.
  intros E. split.
  - apply (beuler_rk n f (fun _ _ => y) t x dt E).
  - intros (k & K & Y) i Hi. cbn.
    specialize (K 0%nat ltac:(cbn; lia) i Hi). specialize (Y i Hi) as Yi. cbn in K, Yi.
    rewrite Yi, K. replace (t + 1 * dt) with (t + dt) by ring.
    rewrite (E (t + dt) _ y); [|intros l Hl; cbn; rewrite (Y l Hl); cbn; ring|auto]. ring.
Qed.
Lemma tr_iff n f t x dt y : ext_rhs n f ->
  vzero n (_zODE_BEuler_Func f dcat dsub (t + dt) (1 / 2 * dt) (dcat x (1 / 2 * dt) (f t x)) y) <-> rk_step n f tabTR t x dt y.
Proof.
  intros E. split.
  - apply (tr_rk n f (fun _ _ => y) t x dt E).
  - intros (k & K & Y) i Hi. cbn.
    specialize (K 0%nat ltac:(cbn; lia) i Hi) as K0. specialize (K 1%nat ltac:(cbn; lia) i Hi) as K1.
    specialize (Y i Hi) as Yi. cbn in K0, K1, Yi.
    rewrite Yi, K0, K1. replace (t + 1 * dt) with (t + dt) by ring. replace (t + 0 * dt) with t by ring.
    rewrite (E (t + dt) _ y); [|intros l Hl; cbn; rewrite (Y l Hl); cbn; ring|auto].
    rewrite (E t _ x); [|intros l Hl; cbn; ring|auto]. rs. field.
Qed.
Lemma gauss_iff n f t x dt k : ext_rhs n f ->
  let s := R_sqrt.sqrt 3 / 6 in
  let r := _zODE_BK4_Func f dcat dsub (t + (1 / 2 + s) * dt) (t + (1 / 2 - s) * dt)
             (1 / 4 * dt) ((1 / 4 + s) * dt) ((1 / 4 - s) * dt) (1 / 4 * dt) x in
  (vzero n (fst (r k)) /\ vzero n (snd (r k))) <-> rk_stages2 n f tabGauss t x dt k.
Proof.
  intros E s r.
  assert (H1 : forall i, (i < n)%nat -> vel (fst (r k)) i = vel (fst k) i - vel (f (t + tc tabGauss 0 * dt) (FV n (fun i => vel x i + dt * (ta tabGauss 0 0 * vel (fst k) i + ta tabGauss 0 1 * vel (snd k) i)))) i).
  { intros i Hi. cbn. rs. f_equal. apply E; auto. intros l Hl. cbn. fold s. rs. ring. }
  assert (H2 : forall i, (i < n)%nat -> vel (snd (r k)) i = vel (snd k) i - vel (f (t + tc tabGauss 1 * dt) (FV n (fun i => vel x i + dt * (ta tabGauss 1 0 * vel (fst k) i + ta tabGauss 1 1 * vel (snd k) i)))) i).
  { intros i Hi. cbn. rs. f_equal. apply E; auto. intros l Hl. cbn. fold s. rs. ring. }
  clearbody r. split.
  - intros (Z1 & Z2). split; intros i Hi; [specialize (Z1 i Hi); rewrite H1 in Z1 by auto|specialize (Z2 i Hi); rewrite H2 in Z2 by auto]; lra.
  - intros (Z1 & Z2). split; intros i Hi; [rewrite H1, (Z1 i Hi) by auto|rewrite H2, (Z2 i Hi) by auto]; apply Rminus_diag_eq; reflexivity.
Qed.
Lemma radau_iff n f t x dt k : ext_rhs n f ->
  let r := _zODE_BK4_Func f dcat dsub (t + dt / 3) (t + dt) (-5 * (-1 / 12 * dt)) (-1 / 12 * dt) (3 * (1 / 4 * dt)) (1 / 4 * dt) x in
  (vzero n (fst (r k)) /\ vzero n (snd (r k))) <-> rk_stages2 n f tabRadau t x dt k.
Proof.
  intros E r.
  assert (H1 : forall i, (i < n)%nat -> vel (fst (r k)) i = vel (fst k) i - vel (f (t + tc tabRadau 0 * dt) (FV n (fun i => vel x i + dt * (ta tabRadau 0 0 * vel (fst k) i + ta tabRadau 0 1 * vel (snd k) i)))) i).
  { intros i Hi. cbn. rs. f_equal. replace (t + 1 / 3 * dt) with (t + dt / 3) by field. apply E; auto. intros l Hl. cbn. rs. field. }
  assert (H2 : forall i, (i < n)%nat -> vel (snd (r k)) i = vel (snd k) i - vel (f (t + tc tabRadau 1 * dt) (FV n (fun i => vel x i + dt * (ta tabRadau 1 0 * vel (fst k) i + ta tabRadau 1 1 * vel (snd k) i)))) i).
  { intros i Hi. cbn. rs. f_equal. replace (t + 1 * dt) with (t + dt) by field. apply E; auto. intros l Hl. cbn. rs. field. }
  clearbody r. split.
  - intros (Z1 & Z2). split; intros i Hi; [specialize (Z1 i Hi); rewrite H1 in Z1 by auto|specialize (Z2 i Hi); rewrite H2 in Z2 by auto]; lra.
  - intros (Z1 & Z2). split; intros i Hi; [rewrite H1, (Z1 i Hi) by auto|rewrite H2, (Z2 i Hi) by auto]; apply Rminus_diag_eq; reflexivity.
Qed.

Lemma beuler_ex n f solve t x dt : ext_rhs n f -> solver_finds n (rk_step n f tabBEuler t x dt) solve ->
  (exists y, rk_step n f tabBEuler t x dt y) -> rk_step n f tabBEuler t x dt (zODEUpdateBEuler f dcat dsub solve t x dt).
Proof. intros E F X. apply beuler_rk; auto. apply F; auto. intros y. apply beuler_iff; auto. Qed.
Lemma tr_ex n f solve t x dt : ext_rhs n f -> solver_finds n (rk_step n f tabTR t x dt) solve ->
  (exists y, rk_step n f tabTR t x dt y) -> rk_step n f tabTR t x dt (zODEUpdateTR f dcat dsub solve t x dt).
Proof. intros E F X. apply tr_rk; auto. apply F; auto. intros y. apply tr_iff; auto. Qed.
Lemma gauss_ex n f solve2 t x dt : ext_rhs n f -> solver2_finds n (rk_stages2 n f tabGauss t x dt) solve2 ->
  (exists k, rk_stages2 n f tabGauss t x dt k) -> rk_step n f tabGauss t x dt (zODEUpdateGauss f dcat dsub solve2 (dzero n) t x dt).
Proof. intros E F X. apply gauss_rk; auto; apply F; auto; intros k; apply gauss_iff; auto. Qed.
Lemma radau_ex n f solve2 t x dt : ext_rhs n f -> solver2_finds n (rk_stages2 n f tabRadau t x dt) solve2 ->
  (exists k, rk_stages2 n f tabRadau t x dt k) -> rk_step n f tabRadau t x dt (zODEUpdateRadau f dcat dsub solve2 (dzero n) t x dt).
Proof. intros E F X. apply radau_rk; auto; apply F; auto; intros k; apply radau_iff; auto. Qed.
