(** Lemmas for C80. *)
From Coq Require Import Reals Lra Lia Psatz.
From Verif Require Import Prelude Prelude_Proofs Scalar RealLib Fmat Fmat_Proofs LE_Model IP_Model Vop Root_Model Root_Proofs Qp_Spec Qp_Proofs Qp2_Proofs Nle_Model.

Section Sound.
  Context {T : Type} {ST : Scalar T}.
  Variables (ztol : T) (nan : T -> bool) (f : fvec T -> fvec T) (we : fvec T) (jac : fvec T -> fmat T -> res (fmat T)).
  Lemma step_fp fuel a var d x fp : step_loop ztol nan f fuel a var d = Ok (Some (x, fp)) -> fp = f x /\ vlen x = vlen var /\ zVecIsNan nan (f x) = false.
  Proof.
    revert a. induction fuel as [|n IH]; intros a; cbn [step_loop]; [discriminate|]. destruct (slt ztol a); [|discriminate].
    unfold zVecCatNC, vop2. destruct (_ && _); cbn [bind]; [|discriminate]. set (y := FV _ _).
    destruct (zVecIsNan nan (f y)) eqn:E; [apply IH|]. intros H; inversion H; subst. auto.
  Qed.
  Lemma nr_sound dir n i j var tol k e v : nr_loop ztol nan f we jac dir n i j var tol = Ok (Some (k, e), v) ->
    zVecIsTol tol (f v) = true /\ e = zNLEEval f we v /\ (i <= k < i + n)%nat /\ vlen v = vlen var.
  Proof.
    revert i j var. induction n as [|n IH]; intros i j var; cbn [nr_loop]; [discriminate|]. destruct (zVecIsTol tol (f var)) eqn:E.
    - intros H; inversion H; subst. repeat split; auto; lia.
    - destruct (jac var j) as [j'|]; cbn [bind]; [|discriminate]. destruct (dir j' (f var)) as [d|]; cbn [bind]; [|discriminate].
      destruct (zNLEStep ztol nan f var d) as [[[x fp]|]|] eqn:S; cbn [bind]; try discriminate.
      intros H. destruct (step_fp _ _ _ _ _ _ S) as (_ & L & _). destruct (IH _ _ _ H) as (A & B & C & D). repeat split; auto; try lia; congruence.
  Qed.
  Lemma broyden_sound n i j fv var d tol k e v : broyden_loop ztol nan f we jac n i j fv var d tol = Ok (Some (k, e), v) ->
    zVecIsTol tol (f v) = true /\ e = zNLEEval f we v /\ (i <= k < i + n)%nat /\ vlen v = vlen var.
  Proof.
    revert i j fv var d. induction n as [|n IH]; intros i j fv var d; cbn [broyden_loop]; [discriminate|].
    destruct (zLESolveGauss ztol j fv d) as [o|]; cbn [bind]; [|discriminate].
    match goal with |- context [bind ?m _] => destruct m as [jd|]; cbn [bind]; [|discriminate] end.
    destruct jd as [[j1 d1]|]; [|discriminate].
    destruct (zNLEStep ztol nan f var d1) as [[[x fp]|]|] eqn:S; cbn [bind]; try discriminate.
    destruct (step_fp _ _ _ _ _ _ S) as (-> & L & _).
    destruct (zVecIsTol tol (f x)) eqn:E.
    - intros H; inversion H; subst. repeat split; auto; lia.
    - destruct (broyden_update j1 (f x) d1) as [j2|]; cbn [bind]; [|discriminate].
      intros H. destruct (IH _ _ _ _ _ H) as (A & B & C & D). repeat split; auto; try lia; congruence.
  Qed.
End Sound.

Local Open Scope R_scope.
(** ** the numerical Jacobian *)
Definition bump (x : nat -> R) (i : nat) (h : R) : nat -> R := fun k => if (k =? i)%nat then x k + h else x k.
Section Jac.
  Variables (f : fvec R -> fvec R) (eps : R) (n : nat).
  Hypothesis Lf : forall x, vlen x = n -> vlen (f x) = n.
  Hypothesis Ef : forall x y, vlen x = n -> vlen y = n -> (forall i, (i < n)%nat -> vel x i = vel y i) -> forall k, (k < n)%nat -> vel (f x) k = vel (f y) k.
  Lemma jac_ng_ok var buf : vlen var = n -> vlen buf = (n * n)%nat ->
    exists var' buf', zNLEJacobiNG f eps n n var buf = Ok (var', buf') /\ vlen var' = n /\ vlen buf' = (n * n)%nat /\
      (forall i, (i < n)%nat -> vel var' i = vel var i) /\
      forall i k, (i < n)%nat -> (k < n)%nat -> buf_el n buf' i k =
        (vel (f (FV n (bump (vel var) i eps))) k - vel (f (FV n (bump (vel var) i (- eps)))) k) * (1 / 2 / eps).
  Proof.
    intros Lv Lb. unfold zNLEJacobiNG. rewrite Lv.
    set (D := fun i k => vel (f (FV n (bump (vel var) i eps))) k - vel (f (FV n (bump (vel var) i (- eps)))) k).
    match goal with |- context [for_ 0 n ?F (var, buf)] =>
      destruct (for_inv (fun k s => vlen (fst s) = n /\ vlen (snd s) = (n * n)%nat /\ (forall i, (i < n)%nat -> vel (fst s) i = vel var i) /\
        forall i c, (i < k)%nat -> (c < n)%nat -> vel (snd s) (n * i + c) = D i c) 0 n F (var, buf)) as ([v1 b1] & E & V1 & B1 & S1 & D1) end.
    - lia.
    - cbn. repeat split; auto. intros; lia.
    - intros i [v b] Hi (V1 & B1 & S1 & D1). cbn [fst snd] in *. rewrite vget_ok by lia. cbn [bind].
      rewrite vset_ok by lia. cbn [bind]. rewrite vset_ok by (cbn [vlen]; lia). cbn [bind vlen vel].
      set (vp := FV (vlen v) (fun k => if (k =? i)%nat then (vel v i + eps)%S else vel v k)).
      set (vm := FV (vlen v) (fun k => if (k =? i)%nat then (vel v i - eps)%S else if (k =? i)%nat then (vel v i + eps)%S else vel v k)).
      assert (Fp : forall k, (k < n)%nat -> vel (f vp) k = vel (f (FV n (bump (vel var) i eps))) k).
      { apply Ef; [cbn; auto|cbn; auto|]. intros k Hk. cbn [vel vp bump]. unfold bump. destruct (Nat.eqb_spec k i); [subst; rewrite S1 by lia; reflexivity|apply S1; lia]. }
      assert (Fm : forall k, (k < n)%nat -> vel (f vm) k = vel (f (FV n (bump (vel var) i (- eps)))) k).
      { apply Ef; [cbn; auto|cbn; auto|]. intros k Hk. cbn [vel vm]. unfold bump. destruct (Nat.eqb_spec k i); [subst; rewrite S1 by lia; cbn [ssub RealS]; lra|apply S1; lia]. }
      match goal with |- context [for_ 0 n ?F b] =>
        destruct (for_inv (fun c b' => vlen b' = (n * n)%nat /\ forall p, vel b' p = if (n * i <=? p)%nat && (p <? n * i + c)%nat then D i (p - n * i)%nat else vel b p) 0 n F b) as (b2 & E2 & B2 & D2) end.
      + lia.
      + split; auto. intros p. nb; auto.
      + intros c b' Hc (B2 & D2). fold vp vm. assert (vlen (f vp) = n) by (apply Lf; cbn; auto). assert (vlen (f vm) = n) by (apply Lf; cbn; auto). rewrite !vget_ok by lia. cbn [bind].
        assert (n * i + c < n * n)%nat by nia.
        rewrite vset_ok by lia. eexists. split; [reflexivity|]. cbn [vlen vel]. split; [auto|]. intros p. rewrite D2.
        fold vp vm. rewrite Fp, Fm by lia. cbn [ssub RealS]. destruct (Nat.eqb_spec p (n * i + c)) as [->|Hp].
        * nb. replace (n * i + c - n * i)%nat with c by lia. reflexivity.
        * nb; auto.
      + fold vp vm. rewrite E2. cbn [bind]. rewrite vset_ok by (cbn [vlen vm vp]; lia). cbn [bind]. eexists. split; [reflexivity|]. cbn [fst snd vlen vel].
        repeat split; auto.
        * intros k Hk. cbn [vel vm]. destruct (Nat.eqb_spec k i); [subst; apply S1; lia|apply S1; lia].
        * intros i' c Hi' Hc. rewrite D2. destruct (Nat.eq_dec i' i) as [->|Hn].
          -- nb. replace (n * i + c - n * i)%nat with c by lia. reflexivity.
          -- assert (n * i' + c < n * i)%nat by nia. nb. apply D1; lia.
    - rewrite E. cbn [bind fst snd] in *. unfold zVecMulDRC, zVecMulNC, vop1. rewrite Nat.leb_refl. cbn [bind]. eexists _, _. split; [reflexivity|].
      cbn [vlen]. repeat split; auto. intros i k Hi Hk. unfold buf_el. cbn [vel smul sdiv sofZ RealS]. rewrite D1 by auto. reflexivity.
  Qed.
End Jac.

(** ** Broyden *)
Lemma sqr_R v : zVecSqrNorm v = dot (vlen v) (vel v) (vel v).
Proof. apply ksum_R. Qed.
Lemma update_ok (j : fmat R) (fv d : fvec R) n : nr j = n -> nc j = n -> vlen fv = n -> vlen d = n ->
  exists j', broyden_update j fv d = Ok j' /\ nr j' = n /\ nc j' = n /\
   forall v i, (i < n)%nat -> mulv n (el j') v i = mulv n (el j) v i - vel fv i * (dot n (vel d) v / dot n (vel d) (vel d)).
Proof.
  intros H1 H2 H3 H4. unfold broyden_update, zMatCatDyadNC. rewrite H1, H2, H3, H4, Nat.leb_refl. cbn [andb]. eexists. split; [reflexivity|].
  cbn [nr nc el]. repeat split; auto. intros v i Hi. unfold mulv.
  rewrite (rsum_ext n _ (fun k => el j i k * v k + (- vel fv i / dot n (vel d) (vel d)) * (vel d k * v k))).
  - rewrite rsum_add, rsum_scal. unfold dot. unfold Rdiv. ring.
  - intros k Hk. nb. rewrite sqr_R, H4. cbn [sadd smul sdiv sopp s1 RealS]. unfold Rdiv. ring.
Qed.

(** ** successive substitution *)
Lemma iter_S {A} (g : A -> A) n x : Nat.iter (S n) g x = Nat.iter n g (g x).
Proof. induction n; cbn in *; auto. now rewrite IHn. Qed.
Lemma ss_ok (f : fvec R -> fvec R) ztol n m k x : (forall x, vlen x = m -> vlen (f x) = m) -> vlen x = m ->
  exists j, (j <= n)%nat /\ exists y, ss_loop ztol f n k x = Ok ((k + j)%nat, y) /\ vlen y = m /\ y = Nat.iter j f x /\
    ((j < n)%nat -> forall i, (i < m)%nat -> Rabs (vel (f y) i - vel y i) <= ztol).
Proof.
  intros Lf. revert k x. induction n as [|n IH]; intros k x Lx.
  { exists 0%nat. split; [lia|]. exists x. cbn. rewrite Nat.add_0_r. repeat split; auto. intros; lia. }
  cbn [ss_loop]. unfold zVecSubNC, vop2. cbn [vlen vzero]. rewrite (Lf x Lx), Lx, !Nat.leb_refl. cbn [andb bind].
  destruct (zVecIsTol ztol _) eqn:E.
  - exists 0%nat. split; [lia|]. exists x. cbn. rewrite Nat.add_0_r. repeat split; auto. intros _ i Hi. apply (istol_R _ _ E i Hi).
  - unfold zVecCopyNC, vop1. rewrite (Lf x Lx), Lx, Nat.leb_refl. cbn [bind].
    assert (X : FV m (fun i : nat => vel (f x) i) = f x) by (pose proof (Lf x Lx); destruct (f x); cbn in *; subst; reflexivity).
    rewrite X. destruct (IH (S k) (f x) (Lf x Lx)) as (j & Hj & y & E1 & L1 & V1 & T1). exists (S j). split; [lia|]. exists y.
    rewrite E1. repeat split; auto; try (f_equal; f_equal; lia).
    + rewrite iter_S. exact V1.
    + intros Hj'. apply T1. lia.
Qed.
