(** C98: finite Fourier series. *)
From Coq Require Import Reals Lra Lia List Arith ZArith.
From Verif Require Import Prelude Prelude_Proofs Scalar RealLib Fmat Fmat_Proofs Four_Model.
Local Open Scope R_scope.

(** a usable series: both arrays have as many elements as there are terms *)
Definition whole (f : @fourier R) : Prop := vlen (f_sc f) = f_n f /\ vlen (f_cc f) = f_n f.
(** the sum of a_i sin(i t) + b_i cos(i t) over the terms *)
Definition series (f : @fourier R) (t : R) : R := rsum (f_n f) (fun i => vel (f_sc f) i * sin (INR i * t) + vel (f_cc f) i * cos (INR i * t)).
Definition answer (o : res R) : R := match o with Ok x => x | UB => 0 end.
Lemma ofi_R i : ofi i = INR i.
Proof. unfold ofi. rs. symmetry. apply INR_IZR_INZ. Qed.

(** Allocation and the setters keep the series usable: a new series is 0; a coefficient of a valid index replaces the old one, with
    the sine coefficient of the constant term kept 0; an invalid index changes nothing. *)
Theorem C98_set : forall (f : @fourier R) i c, whole f ->
  whole (zFourierAlloc (f_n f)) /\ (forall t, series (zFourierAlloc (f_n f)) t = 0) /\
  exists g h, zFourierSetSinCoeff f i c = Ok g /\ zFourierSetCosCoeff f i c = Ok h /\ whole g /\ whole h /\
    if (0 <=? i)%Z && (i <? Z.of_nat (f_n f))%Z then forall t,
      series g t = series f t + ((if (i =? 0)%Z then 0 else c) - vel (f_sc f) (Z.to_nat i)) * sin (IZR i * t) /\
      series h t = series f t + (c - vel (f_cc f) (Z.to_nat i)) * cos (IZR i * t)
    else g = f /\ h = f.
Proof.
  intros f i c (H1 & H2). split; [split; reflexivity|]. split.
  { intros t. unfold series, zFourierAlloc. cbn [f_n f_sc f_cc vel]. apply rsum_0. intros. rs. ring. }
  unfold zFourierSetSinCoeff, zFourierSetCosCoeff. destruct ((0 <=? i)%Z && (i <? Z.of_nat (f_n f))%Z)%bool eqn:B.
  - apply andb_true_iff in B as [B1 B2]. apply Z.leb_le in B1. apply Z.ltb_lt in B2. rewrite !vset_ok by lia. cbn [bind]. do 2 eexists. split; [reflexivity|]. split; [reflexivity|].
    split; [split; auto|]. split; [split; auto|]. intros t. unfold series. cbn [f_n f_sc f_cc vel vlen]. set (k := Z.to_nat i).
    assert (K : INR k = IZR i) by (unfold k; rewrite INR_IZR_INZ, Z2Nat.id; auto). assert (Hk : (k < f_n f)%nat) by (unfold k; lia).
    rewrite !(rsum_split (f_n f) k) by auto. rewrite Nat.eqb_refl, K.
    assert (E1 : forall (F G : nat -> R) lo n, (forall i, (i < n)%nat -> (lo + i)%nat <> k) -> rsum n (fun j => (if (lo + j =? k)%nat then F j else G j)) = rsum n G).
    { intros F G lo n H. apply rsum_ext. intros j Hj. specialize (H j Hj). destruct (Nat.eqb_spec (lo + j) k); auto; contradiction. }
    split.
    + rewrite (rsum_ext k _ (fun i0 => vel (f_sc f) i0 * sin (INR i0 * t) + vel (f_cc f) i0 * cos (INR i0 * t))) by (intros j Hj; destruct (Nat.eqb_spec j k); [lia|reflexivity]).
      rewrite (rsum_ext (f_n f - S k) _ (fun j => vel (f_sc f) (S k + j) * sin (INR (S k + j) * t) + vel (f_cc f) (S k + j) * cos (INR (S k + j) * t)))
        by (intros j Hj; destruct (Nat.eqb_spec (S k + j) k); [lia|reflexivity]). rs. destruct (i =? 0)%Z; ring.
    + rewrite (rsum_ext k _ (fun i0 => vel (f_sc f) i0 * sin (INR i0 * t) + vel (f_cc f) i0 * cos (INR i0 * t))) by (intros j Hj; destruct (Nat.eqb_spec j k); [lia|reflexivity]).
      rewrite (rsum_ext (f_n f - S k) _ (fun j => vel (f_sc f) (S k + j) * sin (INR (S k + j) * t) + vel (f_cc f) (S k + j) * cos (INR (S k + j) * t)))
        by (intros j Hj; destruct (Nat.eqb_spec (S k + j) k); [lia|reflexivity]). ring.
  - exists f, f. repeat split; auto.
Qed.

Lemma val_ok f t : whole f -> zFourierVal sin cos f t = Ok (series f t).
Proof.
  intros (H1 & H2). unfold zFourierVal.
  match goal with |- for_ 0 ?n ?g ?z = _ => destruct (for_inv (fun k v => v = rsum k (fun i => vel (f_sc f) i * sin (INR i * t) + vel (f_cc f) i * cos (INR i * t))) 0 n g z) as (v & E & ->) end; auto; [lia|].
  intros k v Hk ->. rewrite !vget_ok by lia. cbn [bind]. eexists. split; [reflexivity|]. rewrite ofi_R. rs. reflexivity.
Qed.
Lemma vel_ok f t : whole f -> zFourierVel sin cos f t = Ok (rsum (f_n f) (fun i => INR i * (vel (f_sc f) i * cos (INR i * t) - vel (f_cc f) i * sin (INR i * t)))).
Proof.
  intros (H1 & H2). unfold zFourierVel.
  match goal with |- for_ 0 ?n ?g ?z = _ => destruct (for_inv (fun k v => v = rsum k (fun i => INR i * (vel (f_sc f) i * cos (INR i * t) - vel (f_cc f) i * sin (INR i * t)))) 0 n g z) as (v & E & ->) end; auto; [lia|].
  intros k v Hk ->. rewrite !vget_ok by lia. cbn [bind]. eexists. split; [reflexivity|]. rewrite ofi_R. rs. reflexivity.
Qed.
Lemma acc_ok f t : whole f -> (Z.of_nat (f_n f) <= 46341)%Z ->
  zFourierAcc sin cos f t = Ok (rsum (f_n f) (fun i => - (INR i * INR i * (vel (f_sc f) i * sin (INR i * t) + vel (f_cc f) i * cos (INR i * t))))).
Proof.
  intros (H1 & H2) B. unfold zFourierAcc.
  match goal with |- for_ 0 ?n ?g ?z = _ => destruct (for_inv (fun k v => v = rsum k (fun i => - (INR i * INR i * (vel (f_sc f) i * sin (INR i * t) + vel (f_cc f) i * cos (INR i * t))))) 0 n g z) as (v & E & ->) end; auto; [lia|].
  intros k v Hk ->. rewrite !vget_ok by lia. cbn [bind]. destruct (Z.ltb_spec 2147483647 (Z.of_nat k * Z.of_nat k)); [nia|]. eexists. split; [reflexivity|]. rewrite ofi_R. rs.
  rewrite mult_IZR, <- INR_IZR_INZ. cbn [rsum]. ring.
Qed.
Lemma dsum N (f f' : nat -> R -> R) t : (forall k, derivable_pt_lim (f k) t (f' k t)) -> derivable_pt_lim (fun t => rsum N (fun k => f k t)) t (rsum N (fun k => f' k t)).
Proof. intros H. induction N as [|N IH]; [apply derivable_pt_lim_const|]. cbn [rsum]. apply (derivable_pt_lim_plus (fun t => rsum N (fun k => f k t)) (f N)); auto. Qed.
Lemma dext (f g : R -> R) x l : (forall t, f t = g t) -> derivable_pt_lim f x l -> derivable_pt_lim g x l.
Proof. intros E H e He. destruct (H e He) as (d & Hd). exists d. intros h. rewrite <- !E. apply Hd. Qed.
Lemma dsin k t : derivable_pt_lim (fun t => sin (k * t)) t (k * cos (k * t)).
Proof. replace (k * cos (k * t)) with (cos (k * t) * (k * 1)) by ring. apply (derivable_pt_lim_comp (fun t => k * t) sin); [apply (derivable_pt_lim_scal (fun t => t)); apply derivable_pt_lim_id|apply derivable_pt_lim_sin]. Qed.
Lemma dcos k t : derivable_pt_lim (fun t => cos (k * t)) t (- k * sin (k * t)).
Proof. replace (- k * sin (k * t)) with (- sin (k * t) * (k * 1)) by ring. apply (derivable_pt_lim_comp (fun t => k * t) cos); [apply (derivable_pt_lim_scal (fun t => t)); apply derivable_pt_lim_id|apply derivable_pt_lim_cos]. Qed.

(** The value is that of the series, the velocity is its derivative, and all answers have the period 2 pi. *)
Theorem C98_value : forall f t, whole f -> zFourierVal sin cos f t = Ok (series f t) /\ zFourierVal sin cos f (t + 2 * PI) = zFourierVal sin cos f t.
Proof.
  intros f t H. split; [now apply val_ok|]. rewrite !val_ok by auto. f_equal. apply rsum_ext. intros i _.
  replace (INR i * (t + 2 * PI)) with (INR i * t + 2 * INR i * PI) by ring. now rewrite sin_period, cos_period.
Qed.
Theorem C98_velocity : forall f, whole f -> forall t, (exists v, zFourierVel sin cos f t = Ok v) /\
  derivable_pt_lim (fun t => answer (zFourierVal sin cos f t)) t (answer (zFourierVel sin cos f t)).
Proof.
  intros f H t. rewrite vel_ok by auto. split; [eauto|]. cbn [answer]. apply (dext (series f)); [intros; rewrite val_ok by auto; reflexivity|]. unfold series.
  apply (dsum (f_n f) (fun i t => vel (f_sc f) i * sin (INR i * t) + vel (f_cc f) i * cos (INR i * t)) (fun i t => INR i * (vel (f_sc f) i * cos (INR i * t) - vel (f_cc f) i * sin (INR i * t)))).
  intros k. match goal with |- derivable_pt_lim _ _ ?l => replace l with (vel (f_sc f) k * (INR k * cos (INR k * t)) + vel (f_cc f) k * (- INR k * sin (INR k * t))) by ring end.
  apply (derivable_pt_lim_plus (fun t => vel (f_sc f) k * sin (INR k * t)) (fun t => vel (f_cc f) k * cos (INR k * t))).
  - apply (derivable_pt_lim_scal (fun t => sin (INR k * t))). apply dsin.
  - apply (derivable_pt_lim_scal (fun t => cos (INR k * t))). apply dcos.
Qed.
(** The acceleration is the derivative of the velocity, for at most 46341 terms. *)
Theorem C98_acceleration_partial : forall f, whole f -> (Z.of_nat (f_n f) <= 46341)%Z -> forall t, (exists v, zFourierAcc sin cos f t = Ok v) /\
  derivable_pt_lim (fun t => answer (zFourierVel sin cos f t)) t (answer (zFourierAcc sin cos f t)).
Proof.
  intros f H B t. rewrite acc_ok by auto. split; [eauto|]. cbn [answer].
  apply (dext (fun t => rsum (f_n f) (fun i => INR i * (vel (f_sc f) i * cos (INR i * t) - vel (f_cc f) i * sin (INR i * t))))); [intros; rewrite vel_ok by auto; reflexivity|].
  apply (dsum (f_n f) (fun i t => INR i * (vel (f_sc f) i * cos (INR i * t) - vel (f_cc f) i * sin (INR i * t))) (fun i t => - (INR i * INR i * (vel (f_sc f) i * sin (INR i * t) + vel (f_cc f) i * cos (INR i * t))))).
  intros k. match goal with |- derivable_pt_lim _ _ ?l => replace l with (INR k * (vel (f_sc f) k * (- INR k * sin (INR k * t)) - vel (f_cc f) k * (INR k * cos (INR k * t)))) by ring end.
  apply (derivable_pt_lim_scal (fun t => vel (f_sc f) k * cos (INR k * t) - vel (f_cc f) k * sin (INR k * t))).
  apply (derivable_pt_lim_minus (fun t => vel (f_sc f) k * cos (INR k * t)) (fun t => vel (f_cc f) k * sin (INR k * t))).
  - apply (derivable_pt_lim_scal (fun t => cos (INR k * t))). apply dcos.
  - apply (derivable_pt_lim_scal (fun t => sin (INR k * t))). apply dsin.
Qed.
(** With more terms the square of the index overflows. *)
Theorem C98_acceleration_refuted : forall {T} {ST : Scalar T} (sn cs : T -> T) (f : @fourier T) t, vlen (f_sc f) = f_n f -> vlen (f_cc f) = f_n f -> (46341 < Z.of_nat (f_n f))%Z ->
  zFourierAcc sn cs f t = UB.
Proof.
  intros T ST sn cs f t H1 H2 B. unfold zFourierAcc. set (k := Z.to_nat 46341).
  assert (K : forall (St : Type) (g : nat -> St -> res St) n lo k z, (lo <= k < lo + n)%nat -> (forall z, g k z = UB) -> loop n lo g z = UB).
  { intros St g. induction n as [|n IH]; intros lo q z Hk Hg; [lia|]. cbn [loop]. destruct (Nat.eq_dec lo q) as [->|].
    - rewrite Hg. reflexivity.
    - destruct (g lo z) as [z'|]; cbn [bind]; auto. apply (IH (S lo) q); auto. lia. }
  unfold for_. rewrite Nat.sub_0_r. apply (K T _ (f_n f) 0%nat k); [unfold k; lia|]. intros z. rewrite !vget_ok by (unfold k; lia). cbn [bind].
  unfold k. rewrite Z2Nat.id by lia. reflexivity.
Qed.
(** ** example: 3 sin t + 2 cos 2t *)
Example C98_case : exists f, whole f /\ f_n f = 3%nat /\ zFourierVal sin cos f 0 = Ok 2 /\ zFourierVel sin cos f 0 = Ok 3 /\ zFourierAcc sin cos f 0 = Ok (-8).
Proof.
  exists (Fourier 3 (FV 3 (fun i => match i with 1%nat => 3 | _ => 0 end)) (FV 3 (fun i => match i with 2%nat => 2 | _ => 0 end))).
  assert (W : whole (Fourier 3 (FV 3 (fun i => match i with 1%nat => 3 | _ => 0 end)) (FV 3 (fun i => match i with 2%nat => 2 | _ => 0 end)))) by (split; reflexivity).
  split; auto. split; auto. rewrite val_ok, vel_ok, acc_ok by (auto; cbn; lia). unfold series. cbn [f_n f_sc f_cc rsum vel]. rewrite !Rmult_0_r, sin_0, cos_0. cbn [INR].
  repeat split; f_equal; lra.
Qed.
Print Assumptions C98_set. Print Assumptions C98_value. Print Assumptions C98_velocity. Print Assumptions C98_acceleration_partial. Print Assumptions C98_acceleration_refuted.
