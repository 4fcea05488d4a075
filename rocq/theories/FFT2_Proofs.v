From Coq Require Import Reals Lra.
From Coquelicot Require Import Coquelicot.
From Verif Require Import Prelude Prelude_Proofs Scalar RealLib Complex_Model Complex_Spec Complex_Proofs Complex2_Proofs Fmat Fmat_Proofs FFT_Model FFT_Spec FFT_Proofs.
Local Open Scope R_scope.
Local Notation cv := (fvec (@cplx R)).
Local Notation cm := (fmat (@cplx R)).
Local Notation CC := Complex.C.

Definition amp (n k : nat) : R := if Nat.eqb k 0 then 1 / INR n else 2 / INR n.
Definition hamp (k : nat) : R := if Nat.eqb k 0 then 1 else 1 / 2.
(** what the forward and backward transforms compute on complex vectors *)
Definition fwd (n : nat) (x : nat -> CC) (k : nat) : CC := Cmult (RtoC (amp n k)) (dft n (2 * PI / INR n) x k).
Definition bwd (n : nat) (x : nat -> CC) (l : nat) : CC := dft n (- (2 * PI / INR n)) (fun k => Cmult (RtoC (hamp k)) (x k)) l.

Lemma dft_ext n t x y k : (forall j, (j < n)%nat -> x j = y j) -> dft n t x k = dft n t y k.
Proof. intros H. unfold dft. apply csum_ext. intros j Hj. now rewrite H. Qed.
Lemma dft_scal n t c x k : dft n t (fun j => Cmult c (x j)) k = Cmult c (dft n t x k).
Proof. unfold dft. rewrite <- csum_scal_l. apply csum_ext. intros. ring. Qed.
Lemma fwd_ext n x y k : (forall j, (j < n)%nat -> x j = y j) -> fwd n x k = fwd n y k.
Proof. intros H. unfold fwd. now rewrite (dft_ext n _ x y). Qed.
Lemma bwd_ext n x y k : (forall j, (j < n)%nat -> x j = y j) -> bwd n x k = bwd n y k.
Proof. intros H. unfold bwd. apply dft_ext. intros j Hj. now rewrite H. Qed.
Lemma bwd_fwd n x l : (l < n)%nat -> bwd n (fwd n x) l = x l.
Proof.
  intros Hl. assert (0 < INR n) by (apply lt_0_INR; lia). unfold bwd, fwd.
  rewrite (dft_ext n _ _ (fun k => Cmult (RtoC (/ INR n)) (dft n (2 * PI / INR n) x k))).
  - rewrite dft_scal. change (fun k => dft n (2 * PI / INR n) x k) with (dft n (2 * PI / INR n) x). rewrite dft_inv by auto.
    rewrite Cmult_assoc, <- RtoC_mult. replace (/ INR n * INR n) with 1 by (field; lra). ring.
  - intros k _. rewrite Cmult_assoc, <- RtoC_mult. f_equal. f_equal. unfold hamp, amp. destruct (Nat.eqb k 0); field; lra.
Qed.
Lemma cscal_R (z : CC) k : cscal (T := R) z k = Cmult (RtoC k) z.
Proof. unfold cscal, Cmult, RtoC. cbn [fst snd]. rs. apply injective_projections; cbn [fst snd]; ring. Qed.
Lemma two_R : two (T := R) = 2. Proof. reflexivity. Qed.
Lemma half_R : half (T := R) = 1 / 2. Proof. reflexivity. Qed.
Lemma angle n : (0 < n)%nat -> 2 * PI / INR n * INR n = 2 * PI * IZR 1.
Proof. intros H. assert (0 < INR n) by (apply lt_0_INR; lia). field. lra. Qed.
Lemma angle' n : (0 < n)%nat -> - (2 * PI / INR n) * INR n = 2 * PI * IZR (-1).
Proof. intros H. assert (0 < INR n) by (apply lt_0_INR; lia). field. lra. Qed.

(** transform, then the zero frequency halved *)
Lemma fwd_step (v : cv) : (0 < vlen v)%nat ->
  exists w w', transform cos sin v (2 * PI / INR (vlen v)) = Ok w /\ vmod w 0 (fun z => cscal z half) = Ok w' /\ vlen w' = vlen v /\
    forall k, (k < vlen v)%nat -> Cmult (RtoC (2 / INR (vlen v))) (vel w' k) = fwd (vlen v) (vel v) k.
Proof.
  intros H. assert (0 < INR (vlen v)) by (apply lt_0_INR; lia).
  destruct (transform_ok v (2 * PI / INR (vlen v)) 1) as (w & E & L & V). { now apply angle. }
  exists w. unfold vmod. rewrite vget_ok by lia. cbn [bind]. rewrite vset_ok by lia.
  eexists; split; [exact E|]. split; [reflexivity|]. cbn [vlen vel]. split; auto.
  intros k Hk. unfold fwd, amp. destruct (Nat.eqb_spec k 0) as [->|N].
  - rewrite cscal_R, V, half_R, Cmult_assoc, <- RtoC_mult by auto. f_equal. f_equal. field. lra.
  - now rewrite V.
Qed.
Lemma bwd_step (v : cv) : (0 < vlen v)%nat ->
  exists u w, half_amp v = Ok u /\ vlen u = vlen v /\ transform cos sin u (- (2 * PI / INR (vlen v))) = Ok w /\ vlen w = vlen v /\
    forall k, (k < vlen v)%nat -> vel w k = bwd (vlen v) (vel v) k.
Proof.
  intros H. assert (0 < INR (vlen v)) by (apply lt_0_INR; lia).
  unfold half_amp, vmod. rewrite vget_ok by auto. cbn [bind]. rewrite vset_ok by auto. eexists. cbn [vlen vel].
  match goal with |- context [Ok ?x = Ok _] => set (u := x) end.
  destruct (transform_ok u (- (2 * PI / INR (vlen v))) (-1)) as (w & E & L & V). { now apply angle'. }
  exists w. split; [reflexivity|]. split; [reflexivity|]. split; [exact E|]. split; [exact L|].
  intros k Hk. rewrite V by auto. unfold bwd. change (vlen u) with (vlen v). apply dft_ext. intros j Hj. subst u. cbn [vel].
  unfold hamp. destruct (Nat.eqb_spec j 0) as [->|N]; rewrite !cscal_R.
  - rewrite Cmult_assoc, <- RtoC_mult. f_equal. f_equal. rewrite half_R, two_R. field.
  - reflexivity.
Qed.

Definition creal (x : nat -> R) (j : nat) : CC := RtoC (x j).
Lemma zFFT_ok (data : fvec R) : (0 < vlen data)%nat ->
  exists X, zFFT cos sin (2 * PI) data (vlen data) = Ok (Some X) /\ vlen X = vlen data /\
    forall k, (k < vlen data)%nat -> vel X k = fwd (vlen data) (creal (vel data)) k.
Proof.
  intros H. unfold zFFT. rewrite Nat.eqb_refl. cbn [negb]. rewrite ofn_R. rs.
  destruct (fwd_step (FV (vlen data) (fun i => (vel data i, 0)))) as (w & w' & E1 & E2 & L & V); auto. cbn [vlen] in *.
  rewrite E1. cbn [bind]. rewrite E2. cbn [bind]. eexists; split; [reflexivity|]. cbn [vlen vel]. split; auto.
  intros k Hk. rewrite cscal_R, two_R. exact (V k Hk).
Qed.
Lemma zFFTInv_ok (data : cv) : (0 < vlen data)%nat ->
  exists y, zFFTInv cos sin (2 * PI) data (vlen data) = Ok (Some y) /\ vlen y = vlen data /\
    forall k, (k < vlen data)%nat -> vel y k = fst (bwd (vlen data) (vel data) k).
Proof.
  intros H. unfold zFFTInv. rewrite Nat.eqb_refl. cbn [negb]. rewrite ofn_R. rs.
  destruct (bwd_step data H) as (u & w & E1 & _ & E2 & L & V). unfold half_amp in E1. rewrite E1. cbn [bind].
  replace (- (2 * PI) / INR (vlen data)) with (- (2 * PI / INR (vlen data))) by (unfold Rdiv; ring).
  rewrite E2. cbn [bind]. eexists; split; [reflexivity|]. cbn [vlen vel]. split; auto. intros k Hk. now rewrite V.
Qed.
Lemma fft_roundtrip (data : fvec R) : (0 < vlen data)%nat ->
  exists X y, zFFT cos sin (2 * PI) data (vlen data) = Ok (Some X) /\ zFFTInv cos sin (2 * PI) X (vlen data) = Ok (Some y) /\
    vlen y = vlen data /\ forall k, (k < vlen data)%nat -> vel y k = vel data k.
Proof.
  intros H. destruct (zFFT_ok data H) as (X & E & L & V). rewrite <- L in H.
  destruct (zFFTInv_ok X H) as (y & E' & L' & V'). rewrite L in *. exists X, y. repeat split; auto.
  intros k Hk. rewrite V' by auto. rewrite (bwd_ext _ _ (fwd (vlen data) (creal (vel data)))) by auto. now rewrite bwd_fwd.
Qed.

(** ** matrices *)
Lemma rows_loop (body : nat -> cm -> res cm) (H : (nat -> CC) -> nat -> CC) (m : cm) :
  (forall x y k, (forall j, (j < nc m)%nat -> x j = y j) -> (k < nc m)%nat -> H x k = H y k) ->
  (forall i m', (i < nr m)%nat -> nr m' = nr m -> nc m' = nc m ->
     exists w, body i m' = putrow m' i w /\ vlen w = nc m /\ forall k, (k < nc m)%nat -> vel w k = H (el m' i) k) ->
  exists m', for_ 0 (nr m) body m = Ok m' /\ nr m' = nr m /\ nc m' = nc m /\
    forall i j, (i < nr m)%nat -> (j < nc m)%nat -> el m' i j = H (el m i) j.
Proof.
  intros EXT HB.
  destruct (for_inv (fun i (m' : cm) => nr m' = nr m /\ nc m' = nc m /\
     (forall a j, (a < i)%nat -> (j < nc m)%nat -> el m' a j = H (el m a) j) /\
     (forall a j, (i <= a)%nat -> el m' a j = el m a j)) 0 (nr m) body m) as (m' & E & A & B & D & _).
  - lia.
  - repeat split; auto. intros; lia.
  - intros i m' Hi (A & B & D & F). destruct (HB i m') as (w & E & L & V); auto; [lia|]. rewrite E. unfold putrow.
    rewrite A, B, L, Nat.eqb_refl. destruct (Nat.ltb_spec i (nr m)); [|lia]. cbn [andb]. eexists; split; [reflexivity|].
    cbn [nr nc el]. repeat split; auto.
    + intros a j Ha Hj. destruct (Nat.eqb_spec a i) as [->|N]; [|apply D; lia]. rewrite V by auto. apply EXT; auto.
    + intros a j Ha. destruct (Nat.eqb_spec a i) as [->|N]; [lia|]. apply F. lia.
  - exists m'. repeat split; auto.
Qed.
Lemma cols_loop (body : nat -> cm -> res cm) (H : nat -> nat -> CC) (m : cm) :
  (forall j m', (j < nc m)%nat -> nr m' = nr m -> nc m' = nc m -> (forall a b, (j <= b)%nat -> el m' a b = el m a b) ->
     exists w, body j m' = putcol m' j w /\ vlen w = nr m /\ forall i, (i < nr m)%nat -> vel w i = H i j) ->
  exists m', for_ 0 (nc m) body m = Ok m' /\ nr m' = nr m /\ nc m' = nc m /\
    forall i j, (i < nr m)%nat -> (j < nc m)%nat -> el m' i j = H i j.
Proof.
  intros HB.
  destruct (for_inv (fun j (m' : cm) => nr m' = nr m /\ nc m' = nc m /\
     (forall a b, (a < nr m)%nat -> (b < j)%nat -> el m' a b = H a b) /\
     (forall a b, (j <= b)%nat -> el m' a b = el m a b)) 0 (nc m) body m) as (m' & E & A & B & D & _).
  - lia.
  - repeat split; auto. intros; lia.
  - intros j m' Hj (A & B & D & F). destruct (HB j m') as (w & E & L & V); auto; [lia|]. rewrite E. unfold putcol.
    rewrite A, B, L, Nat.eqb_refl. destruct (Nat.ltb_spec j (nc m)); [|lia]. cbn [andb]. eexists; split; [reflexivity|].
    cbn [nr nc el]. repeat split; auto.
    + intros a b Ha Hb. destruct (Nat.eqb_spec b j) as [->|N]; [now apply V|]. apply D; auto; lia.
    + intros a b Hb. destruct (Nat.eqb_spec b j) as [->|N]; [lia|]. apply F. lia.
  - exists m'. repeat split; auto.
Qed.

(** the two-dimensional transform, frequency by frequency *)
Definition fwd2 (r c : nat) (x : nat -> nat -> R) (k l : nat) : CC := fwd r (fun i => fwd c (creal (x i)) l) k.
Lemma unhalve n (x : CC) y : (0 < n)%nat -> Cmult (RtoC (2 / INR n)) x = y -> x = Cmult (RtoC (INR n / 2)) y.
Proof.
  intros H <-. assert (0 < INR n) by (apply lt_0_INR; lia). rewrite Cmult_assoc, <- RtoC_mult.
  replace (INR n / 2 * (2 / INR n)) with 1 by (field; lra). ring.
Qed.
Lemma zFFT2_ok (data : fmat R) : (0 < nr data)%nat -> (0 < nc data)%nat ->
  exists X, zFFT2 cos sin (2 * PI) data (nr data) (nc data) = Ok (Some X) /\ nr X = nr data /\ nc X = nc data /\
    forall k l, (k < nr data)%nat -> (l < nc data)%nat -> el X k l = fwd2 (nr data) (nc data) (el data) k l.
Proof.
  intros Hr Hc. assert (0 < INR (nr data)) by (apply lt_0_INR; lia). assert (0 < INR (nc data)) by (apply lt_0_INR; lia).
  unfold zFFT2. rewrite !Nat.eqb_refl. cbn [negb andb].
  set (m0 := FM (nr data) (nc data) (fun i j => (el data i j, s0))).
  match goal with |- context [for_ 0 (nr data) ?f m0] =>
    destruct (rows_loop f (fun x k => Cmult (RtoC (INR (nc data) / 2)) (fwd (nc data) x k)) m0) as (m1 & E1 & A1 & B1 & V1) end.
  { intros x y k HE Hk. f_equal. now apply fwd_ext. }
  { intros i m' Hi A B. change (nr m0) with (nr data) in *. change (nc m0) with (nc data) in *. unfold getrow. rewrite A, B.
    destruct (Nat.ltb_spec i (nr data)); [|lia]. cbn [bind]. rewrite ofn_R. rs.
    destruct (fwd_step (FV (nc data) (el m' i))) as (w & w' & F1 & F2 & L & V); auto. cbn [vlen vel] in *.
    rewrite F1. cbn [bind]. rewrite F2. cbn [bind]. exists w'. repeat split; auto. intros k Hk. now apply unhalve; [|apply V]. }
  change (nr m0) with (nr data) in *. change (nc m0) with (nc data) in *.
  rewrite E1. cbn [bind].
  set (m2 := mscal m1 (two / ofn (nc data))%S).
  assert (V2 : forall i j, (i < nr data)%nat -> (j < nc data)%nat -> el m2 i j = fwd (nc data) (creal (el data i)) j).
  { intros i j Hi Hj. subst m2. unfold mscal. cbn [el]. rewrite cscal_R, V1 by auto. rewrite two_R, ofn_R, Cmult_assoc, <- RtoC_mult. rs.
    replace (2 / INR (nc data) * (INR (nc data) / 2)) with 1 by (field; lra). rewrite Cmult_1_l. reflexivity. }
  match goal with |- context [for_ 0 (nc data) ?f m2] =>
    destruct (cols_loop f (fun i j => Cmult (RtoC (INR (nr data) / 2)) (fwd2 (nr data) (nc data) (el data) i j)) m2) as (m3 & E3 & A3 & B3 & V3) end.
  { intros j m' Hj A B K. change (nr m2) with (nr m1) in *. change (nc m2) with (nc m1) in *. unfold getcol. rewrite A, B, A1, B1 in *.
    destruct (Nat.ltb_spec j (nc data)); [|lia]. cbn [bind]. rewrite ofn_R. rs. cbn [vlen].
    destruct (fwd_step (FV (nr data) (fun i => el m' i j))) as (w & w' & F1 & F2 & L & V); auto. cbn [vlen vel] in *.
    rewrite F1. cbn [bind]. rewrite F2. cbn [bind]. exists w'. repeat split; auto. intros i Hi. apply unhalve; auto. rewrite V by auto.
    unfold fwd2. apply fwd_ext. intros a Ha. rewrite K by auto. now apply V2. }
  change (nr m2) with (nr m1) in *. change (nc m2) with (nc m1) in *. rewrite A1, B1 in *.
  rewrite E3. cbn [bind]. eexists; split; [reflexivity|]. unfold mscal. cbn [nr nc el]. repeat split; auto.
  intros k l Hk Hl. rewrite cscal_R, V3 by auto. rewrite two_R, ofn_R, Cmult_assoc, <- RtoC_mult. rs.
  replace (2 / INR (nr data) * (INR (nr data) / 2)) with 1 by (field; lra). rewrite Cmult_1_l. reflexivity.
Qed.
Definition bwd2 (r c : nat) (x : nat -> nat -> CC) (i j : nat) : CC := bwd c (fun l => bwd r (fun k => x k l) i) j.
Lemma zFFT2Inv_ok (data : cm) : (0 < nr data)%nat -> (0 < nc data)%nat ->
  exists y, zFFT2Inv cos sin (2 * PI) data (nr data) (nc data) = Ok (Some y) /\ nr y = nr data /\ nc y = nc data /\
    forall k l, (k < nr data)%nat -> (l < nc data)%nat -> el y k l = fst (bwd2 (nr data) (nc data) (el data) k l).
Proof.
  intros Hr Hc. unfold zFFT2Inv. rewrite !Nat.eqb_refl. cbn [negb andb].
  match goal with |- context [for_ 0 (nc data) ?f ?m] => set (m0 := m);
    destruct (cols_loop f (fun i j => bwd (nr data) (fun k => el data k j) i) m0) as (m1 & E1 & A1 & B1 & V1) end.
  { intros j m' Hj A B _. change (nr m0) with (nr data) in *. change (nc m0) with (nc data) in *. unfold getcol.
    destruct (Nat.ltb_spec j (nc data)); [|lia]. cbn [bind].
    destruct (bwd_step (FV (nr data) (fun i => el data i j))) as (u & w & F1 & F0 & F2 & L & V); auto. cbn [vlen vel] in *.
    rewrite F1. cbn [bind]. rewrite ofn_R, F0. rs.
    replace (- (2 * PI) / INR (nr data)) with (- (2 * PI / INR (nr data))) by (unfold Rdiv; ring).
    rewrite F2. cbn [bind]. exists w. repeat split; auto. }
  change (nr m0) with (nr data) in *. change (nc m0) with (nc data) in *. rewrite E1. cbn [bind].
  match goal with |- context [for_ 0 (nr data) ?f ?m] => set (r0 := m);
    destruct (for_inv (fun i (r : fmat R) => nr r = nr data /\ nc r = nc data /\
      forall a j, (a < i)%nat -> (j < nc data)%nat -> el r a j = fst (bwd2 (nr data) (nc data) (el data) a j)) 0 (nr data) f r0) as (r1 & E2 & A2 & B2 & V2) end.
  - lia.
  - repeat split; auto. intros; lia.
  - intros i r Hi (A & B & V). unfold getrow. rewrite A1, B1. destruct (Nat.ltb_spec i (nr data)); [|lia]. cbn [bind].
    destruct (bwd_step (FV (nc data) (el m1 i))) as (u & w & F1 & F0 & F2 & L & W); auto. cbn [vlen vel] in *.
    rewrite F1. cbn [bind]. rewrite ofn_R, F0. rs.
    replace (- (2 * PI) / INR (nc data)) with (- (2 * PI / INR (nc data))) by (unfold Rdiv; ring).
    rewrite F2. cbn [bind].
    match goal with |- context [for_ 0 (nc data) ?f r] =>
      destruct (for_inv (fun b (r' : fmat R) => nr r' = nr data /\ nc r' = nc data /\
        (forall a j, (a < i)%nat -> (j < nc data)%nat -> el r' a j = el r a j) /\
        forall j, (j < b)%nat -> el r' i j = fst (vel w j)) 0 (nc data) f r) as (r2 & E3 & A3 & B3 & V3 & V4) end.
    + lia.
    + repeat split; auto. intros; lia.
    + intros j r' Hj (A' & B' & V' & V''). rewrite vget_ok by lia. cbn [bind]. rewrite mset_ok by lia. eexists; split; [reflexivity|]. cbn [nr nc el].
      repeat split; auto.
      * intros a b Ha Hb. destruct (Nat.eqb_spec a i); [lia|]. cbn [andb]. now apply V'.
      * intros b Hb. rewrite Nat.eqb_refl. cbn [andb]. destruct (Nat.eqb_spec b j) as [->|]; auto. apply V''. lia.
    + exists r2. repeat split; auto. intros a j Ha Hj. destruct (Nat.eq_dec a i) as [->|].
      * rewrite V4, W by auto. unfold bwd2. f_equal. apply bwd_ext. intros l Hl. apply V1; auto; lia.
      * rewrite V3 by lia. apply V; auto; lia.
  - rewrite E2. cbn [bind]. eexists; split; [reflexivity|]. repeat split; auto.
Qed.
Lemma fft2_roundtrip (data : fmat R) : (0 < nr data)%nat -> (0 < nc data)%nat ->
  exists X y, zFFT2 cos sin (2 * PI) data (nr data) (nc data) = Ok (Some X) /\ zFFT2Inv cos sin (2 * PI) X (nr data) (nc data) = Ok (Some y) /\
    nr y = nr data /\ nc y = nc data /\ forall i j, (i < nr data)%nat -> (j < nc data)%nat -> el y i j = el data i j.
Proof.
  intros Hr Hc. destruct (zFFT2_ok data Hr Hc) as (X & E & A & B & V). rewrite <- A in Hr. rewrite <- B in Hc.
  destruct (zFFT2Inv_ok X Hr Hc) as (y & E' & A' & B' & V'). rewrite A, B in *. exists X, y. repeat split; auto.
  intros i j Hi Hj. rewrite V' by auto. unfold bwd2.
  rewrite (bwd_ext _ _ (fwd (nc data) (creal (el data i)))). { now rewrite bwd_fwd. }
  intros l Hl. rewrite (bwd_ext _ _ (fwd (nr data) (fun i => fwd (nc data) (creal (el data i)) l))). { now rewrite bwd_fwd. }
  intros k Hk. now apply V.
Qed.

(** ** amplitude of a harmonic *)
Lemma harmonic n k A B : (0 < k)%nat -> (2 * k < n)%nat ->
  fwd n (creal (fun j => A * cos (2 * PI / INR n * INR j * INR k) + B * sin (2 * PI / INR n * INR j * INR k))) k = (A, B).
Proof.
  intros Hk Hn. assert (0 < INR n) by (apply lt_0_INR; lia).
  set (w := 2 * PI / INR n). unfold fwd, dft, amp. fold w. destruct (Nat.eqb_spec k 0); [lia|].
  rewrite (csum_ext n _ (fun j => Cplus (Cmult (RtoC (/2)) (A, B)) (Cmult (Cmult (RtoC (/2)) (A, - B)) (cis (w * INR (2 * k) * INR j))))).
  - rewrite csum_add, csum_const, csum_scal_l. unfold w. rewrite ortho_pos by lia.
    rewrite Cmult_0_r. rewrite Cplus_0_r, !Cmult_assoc, <- !RtoC_mult. replace (2 / INR n * INR n * / 2) with 1 by (field; lra). now rewrite Cmult_1_l.
  - intros j _. unfold creal. set (t := w * INR j * INR k).
    replace (w * INR (2 * k) * INR j) with (t + t) by (unfold t; rewrite mult_INR; cbn [INR]; ring).
    unfold cis, RtoC, Cmult, Cplus. cbn [fst snd]. rewrite cos_plus, sin_plus. assert (E := sin2_cos2 t). unfold Rsqr in E.
    apply injective_projections; cbn [fst snd].
    + apply Rminus_diag_uniq. transitivity (A / 2 * (sin t * sin t + cos t * cos t - 1)); [field|rewrite E; ring].
    + apply Rminus_diag_uniq. transitivity (B / 2 * (sin t * sin t + cos t * cos t - 1)); [field|rewrite E; ring].
Qed.
