(** Theorems for C31 and C32 (exact arithmetic; cos, sin and pi are those of Coq.Reals). *)
From Coq Require Import Reals Lra.
From Coquelicot Require Import Coquelicot.
From Verif Require Import Prelude Prelude_Proofs Scalar RealLib Complex_Model Complex_Spec Fmat Fmat_Proofs FFT_Model FFT_Spec FFT_Proofs FFT2_Proofs.
Local Open Scope R_scope.
Local Notation fft := (zFFT cos sin (2 * PI)).
Local Notation ifft := (zFFTInv cos sin (2 * PI)).

(** every length, every factorisation: X_k = 2/n sum_j x_j exp( 2 pi i j k / n ), half of it for k = 0 *)
Theorem C31_fft_is_dft (x : fvec R) n : vlen x = n -> (0 < n)%nat ->
  exists X, fft x n = Ok (Some X) /\ vlen X = n /\
    forall k, (k < n)%nat -> vel X k =
      Cmult (RtoC (if Nat.eqb k 0 then 1 / INR n else 2 / INR n))
            (csum n (fun j => Cmult (RtoC (vel x j)) (cos (2 * PI / INR n * INR j * INR k), sin (2 * PI / INR n * INR j * INR k)))).
Proof. intros <- H. exact (zFFT_ok x H). Qed.
(** hence a harmonic below half the sampling frequency shows with its amplitudes *)
Theorem C31_harmonic n k A B : (0 < k)%nat -> (2 * k < n)%nat ->
  exists X, fft (FV n (fun j => A * cos (2 * PI / INR n * INR j * INR k) + B * sin (2 * PI / INR n * INR j * INR k))) n = Ok (Some X) /\ vel X k = (A, B).
Proof.
  intros Hk Hn. match goal with |- context [zFFT _ _ _ ?x n] => destruct (zFFT_ok x) as (X & E & L & V) end; [cbn; lia|].
  exists X. split; [exact E|]. rewrite V by (cbn; lia). cbn [vlen vel]. now apply harmonic.
Qed.
(** the transform used inside, in either direction, from any position of a buffer: the
    result replaces the data and nothing else changes; the work buffer is not overrun *)
Theorem C31_inner fuel n (d b : fvec (@cplx R)) od ob s : (0 < n)%nat -> (n < fuel)%nat -> (od + n <= vlen d)%nat -> (ob + n <= vlen b)%nat -> s = 1 \/ s = -1 ->
  exists d' b', _zFFTInner cos sin fuel d b od ob n (s * (2 * PI / INR n)) = Ok (d', b') /\ vlen d' = vlen d /\ vlen b' = vlen b /\
    (forall k, (k < n)%nat -> vel d' (od + k)%nat = dft n (s * (2 * PI / INR n)) (fun j => vel d (od + j)%nat) k) /\
    (forall k, ~ (od <= k < od + n)%nat -> vel d' k = vel d k) /\ (forall k, ~ (ob <= k < ob + n)%nat -> vel b' k = vel b k).
Proof.
  intros H0 HF HD HB [-> | ->].
  - rewrite Rmult_1_l. apply (inner_ok fuel n d b od ob _ 1); auto. now apply angle.
  - replace (-1 * (2 * PI / INR n)) with (- (2 * PI / INR n)) by ring. apply (inner_ok fuel n d b od ob _ (-1)); auto. now apply angle'.
Qed.
Theorem C31_size_mismatch (x : fvec R) n : vlen x <> n -> fft x n = Ok None.
Proof. intros H. unfold zFFT. apply Nat.eqb_neq in H. now rewrite H. Qed.
Theorem C31_two_dimensional (x : fmat R) r c : nr x = r -> nc x = c -> (0 < r)%nat -> (0 < c)%nat ->
  exists X, zFFT2 cos sin (2 * PI) x r c = Ok (Some X) /\ nr X = r /\ nc X = c /\
    forall k l, (k < r)%nat -> (l < c)%nat -> el X k l =
      Cmult (RtoC (if Nat.eqb k 0 then 1 / INR r else 2 / INR r))
       (dft r (2 * PI / INR r) (fun i => Cmult (RtoC (if Nat.eqb l 0 then 1 / INR c else 2 / INR c)) (dft c (2 * PI / INR c) (fun j => RtoC (el x i j)) l)) k).
Proof. intros <- <- H1 H2. exact (zFFT2_ok x H1 H2). Qed.
(** twelve samples: 2 * 2 * 3 *)
Example C31_case : vlen (FV 12 (fun i => INR i)) = 12%nat /\ _zFFTRadix 12 = 2%nat /\ _zFFTRadix 6 = 2%nat /\ _zFFTRadix 3 = 3%nat /\ (0 < 5)%nat /\ (2 * 5 < 12)%nat.
Proof. repeat split; auto; lia. Qed.
(** at half the sampling frequency the reported amplitude is twice the actual one *)
Theorem C31_nyquist : exists X, fft (FV 2 (fun j => cos (2 * PI / INR 2 * INR j * INR 1))) 2 = Ok (Some X) /\ fst (vel X 1) = 2.
Proof.
  match goal with |- context [zFFT _ _ _ ?x 2] => destruct (zFFT_ok x) as (X & E & L & V) end; [cbn; lia|]. cbn [vlen vel] in *.
  exists X. split; [exact E|]. rewrite V by lia. unfold fwd, dft, amp, creal, cis. cbn [Nat.eqb csum INR].
  replace (2 * PI / (1 + 1) * 0 * 1) with 0 by field. replace (2 * PI / (1 + 1) * 1 * 1) with PI by field.
  rewrite cos_0, sin_0, cos_PI, sin_PI. unfold Cmult, Cplus, RtoC. cbn [fst snd]. field.
Qed.

(** ** C32 *)
Theorem C32_roundtrip (x : fvec R) n : vlen x = n -> (0 < n)%nat ->
  exists X y, fft x n = Ok (Some X) /\ ifft X n = Ok (Some y) /\ vlen y = n /\ forall k, (k < n)%nat -> vel y k = vel x k.
Proof. intros <- H. exact (fft_roundtrip x H). Qed.
(** the inverse on any spectrum *)
Theorem C32_inverse (X : fvec (@cplx R)) n : vlen X = n -> (0 < n)%nat ->
  exists y, ifft X n = Ok (Some y) /\ vlen y = n /\
    forall j, (j < n)%nat -> vel y j =
      fst (csum n (fun k => Cmult (Cmult (RtoC (if Nat.eqb k 0 then 1 else 1 / 2)) (vel X k)) (cis (- (2 * PI / INR n) * INR k * INR j)))).
Proof. intros <- H. exact (zFFTInv_ok X H). Qed.
Theorem C32_roundtrip_2d (x : fmat R) r c : nr x = r -> nc x = c -> (0 < r)%nat -> (0 < c)%nat ->
  exists X y, zFFT2 cos sin (2 * PI) x r c = Ok (Some X) /\ zFFT2Inv cos sin (2 * PI) X r c = Ok (Some y) /\
    nr y = r /\ nc y = c /\ forall i j, (i < r)%nat -> (j < c)%nat -> el y i j = el x i j.
Proof. intros <- <- H1 H2. exact (fft2_roundtrip x H1 H2). Qed.
Theorem C32_size_mismatch (X : fvec (@cplx R)) n : vlen X <> n -> ifft X n = Ok None.
Proof. intros H. unfold zFFTInv. apply Nat.eqb_neq in H. now rewrite H. Qed.
Example C32_case : vlen (FV 15 (fun i => INR i)) = 15%nat /\ nr (FM 3 4 (fun i j => INR (i + j))) = 3%nat.
Proof. split; reflexivity. Qed.

Print Assumptions C31_fft_is_dft.
Print Assumptions C31_harmonic.
Print Assumptions C32_roundtrip.
Print Assumptions C32_roundtrip_2d.
