(** C109: Bessel functions of integer order (zBesselJ, zBesselY, zBesselI, zBesselK). *)
From Coq Require Import Reals Lra Lia ZArith QArith PrimFloat.
From Verif Require Import Prelude Prelude_Proofs Scalar RealLib Bes_Tables Bes_Model Bes_Spec Bes_Proofs Bes2_Proofs
  Bes3_Proofs Bes4_Proofs Bes5_Proofs Bes6_Proofs Bes7_Proofs.
Local Open Scope R_scope.

(** The power series converge everywhere: J_n(x) and I_n(x) are numbers, and only one number each. *)
Theorem C109_spec : forall n x, (exists l, is_J n x l) /\ (exists l, is_I n x l)
  /\ (forall l l', is_J n x l -> is_J n x l' -> l = l') /\ (forall l l', is_I n x l -> is_I n x l' -> l = l').
Proof.
  intros n x. split; [apply J_exists|]. split; [apply I_exists|]. split; intros l l' A B; exact (isum_unique _ _ _ A B).
Qed.

Lemma nat_J fsin fcos ztol n (x : R) : besJ fsin fcos ztol (Z.of_nat n) x = (r <- besJn fsin fcos ztol n x ;; Ok (Some r)).
Proof. unfold besJ. destruct (Z.ltb_spec (Z.of_nat n) 0); [lia|]. now rewrite Nat2Z.id. Qed.
Lemma nat_I fexp ztol n (x : R) : besI fexp ztol (Z.of_nat n) x = (r <- besIn fexp ztol n x ;; Ok (Some r)).
Proof. unfold besI. destruct (Z.ltb_spec (Z.of_nat n) 0); [lia|]. now rewrite Nat2Z.id. Qed.
Lemma nat_Y flog fsin fcos n (x : R) : besY flog fsin fcos (Z.of_nat n) x = besYn flog fsin fcos n x.
Proof. unfold besY. destruct (Z.ltb_spec (Z.of_nat n) 0); [lia|]. now rewrite Nat2Z.id. Qed.
Lemma nat_K fexp flog n (x : R) : besK fexp flog (Z.of_nat n) x = besKn fexp flog n x.
Proof. unfold besK. destruct (Z.ltb_spec (Z.of_nat n) 0); [lia|]. now rewrite Nat2Z.id. Qed.

(** Every table is read inside its bounds for every real argument, and an order n >= 0 gives a number (for Y and K:
    at every positive argument). *)
Theorem C109_safe : forall fexp flog fsin fcos ztol n x,
  (exists r, besJ fsin fcos ztol (Z.of_nat n) x = Ok (Some r))
  /\ (exists r, besI fexp ztol (Z.of_nat n) x = Ok (Some r))
  /\ (0 < x -> (exists r, besY flog fsin fcos (Z.of_nat n) x = Ok (Some r))
               /\ exists r, besK fexp flog (Z.of_nat n) x = Ok (Some r)).
Proof.
  intros. rewrite nat_J, nat_I, nat_Y, nat_K.
  destruct (Jn_total fsin fcos ztol n x) as [j ->]. destruct (In_total fexp ztol n x) as [i ->].
  split; [now exists j|]. split; [now exists i|]. intros Hx.
  split; [now apply Yn_total|now apply Kn_total].
Qed.

(** NAN (None): negative orders, and arguments x <= 0 of Y_n and K_n (K_1 apart, which relies on log). *)
Theorem C109_domain : forall fexp flog fsin fcos ztol n x,
  ((n < 0)%Z -> besJ fsin fcos ztol n x = Ok None /\ besY flog fsin fcos n x = Ok None
                /\ besI fexp ztol n x = Ok None /\ besK fexp flog n x = Ok None)
  /\ (x <= 0 -> besY flog fsin fcos n x = Ok None /\ (n <> 1%Z -> besK fexp flog n x = Ok None)).
Proof.
  intros. unfold besJ, besY, besI, besK. split.
  - intros Hn. destruct (Z.ltb_spec n 0); [|lia]. auto.
  - intros Hx. destruct (Z.ltb_spec n 0) as [?|Hn]; [auto|].
    assert (Y0 : besY0 flog fsin x = Ok None).
    { unfold besY0. change (sle (Scalar := RealS)) with Rleb. cbn [s0 RealS]. destruct (Rleb_spec x 0); [auto|lra]. }
    assert (Y1 : besY1 flog fcos x = Ok None).
    { unfold besY1. change (sle (Scalar := RealS)) with Rleb. cbn [s0 RealS]. destruct (Rleb_spec x 0); [auto|lra]. }
    assert (K0 : besK0 fexp flog x = Ok None).
    { unfold besK0. change (sle (Scalar := RealS)) with Rleb. cbn [s0 RealS]. destruct (Rleb_spec x 0); [auto|lra]. }
    split.
    + unfold besYn. destruct (Z.to_nat n =? 0)%nat; [auto|]. destruct (Z.to_nat n =? 1)%nat; [auto|]. now rewrite Y0, Y1.
    + intros N. unfold besKn. destruct (Nat.eqb_spec (Z.to_nat n) 0); [auto|]. destruct (Nat.eqb_spec (Z.to_nat n) 1); [lia|].
      destruct (K1_total fexp flog x) as [k Ek]. rewrite Ek, K0. reflexivity.
Qed.

(** J_n(-x) = (-1)^n J_n(x), I_n(-x) = (-1)^n I_n(x) for the computed values, all n and x. *)
Theorem C109_parity : forall fexp fsin fcos ztol n x r, 0 < ztol ->
  (besJ fsin fcos ztol (Z.of_nat n) x = Ok (Some r) -> besJ fsin fcos ztol (Z.of_nat n) (- x) = Ok (Some ((-1) ^ n * r)))
  /\ (besI fexp ztol (Z.of_nat n) x = Ok (Some r) -> besI fexp ztol (Z.of_nat n) (- x) = Ok (Some ((-1) ^ n * r))).
Proof.
  intros. rewrite !nat_J, !nat_I. split; intros E.
  - destruct (besJn fsin fcos ztol n x) as [a|] eqn:A; [|discriminate]. injection E as ->.
    now rewrite (Jn_parity _ _ _ _ _ _ H A).
  - destruct (besIn fexp ztol n x) as [a|] eqn:A; [|discriminate]. injection E as ->.
    now rewrite (In_parity _ _ _ _ _ H A).
Qed.

(** The computed values obey the recurrences  Y_n + Y_{n+2} = 2(n+1)/x Y_{n+1},  K_{n+2} - K_n = 2(n+1)/x K_{n+1}  for
    x > 0 and  J_n + J_{n+2} = 2(n+1)/x J_{n+1}  for x > n+2. *)
Theorem C109_recurrence : forall fexp flog fsin fcos ztol n x, 0 < x ->
  (exists a b c, besY flog fsin fcos (Z.of_nat n) x = Ok (Some a) /\ besY flog fsin fcos (Z.of_nat (S n)) x = Ok (Some b)
     /\ besY flog fsin fcos (Z.of_nat (S (S n))) x = Ok (Some c) /\ a + c = 2 * INR (S n) / x * b)
  /\ (exists a b c, besK fexp flog (Z.of_nat n) x = Ok (Some a) /\ besK fexp flog (Z.of_nat (S n)) x = Ok (Some b)
     /\ besK fexp flog (Z.of_nat (S (S n))) x = Ok (Some c) /\ c - a = 2 * INR (S n) / x * b)
  /\ (ztol <= x -> INR (S (S n)) < x ->
      exists a b c, besJ fsin fcos ztol (Z.of_nat n) x = Ok (Some a) /\ besJ fsin fcos ztol (Z.of_nat (S n)) x = Ok (Some b)
     /\ besJ fsin fcos ztol (Z.of_nat (S (S n))) x = Ok (Some c) /\ a + c = 2 * INR (S n) / x * b).
Proof.
  intros fexp flog fsin fcos ztol n x Hx. rewrite !nat_Y, !nat_K, !nat_J. split; [now apply Yn_rec|]. split; [now apply Kn_rec|].
  intros Z L. destruct (Jn_rec fsin fcos ztol n x Z Hx L) as (a & b & c & A & B & C & E).
  exists a, b, c. rewrite A, B, C. auto.
Qed.

(** Accuracy on |x| < 12.5, every real x: J_0 and J_1 within 1e-17, I_0 and I_1 with the relative error 1e-16. *)
Theorem C109_accuracy_partial : forall fexp fsin fcos ztol x, Rabs x < 125 / 10 ->
  (forall l, is_J 0 x l -> exists r, besJ fsin fcos ztol 0 x = Ok (Some r) /\ Rabs (r - l) <= 1 / 10 ^ 17)
  /\ (forall l, is_J 1 x l -> exists r, besJ fsin fcos ztol 1 x = Ok (Some r) /\ Rabs (r - l) <= 1 / 10 ^ 17)
  /\ (forall l, is_I 0 x l -> exists r, besI fexp ztol 0 x = Ok (Some r) /\ Rabs (r - l) <= 1 / 10 ^ 16 * Rabs l)
  /\ (forall l, is_I 1 x l -> exists r, besI fexp ztol 1 x = Ok (Some r) /\ Rabs (r - l) <= 1 / 10 ^ 16 * Rabs l).
Proof.
  intros fexp fsin fcos ztol x Hx. assert (Hy : Rabs x < 25 / 2) by lra.
  rewrite (nat_J fsin fcos ztol 0 x : besJ fsin fcos ztol 0 x = _), (nat_J fsin fcos ztol 1 x : besJ fsin fcos ztol 1 x = _),
    (nat_I fexp ztol 0 x : besI fexp ztol 0 x = _), (nat_I fexp ztol 1 x : besI fexp ztol 1 x = _).
  split; [|split; [|split]]; intros l L.
  - destruct (J0_acc fcos x l Hy L) as [r [E B]]. exists r. change (besJn fsin fcos ztol 0 x) with (besJ0 fcos x). now rewrite E.
  - destruct (J1_acc fsin x l Hy L) as [r [E B]]. exists r. change (besJn fsin fcos ztol 1 x) with (besJ1 fsin x). now rewrite E.
  - destruct (I0_acc fexp x l Hy L) as [r [E B]]. exists r. change (besIn fexp ztol 0 x) with (besI0 fexp x). rewrite E.
    split; [auto|]. eapply Rle_trans; [exact B|]. apply Rmult_le_compat_l; [lra|apply Rle_abs].
  - destruct (I1_acc fexp x l Hy L) as [r [E B]]. exists r. change (besIn fexp ztol 1 x) with (besI1 fexp x). now rewrite E.
Qed.

(** The same for every order n >= 2, zTOL <= |x|:
    zBesselI has the relative error 3e-16 for |x| <= 7 and 3e-7 for |x| < 12.5;
    zBesselJ has the error 3^n 1e-17 for n < |x| < 12.5. *)
Theorem C109_order_partial : forall fexp fsin fcos ztol n x, (2 <= n)%nat -> 0 < ztol <= Rabs x ->
  (forall l, is_I n x l -> Rabs x <= 7 ->
     exists r, besI fexp ztol (Z.of_nat n) x = Ok (Some r) /\ Rabs (r - l) <= 3 / 10 ^ 16 * Rabs l)
  /\ (forall l, is_I n x l -> Rabs x < 125 / 10 ->
     exists r, besI fexp ztol (Z.of_nat n) x = Ok (Some r) /\ Rabs (r - l) <= 3 / 10 ^ 7 * Rabs l)
  /\ (forall l, is_J n x l -> INR n < Rabs x -> Rabs x < 125 / 10 ->
     exists r, besJ fsin fcos ztol (Z.of_nat n) x = Ok (Some r) /\ Rabs (r - l) <= 3 ^ n / 10 ^ 17).
Proof.
  intros fexp fsin fcos ztol n x Hn [Z0 Zx]. rewrite !nat_I, !nat_J. split; [|split].
  - intros l L Hx.
    destruct (In_err fexp ztol n x l 7 _ Hn Z0 Zx ltac:(lra) Hx ltac:(lra) rho_num7 L) as [r [E B]].
    exists r. rewrite E. split; [auto|]. eapply Rle_trans; [exact B|]. apply Rmult_le_compat_r; [apply Rabs_pos|lra].
  - intros l L Hx.
    destruct (In_err fexp ztol n x l (25 / 2) _ Hn Z0 Zx ltac:(lra) ltac:(lra) ltac:(lra) rho_num12 L) as [r [E B]].
    exists r. rewrite E. split; [auto|]. eapply Rle_trans; [exact B|]. apply Rmult_le_compat_r; [apply Rabs_pos|lra].
  - intros l L Hxn Hx.
    destruct (Jn_err fsin fcos ztol n x l Hn Z0 Zx Hxn ltac:(lra) L) as [r [E B]]. exists r. now rewrite E.
Qed.

(** Refuted: zBesselJ(2,2) is wrong in the seventh digit (J_2(2) = 0.3528...; the downward recurrence for |x| <= n starts at
    the order n + sqrt(40 n) and leaves its first value out of the normalisation). *)
Theorem C109_J_refuted : forall fsin fcos ztol l, ztol <= 2 -> is_J 2 2 l ->
  exists r, besJ fsin fcos ztol 2 2 = Ok (Some r) /\ Rabs (r - l) >= 1 / 10 ^ 7.
Proof.
  intros fsin fcos ztol l Hz L. rewrite (nat_J fsin fcos ztol 2 2 : besJ fsin fcos ztol 2 2 = _).
  destruct (J22_wrong fsin fcos ztol l Hz L) as [r [E B]]. exists r. rewrite E. split; [auto|]. rewrite Rabs_right; lra.
Qed.

(** Refuted: at x = 100, zBesselI(0,x) and zBesselI(3,x) are not both right to a relative error 0.0005, whatever exp
    computes: the first order of the downward recurrence does not depend on x. *)
Theorem C109_I_refuted : forall fexp ztol l0 l3, ztol <= 100 -> is_I 0 100 l0 -> is_I 3 100 l3 ->
  exists y r, besI fexp ztol 0 100 = Ok (Some y) /\ besI fexp ztol 3 100 = Ok (Some r)
    /\ ~ (Rabs (y - l0) <= 5 / 10000 * l0 /\ Rabs (r - l3) <= 5 / 10000 * l3).
Proof.
  intros fexp ztol l0 l3 Hz L0 L3. 
  rewrite (nat_I fexp ztol 0 100 : besI fexp ztol 0 100 = _), (nat_I fexp ztol 3 100 : besI fexp ztol 3 100 = _).
  destruct (In_total fexp ztol 0 100) as [y Ey]. destruct (In_total fexp ztol 3 100) as [r Er].
  exists y, r. rewrite Ey, Er. split; [auto|]. split; [auto|]. intros [A B].
  apply (I3_100 fexp ztol l0 l3 y r Hz L0 L3 Ey Er). split; lra.
Qed.

(** Refuted: the argument NaN reads outside of the tables (the conversion of NaN to int is undefined). *)
Theorem C109_nan_refuted : forall fexp flog fsin fcos ztol,
  besJ (T := PrimFloat.float) fsin fcos ztol 0 PrimFloat.nan = UB /\ besI (T := PrimFloat.float) fexp ztol 0 PrimFloat.nan = UB
  /\ besY (T := PrimFloat.float) flog fsin fcos 0 PrimFloat.nan = UB /\ besK (T := PrimFloat.float) fexp flog 0 PrimFloat.nan = UB.
Proof. intros. split; [|split; [|split]]; vm_compute; reflexivity. Qed.

(** Concrete cases. *)
(** x = 3 meets the hypotheses of the accuracy theorems: J_2(3) within 9e-17. *)
Example C109_case_J : exists l r, is_J 2 3 l /\ besJ sin cos (1 / 10 ^ 12) 2 3 = Ok (Some r) /\ Rabs (r - l) <= 9 / 10 ^ 17.
Proof.
  destruct (J_exists 2 3) as [l L].
  destruct (C109_order_partial exp sin cos (1 / 10 ^ 12) 2 3) as (_ & _ & A); [lia|rewrite Rabs_right; lra|].
  destruct (A l L) as [r [E B]]; [rewrite Rabs_right by lra; cbn; lra|rewrite Rabs_right; lra|].
  exists l, r. split; [auto|]. split; [exact E|]. lra.
Qed.
Example C109_case_I : exists l r, is_I 4 (-5) l /\ besI exp (1 / 10 ^ 12) 4 (-5) = Ok (Some r) /\ Rabs (r - l) <= 3 / 10 ^ 16 * Rabs l.
Proof.
  destruct (I_exists 4 (-5)) as [l L].
  destruct (C109_order_partial exp sin cos (1 / 10 ^ 12) 4 (-5)) as (A & _); [lia|rewrite Rabs_left; lra|].
  destruct (A l L) as [r [E B]]; [rewrite Rabs_left; lra|]. exists l, r. auto.
Qed.
(** The table polynomials in exact arithmetic: J_0(5) = -0.1775967713143383..., K_1(8) = 0.000155369211805001... *)
Definition digits (r : res (option Q)) (d : Z) : option Z :=
  match r with Ok (Some q) => Some (Qnum q * 10 ^ d / Zpos (Qden q))%Z | _ => None end.
Example C109_case_Q :
  digits (besJ (T := Q) (fun x => x) (fun x => x) 0%Q 0 5%Q) 16 = Some (-1775967713143384)%Z
  /\ digits (besK (T := Q) (fun x => x) (fun x => x) 1 8%Q) 18 = Some 155369211805001%Z.
Proof. split; vm_compute; reflexivity. Qed.

Print Assumptions C109_spec.
Print Assumptions C109_safe.
Print Assumptions C109_domain.
Print Assumptions C109_parity.
Print Assumptions C109_recurrence.
Print Assumptions C109_accuracy_partial.
Print Assumptions C109_order_partial.
Print Assumptions C109_J_refuted.
Print Assumptions C109_I_refuted.
Print Assumptions C109_nan_refuted.
