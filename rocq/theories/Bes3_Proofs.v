(** Accuracy of the tables for |x| < 12.5. *)
From Coq Require Import Reals Lra Lia ZArith List.
From Verif Require Import Prelude Prelude_Proofs Scalar RealLib Bes_Tables Bes_Model Bes_Spec Bes_Proofs Bes2_Proofs.
Import ListNotations.
Open Scope R_scope.

Lemma IZR_nat k : IZR (Z.of_nat k) = INR k.
Proof. symmetry. apply INR_IZR_INZ. Qed.

Lemma cint_from_ok (t : R) fuel : forall k, INR k <= t -> t < INR (k + fuel) ->
  exists j, cint_from k fuel t = Ok j /\ (j < k + fuel)%nat /\ INR j <= t < INR j + 1.
Proof.
  induction fuel; intros k A B; [rewrite Nat.add_0_r in B; lra|].
  cbn [cint_from]. change (slt (Scalar := RealS)) with Rltb. change (sofZ (Scalar := RealS)) with IZR.
  rewrite IZR_nat. destruct (Rltb_spec t (INR (S k))) as [L|L].
  - exists k. rewrite S_INR in L. split; [reflexivity|]. split; [lia|]. lra.
  - destruct (IHfuel (S k)) as [j [E [J1 J2]]]; [lra| |].
    + replace (S k + fuel)%nat with (k + S fuel)%nat by lia. auto.
    + exists j. split; [exact E|]. split; [lia|auto].
Qed.
Lemma cint_ok hi (t : R) : 0 <= t < INR hi ->
  exists k, cint hi t = Ok k /\ (k < hi)%nat /\ INR k <= t < INR k + 1.
Proof.
  intros Ht. unfold cint. change (slt (Scalar := RealS)) with Rltb. cbn [sopp s1 RealS].
  destruct (Rltb_spec (- (1)) t) as [L|L]; [|lra].
  destruct (cint_from_ok t hi 0) as [k Hk]; [cbn; lra|cbn [Nat.add]; lra|]. exists k. exact Hk.
Qed.

Definition cellz (k j : nat) : Z := (8 * Z.of_nat k + 2 * Z.of_nat j + 1)%Z.
Lemma cell k w : INR k <= w < INR k + 1 ->
  exists j v, (j < 4)%nat /\ -1 <= v <= 1 /\ 8 * w = IZR (cellz k j) + v.
Proof.
  intros Hw.
  assert (Q : exists j, (j < 4)%nat /\ INR j <= 4 * (w - INR k) <= INR j + 1).
  { destruct (Rlt_dec (w - INR k) (1 / 4)); [exists 0%nat; split; [lia|cbn; lra]|].
    destruct (Rlt_dec (w - INR k) (2 / 4)); [exists 1%nat; split; [lia|cbn; lra]|].
    destruct (Rlt_dec (w - INR k) (3 / 4)); [exists 2%nat; split; [lia|cbn; lra]|].
    exists 3%nat. split; [lia|cbn; lra]. }
  destruct Q as [j [Hj Q]]. exists j, (8 * w - IZR (cellz k j)).
  unfold cellz. rewrite !plus_IZR, !mult_IZR, !IZR_nat. split; [auto|]. split; [lra|lra].
Qed.

Definition all45 (lo n : nat) (f : nat -> nat -> bool) : bool :=
  forallb (fun k => forallb (f k) (List.seq 0 4)) (List.seq lo n).
Lemma all45_at lo n f k j : all45 lo n f = true -> (lo <= k < lo + n)%nat -> (j < 4)%nat -> f k j = true.
Proof.
  intros A K J. unfold all45 in A. rewrite forallb_forall in A.
  specialize (A k ltac:(apply in_seq; lia)). rewrite forallb_forall in A. apply A. apply in_seq. lia.
Qed.

(** the checks; [M] = 32 *)
Definition MM : nat := 32.
Definition ten (k : Z) : Z := (10 ^ k)%Z.
Definition chkJa (c : tab) (n : nat) (two : Z) (den : Z) : bool :=
  all45 0 1 (fun k j => chk (tabz c 0 8) (ql n (-1) MM) E40 (two * qd n MM) (cellz k j) (cellz k j) 8 32 1 den).
Definition chkJb (c : tab) (n : nat) (two : Z) (den : Z) : bool :=
  all45 0 5 (fun k j => chk (tabz c (k * 13) 13) (ql n (-1) MM) E40 (two * qd n MM) (cellz 0 j - 4) (cellz k j) 8 2 1 den).
Definition chkJc (c : tab) (n : nat) (den : Z) : bool :=
  all45 8 5 (fun k j => chk (tabz c ((k - 8) * 14) 14) (qx n (-1) MM) E40 (qd n MM) (cellz 0 j - 4) (cellz k j) 8 16 1 den).
Definition chkIa (c : tab) (n : nat) (two : Z) (den : Z) : bool :=
  all45 0 5 (fun k j => chkr (tabz c (k * (13 - n)) (13 - n)) (ql n 1 MM) E40 (two * qd n MM) (cellz k j) (cellz k j) 8 2 1 den).
Definition chkIb (c : tab) (n : nat) (den : Z) : bool :=
  all45 8 5 (fun k j => chkr (tabz c ((k - 8) * 14) 14) (qx n 1 MM) E40 (qd n MM) (cellz 0 j) (cellz k j) 8 16 1 den).

Lemma J0a_chk : chkJa J0a 0 1 (2 * ten 17) = true. Proof. vm_compute. reflexivity. Qed.
Lemma J0b_chk : chkJb J0b 0 1 (2 * ten 17) = true. Proof. vm_compute. reflexivity. Qed.
Lemma J0c_chk : chkJc J0c 0 (2 * ten 17) = true. Proof. vm_compute. reflexivity. Qed.
Lemma J1a_chk : chkJa J1a 1 2 (20 * ten 17) = true. Proof. vm_compute. reflexivity. Qed.
Lemma J1b_chk : chkJb J1b 1 2 (20 * ten 17) = true. Proof. vm_compute. reflexivity. Qed.
Lemma J1c_chk : chkJc J1c 1 (2 * ten 17) = true. Proof. vm_compute. reflexivity. Qed.
Lemma I0a_chk : chkIa I0a 0 1 (2 * ten 16) = true. Proof. vm_compute. reflexivity. Qed.
Lemma I0b_chk : chkIb I0b 0 (2 * ten 16) = true. Proof. vm_compute. reflexivity. Qed.
Lemma I1a_chk : chkIa I1a 1 2 (2 * ten 16) = true. Proof. vm_compute. reflexivity. Qed.
Lemma I1b_chk : chkIb I1b 1 (2 * ten 16) = true. Proof. vm_compute. reflexivity. Qed.
