(** C01 — IEEE-754 classification is exact.
    Specification: Flocq's [b64_of_bits] decodes a 64-bit word into the IEEE-754
    binary64 datum it denotes. *)
From Coq Require Import ZArith.
From Flocq Require Import IEEE754.Binary IEEE754.Bits.
From Verif Require Import Ieee_Model Ieee_Proofs.
Local Open Scope Z_scope.

Theorem C01_zIsNan : forall w, 0 <= w < 2 ^ 64 ->
  zIsNan w = if is_nan 53 1024 (b64_of_bits w) then 1 else 0.
Proof. exact zIsNan_correct. Qed.
Print Assumptions C01_zIsNan.

Theorem C01_zIsInf : forall w, 0 <= w < 2 ^ 64 ->
  zIsInf w = match b64_of_bits w with
             | B754_infinity _ _ s => if s then -1 else 1
             | _ => 0
             end.
Proof. exact zIsInf_correct. Qed.
Print Assumptions C01_zIsInf.

Theorem C01_zIsFinite : forall w, 0 <= w < 2 ^ 64 ->
  zIsFinite w = if is_finite 53 1024 (b64_of_bits w) then 1 else 0.
Proof. exact zIsFinite_correct. Qed.
Print Assumptions C01_zIsFinite.

(** Each outcome occurs: the library's own constants, -infinity, 1.0, a denormal,
    a NaN with payload and sign. *)
Example C01_cases :
  zIsInf zm_huge_val = 1 /\ zIsInf 0xFFF0000000000000 = -1 /\ zIsInf 0x3FF0000000000000 = 0 /\
  zIsNan zm_nan_val = 1 /\ zIsNan 0xFFF0000000000001 = 1 /\ zIsNan zm_huge_val = 0 /\
  zIsFinite 0x0000000000000001 = 1 /\ zIsFinite zm_huge_val = 0 /\ zIsFinite zm_nan_val = 0 /\
  (forall w, w = zm_huge_val \/ w = zm_nan_val -> 0 <= w < 2 ^ 64).
Proof. repeat split; try reflexivity; destruct H as [->| ->]; vm_compute; congruence. Qed.
