From Coq Require Import ZArith Lia Bool List.
From Flocq Require Import IEEE754.Binary IEEE754.Bits.
From Verif Require Import Prelude Ieee_Model.
Local Open Scope Z_scope.

Lemma byte_range w k : 0 <= byte w k < 256.
Proof. apply Z.mod_pos_bound; lia. Qed.

(** Exponent and mantissa fields of a word. *)
Definition expo (w : Z) : Z := (w / 2 ^ 52) mod 2 ^ 11.
Definition mant (w : Z) : Z := w mod 2 ^ 52.

Lemma low_bytes w : w mod 2 ^ 48 =
  byte w 0 + 2^8 * byte w 1 + 2^16 * byte w 2 + 2^24 * byte w 3 + 2^32 * byte w 4 + 2^40 * byte w 5.
Proof.
  unfold byte. change (8 * 0) with 0. change (8*1) with 8. change (8*2) with 16.
  change (8*3) with 24. change (8*4) with 32. change (8*5) with 40.
  change (2^0) with 1. change (2^8) with 256. change (2^16) with 65536.
  change (2^24) with 16777216. change (2^32) with 4294967296.
  change (2^40) with 1099511627776. change (2^48) with 281474976710656.
  Z.to_euclidean_division_equations. lia.
Qed.

Lemma mant_bytes w : mant w = w mod 2 ^ 48 + 2 ^ 48 * (byte w 6 mod 16).
Proof.
  unfold mant, byte. change (8*6) with 48. change (2^52) with 4503599627370496.
  change (2^48) with 281474976710656.
  Z.to_euclidean_division_equations. lia.
Qed.

Lemma expo_bytes w : expo w = (byte w 7 mod 128) * 16 + byte w 6 / 16.
Proof.
  unfold expo, byte. change (8*6) with 48. change (8*7) with 56.
  change (2^52) with 4503599627370496. change (2^48) with 281474976710656.
  change (2^56) with 72057594037927936. change (2^11) with 2048.
  Z.to_euclidean_division_equations. lia.
Qed.

Lemma lor_zero a b : Z.lor a b =? 0 = (a =? 0) && (b =? 0).
Proof.
  apply eq_true_iff_eq. rewrite andb_true_iff, !Z.eqb_eq. apply Z.lor_eq_0_iff.
Qed.

Definition range256 : list Z := map Z.of_nat (seq 0 256).
Lemma range256_in b : 0 <= b < 256 -> In b range256.
Proof.
  intros H. apply in_map_iff. exists (Z.to_nat b). split; [lia|]. apply in_seq; lia.
Qed.
Lemma land_tables b : 0 <= b < 256 ->
  (Z.land b 127 =? 127) = (b mod 128 =? 127) /\
  (Z.land b 240 =? 240) = (b / 16 =? 15) /\
  Z.land b 15 = b mod 16.
Proof.
  intros H.
  assert (A : forallb (fun b => Bool.eqb (Z.land b 127 =? 127) (b mod 128 =? 127)
                     && Bool.eqb (Z.land b 240 =? 240) (b / 16 =? 15)
                     && (Z.land b 15 =? b mod 16)) range256 = true) by (vm_compute; reflexivity).
  rewrite forallb_forall in A. specialize (A b (range256_in b H)).
  rewrite !andb_true_iff, Z.eqb_eq in A. destruct A as [[A1 A2] A3].
  repeat split; auto using eqb_prop.
Qed.

Lemma low_zero w :
  (Z.lor (Z.lor (Z.lor (Z.lor (Z.lor (byte w 5) (byte w 4)) (byte w 3)) (byte w 2)) (byte w 1)) (byte w 0) =? 0)
  = (w mod 2 ^ 48 =? 0).
Proof.
  rewrite !lor_zero. apply eq_true_iff_eq. rewrite !andb_true_iff, !Z.eqb_eq, low_bytes.
  pose proof (byte_range w 0). pose proof (byte_range w 1). pose proof (byte_range w 2).
  pose proof (byte_range w 3). pose proof (byte_range w 4). pose proof (byte_range w 5). lia.
Qed.

Lemma top_bit w : 0 <= w < 2 ^ 64 -> (128 <=? byte w 7) = (2 ^ 63 <=? w).
Proof.
  intros H. unfold byte. change (8*7) with 56.
  change (2^56) with 72057594037927936. change (2^63) with 9223372036854775808.
  change (2^64) with 18446744073709551616 in H.
  apply eq_true_iff_eq. rewrite !Z.leb_le.
  Z.to_euclidean_division_equations. lia.
Qed.

Lemma mod48_pos w : 0 <= w mod 2 ^ 48 < 2 ^ 48.
Proof. apply Z.mod_pos_bound; reflexivity. Qed.

(** The code's tests in terms of the IEEE fields. *)
Lemma zIsNan_fields w : zIsNan w = if (expo w =? 2047) && negb (mant w =? 0) then 1 else 0.
Proof.
  unfold zIsNan. cbv zeta.
  replace (Z.land (byte w 7) 127 =? 127) with (byte w 7 mod 128 =? 127)
    by (symmetry; apply land_tables, byte_range).
  replace (Z.land (byte w 6) 240 =? 240) with (byte w 6 / 16 =? 15)
    by (symmetry; apply land_tables, byte_range).
  replace (Z.land (byte w 6) 15) with (byte w 6 mod 16)
    by (symmetry; apply land_tables, byte_range).
  replace (Z.lor (Z.lor (Z.lor (Z.lor (Z.lor (Z.lor (byte w 6 mod 16) (byte w 5)) (byte w 4)) (byte w 3)) (byte w 2)) (byte w 1)) (byte w 0) =? 0)
    with ((byte w 6 mod 16 =? 0) && (w mod 2 ^ 48 =? 0)).
  2:{ rewrite <- low_zero, !lor_zero, !andb_assoc. reflexivity. }
  replace ((byte w 7 mod 128 =? 127) && (byte w 6 / 16 =? 15)) with (expo w =? 2047).
  2:{ rewrite expo_bytes. pose proof (byte_range w 6). pose proof (byte_range w 7).
      apply eq_true_iff_eq. rewrite andb_true_iff, !Z.eqb_eq.
      Z.to_euclidean_division_equations. lia. }
  replace (mant w =? 0) with ((byte w 6 mod 16 =? 0) && (w mod 2 ^ 48 =? 0)); [reflexivity|].
  rewrite mant_bytes. pose proof (byte_range w 6). pose proof (mod48_pos w).
  apply eq_true_iff_eq. rewrite andb_true_iff, !Z.eqb_eq.
  change (2^48) with 281474976710656 in *.
  pose proof (Z.mod_pos_bound (byte w 6) 16 ltac:(lia)). lia.
Qed.

Lemma zIsInf_fields w : 0 <= w < 2 ^ 64 ->
  zIsInf w = if (expo w =? 2047) && (mant w =? 0) then (if 2 ^ 63 <=? w then -1 else 1) else 0.
Proof.
  intros Hw. unfold zIsInf. cbv zeta. rewrite low_zero, <- (top_bit w Hw).
  rewrite expo_bytes, mant_bytes.
  pose proof (byte_range w 6) as H6. pose proof (byte_range w 7) as H7. pose proof (mod48_pos w) as Hm.
  change (2^48) with 281474976710656 in *.
  generalize dependent (w mod 281474976710656). generalize dependent (byte w 7).
  generalize dependent (byte w 6). intros a Ha b Hb m Hm.
  destruct (a =? 240) eqn:E1; cbn [negb orb].
  - apply Z.eqb_eq in E1. subst a. change (240 / 16) with 15. change (240 mod 16) with 0.
    rewrite Z.mul_0_r, Z.add_0_r. destruct (m =? 0); cbn [negb]; [|now rewrite andb_false_r].
    rewrite andb_true_r.
    destruct (Z.eqb_spec b 127) as [->|N1]; [reflexivity|].
    destruct (Z.eqb_spec b 255) as [->|N2]; [reflexivity|].
    destruct (Z.eqb_spec (b mod 128 * 16 + 15) 2047); [|reflexivity].
    exfalso. revert e. Z.to_euclidean_division_equations. lia.
  - apply Z.eqb_neq in E1.
    destruct (Z.eqb_spec (b mod 128 * 16 + a / 16) 2047) as [E2|]; cbn [andb]; auto.
    destruct (Z.eqb_spec (m + 281474976710656 * (a mod 16)) 0) as [E3|]; auto.
    exfalso. revert E2 E3. Z.to_euclidean_division_equations. lia.
Qed.

(** Flocq's decoding of a 64-bit word in terms of the same fields. *)
Lemma aux_cases w :
  let x := binary_float_of_bits_aux 52 11 w in
  if expo w =? 2047 then
    if mant w =? 0 then x = F754_infinity (2 ^ 63 <=? w) else is_nan_FF x = true
  else is_finite_FF x = true.
Proof.
  cbv zeta. unfold binary_float_of_bits_aux, split_bits. fold (mant w) (expo w).
  change (2 ^ 11 - 1) with 2047.
  assert (0 <= mant w) by (apply Z.mod_pos_bound; reflexivity).
  destruct (Zeq_bool (expo w) 0) eqn:E0.
  - apply Zeq_bool_eq in E0. rewrite E0. cbn [Z.eqb].
    destruct (mant w); try reflexivity. lia.
  - destruct (Zeq_bool (expo w) 2047) eqn:E1.
    + apply Zeq_bool_eq in E1. rewrite E1, Z.eqb_refl.
      destruct (mant w) eqn:Em; reflexivity.
    + apply Zeq_bool_neq in E1. destruct (Z.eqb_spec (expo w) 2047); [contradiction|].
      destruct (mant w + Zpower 2 52) eqn:Em; try reflexivity;
        change (2 ^ 52) with 4503599627370496 in Em; lia.
Qed.

Lemma b64_B2FF w : B2FF 53 1024 (b64_of_bits w) = binary_float_of_bits_aux 52 11 w.
Proof. unfold b64_of_bits, binary_float_of_bits. apply B2FF_FF2B. Qed.

Lemma zIsNan_correct w : 0 <= w < 2 ^ 64 ->
  zIsNan w = if is_nan 53 1024 (b64_of_bits w) then 1 else 0.
Proof.
  intros _. rewrite zIsNan_fields. pose proof (aux_cases w) as A. cbv zeta in A.
  rewrite <- b64_B2FF in A.
  destruct (expo w =? 2047); [destruct (mant w =? 0)|]; cbn [andb negb];
    destruct (b64_of_bits w); cbn in A |- *; congruence.
Qed.

Lemma zIsInf_correct w : 0 <= w < 2 ^ 64 ->
  zIsInf w = match b64_of_bits w with
             | B754_infinity _ _ s => if s then -1 else 1
             | _ => 0
             end.
Proof.
  intros Hw. rewrite (zIsInf_fields w Hw). pose proof (aux_cases w) as A. cbv zeta in A.
  rewrite <- b64_B2FF in A.
  destruct (expo w =? 2047); [destruct (mant w =? 0)|]; cbn [andb];
    destruct (b64_of_bits w); cbn in A |- *; try congruence.
  injection A as ->. reflexivity.
Qed.

Lemma zIsFinite_correct w : 0 <= w < 2 ^ 64 ->
  zIsFinite w = if is_finite 53 1024 (b64_of_bits w) then 1 else 0.
Proof.
  intros Hw. unfold zIsFinite. rewrite (zIsInf_correct w Hw), (zIsNan_correct w Hw).
  destruct (b64_of_bits w) as [s|s|s pl e|s m e b]; try destruct s; reflexivity.
Qed.
