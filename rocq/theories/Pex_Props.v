(** C12-C15: polynomials over the reals.  Vocabulary in Pex_Spec.v: [peval p x] is
    p_0 + p_1 x + ... ; [regular]: nonzero leading coefficient; [zero_poly]: every
    coefficient is zero. *)
From Coq Require Import Reals Lra.
From Coquelicot Require Import Coquelicot.
From Verif Require Import Prelude Prelude_Proofs Scalar RealLib Misc_Model Pex_Model Pex_Spec Pex_Proofs.
Local Open Scope R_scope.

(** ** C12.  The claim "for every pair" is false: when the result is the zero polynomial
    the normalisation runs below coefficient 0 ([C12_*_refuted]).  For every other pair
    the result is the ring operation. *)
Theorem C12_eval p x : p <> [] -> zPexVal p x = Ok (peval p x).
Proof. apply zPexVal_ok. Qed.
Theorem C12_add_partial p1 p2 : p1 <> [] -> p2 <> [] -> (exists i, coef p1 i + coef p2 i <> 0) ->
  exists p, zPexAdd p1 p2 = Ok (Some p) /\ regular p /\ (length p <= Nat.max (length p1) (length p2))%nat /\
    (forall i, coef p i = coef p1 i + coef p2 i) /\ (forall x, peval p x = peval p1 x + peval p2 x).
Proof.
  intros N1 N2 (i & Hi). destruct (addsub_ok Rplus p1 p2) as (_ & H); auto; [intros; lra|].
  destruct H as (p & E & C & R & L); [intros Z; now apply Hi|]. exists p. repeat split; auto; try apply R.
  intros x. now apply peval_add.
Qed.
Theorem C12_sub_partial p1 p2 : p1 <> [] -> p2 <> [] -> (exists i, coef p1 i <> coef p2 i) ->
  exists p, zPexSub p1 p2 = Ok (Some p) /\ regular p /\ (length p <= Nat.max (length p1) (length p2))%nat /\
    (forall i, coef p i = coef p1 i - coef p2 i) /\ (forall x, peval p x = peval p1 x - peval p2 x).
Proof.
  intros N1 N2 (i & Hi). destruct (addsub_ok Rminus p1 p2) as (_ & H); auto; [intros; lra|].
  destruct H as (p & E & C & R & L); [intros Z; apply Hi; specialize (Z i); lra|]. exists p. repeat split; auto; try apply R.
  intros x. now apply peval_sub.
Qed.
Theorem C12_mul_partial p1 p2 : p1 <> [] -> p2 <> [] -> ~ zero_poly p1 -> ~ zero_poly p2 ->
  exists p, zPexMul p1 p2 = Ok (Some p) /\ regular p /\ (length p <= length p1 + length p2 - 1)%nat /\
    (regular p1 -> regular p2 -> length p = length p1 + length p2 - 1)%nat /\
    (forall x, peval p x = peval p1 x * peval p2 x).
Proof.
  intros N1 N2 Z1 Z2. destruct (zPexMul_ok p1 p2 N1 N2) as (_ & H). destruct (H Z1 Z2) as (p & E & C & R & L).
  exists p. split; [auto|]. split; [auto|]. split; [auto|]. split.
  - intros (_ & R1) (_ & R2). assert (0 < length p1)%nat by (destruct p1; cbn; [congruence|lia]).
    assert (0 < length p2)%nat by (destruct p2; cbn; [congruence|lia]).
    destruct (Nat.lt_ge_cases (length p1 - 1 + (length p2 - 1)) (length p)) as [|G]; [lia|]. exfalso.
    assert (coef p (length p1 - 1 + (length p2 - 1)) = 0) as Z by (now apply coef_out).
    rewrite C, conv_lead in Z; [|lia| |]; try (intros i Hi; apply coef_out; lia).
    apply Rmult_integral in Z. tauto.
  - intros x. now apply peval_conv.
Qed.
Theorem C12_zero_result_undefined p1 p2 : p1 <> [] -> p2 <> [] ->
  ((forall i, coef p1 i + coef p2 i = 0) -> zPexAdd p1 p2 = UB) /\
  ((forall i, coef p1 i = coef p2 i) -> zPexSub p1 p2 = UB) /\
  (zero_poly p1 \/ zero_poly p2 -> zPexMul p1 p2 = UB).
Proof.
  intros N1 N2. split; [|split].
  - intros Z. destruct (addsub_ok Rplus p1 p2) as (H & _); auto. intros; lra.
  - intros Z. destruct (addsub_ok Rminus p1 p2) as (H & _); auto; [intros; lra|]. apply H. intros i. rewrite Z. lra.
  - now apply zPexMul_ok.
Qed.
Theorem C12_sub_itself_refuted : exists p : list R, regular p /\ zPexSub p p = UB.
Proof.
  exists [1; 2]. split; [split; [discriminate|cbn; lra]|].
  now apply (C12_zero_result_undefined [1; 2] [1; 2]).
Qed.
(** (1+2x) + (1-2x) drops to a constant; the dimension goes down from 1 to 0 *)
Example C12_ex : exists i, coef [1; 2] i + coef [1; -2] i <> 0. Proof. exists 0%nat. cbn. lra. Qed.
Example C12_ex2 : ~ zero_poly [1; 2] /\ regular [1; 2].
Proof. split; [intros Z; specialize (Z 1%nat); cbn in Z; lra|split; [discriminate|cbn; lra]]. Qed.
Print Assumptions C12_eval.
Print Assumptions C12_add_partial.
Print Assumptions C12_sub_partial.
Print Assumptions C12_mul_partial.
Print Assumptions C12_zero_result_undefined.
Print Assumptions C12_sub_itself_refuted.

(** ** C13.  For every dividend and every non-constant divisor of no larger dimension the
    loop computes q and r0 with p = q f + r0 and r0 of dimension dim f - 1; the answer is
    delivered if r0 is not the zero polynomial, and an exact division is undefined. *)
Theorem C13_div_partial p f : (2 <= length f <= length p)%nat -> coef f (length f - 1) <> 0 ->
  exists q r, length q = (length p - length f + 1)%nat /\ length r = (length f - 1)%nat /\
    (forall x, peval p x = peval q x * peval f x + peval r x) /\
    (~ zero_poly r -> exists r', zPexDiv p f = Ok (Some (q, r')) /\ regular r' /\ (length r' < length f)%nat /\
       (forall x, peval p x = peval q x * peval f x + peval r' x)) /\
    (zero_poly r -> zPexDiv p f = UB).
Proof.
  intros Hl Hm. destruct (zPexDiv_ok p f Hl Hm) as (q & r & L1 & L2 & V & H1 & H2). exists q, r.
  repeat split; auto. intros Nz. destruct (H1 Nz) as (r' & E & C & R & L). exists r'. repeat split; auto; try apply R.
  intros x. rewrite V. f_equal. symmetry. now apply peval_coef.
Qed.
(** constant divisors and divisors of larger dimension are reported as failures *)
Theorem C13_div_rejects {T} `{Scalar T} (p f : list T) : p <> [] -> f <> [] -> (length f = 1 \/ length p < length f)%nat -> zPexDiv p f = Ok None.
Proof. apply zPexDiv_none. Qed.
(** x^2 - 1 = (x - 1)(x + 1): undefined *)
Theorem C13_exact_division_refuted : exists p f : list R,
  (2 <= length f <= length p)%nat /\ coef f (length f - 1) <> 0 /\ zPexDiv p f = UB.
Proof.
  exists [-1; 0; 1], [1; 1]. split; [cbn; lia|]. split; [cbn; lra|].
  unfold zPexDiv. cbn. rs.
  replace (-1 - (0 - 1 / 1 * 1) / 1 * 1) with 0 by field.
  now rewrite (proj1 (zPexRgl_ok [0])) by (intros [|[|i]]; reflexivity).
Qed.
Theorem C13_constant_divisor_refuted : exists p f : list R, regular p /\ regular f /\ zPexDiv p f = Ok None.
Proof. exists [1; 2], [2]. repeat split; try discriminate; cbn; lra. Qed.
Example C13_ex : (2 <= length [1; 1] <= length [1; 0; 1])%nat /\ coef [1; 1] (length [1; 1] - 1) <> 0.
Proof. cbn. split; [lia|lra]. Qed.
Print Assumptions C13_div_partial.
Print Assumptions C13_div_rejects.
Print Assumptions C13_exact_division_refuted.
Print Assumptions C13_constant_divisor_refuted.

(** ** C14 *)
Theorem C14_dif p : (2 <= length p)%nat ->
  exists q, zPexDif p = Ok (Some q) /\ length q = (length p - 1)%nat /\
    (forall i, coef q i = INR (i + 1) * coef p (i + 1)) /\ (forall x, is_derive (peval p) x (peval q x)).
Proof.
  intros H. exists (ndif p). split; [now apply zPexDif_ok|]. split; [unfold ndif; now rewrite map_length, seq_length|].
  split; [apply coef_ndif|]. intros; apply is_derive_peval.
Qed.
Theorem C14_dif_constant_null (c : R) : zPexDif [c] = Ok None.
Proof. apply zPexDif_const. Qed.
Theorem C14_intg p : p <> [] -> exists q, zPexIntg p = Ok (Some q) /\ length q = (length p + 1)%nat /\ coef q 0 = 0 /\
  (forall x, is_derive (peval q) x (peval p x)) /\ zPexDif q = Ok (Some p).
Proof.
  intros N. exists (nintg p). split; [apply zPexIntg_ok|]. assert (length (nintg p) = length p + 1)%nat as L
    by (unfold nintg; now rewrite map_length, seq_length).
  split; [auto|]. split; [apply coef_nintg|]. split.
  - intros x. rewrite <- (ndif_nintg p) at 2. apply is_derive_peval.
  - rewrite zPexDif_ok, ndif_nintg; auto. rewrite L. destruct p; [congruence|cbn; lia].
Qed.
Theorem C14_difval p d x : p <> [] -> zPexDifVal p d x = Ok (Derive_n (peval p) d x).
Proof. apply zPexDifVal_ok. Qed.
Theorem C14_modulo p a p2 : length p2 = length p -> p <> [] ->
  exists b, zPexModulo p a p2 = Ok (Some b) /\ length b = length p /\
    forall x, rsum (length b) (fun j => coef b j * (x + a) ^ j) = peval p x.
Proof. apply zPexModulo_ok. Qed.
Theorem C14_modulo_mismatch (p p2 : list R) a : length p2 <> length p -> zPexModulo p a p2 = Ok None.
Proof. apply zPexModulo_mismatch. Qed.
(** If memcpy on the (for an odd split overlapping) areas acts as memmove, every root list works ... *)
Theorem C14_exp rs : rs <> [] ->
  exists p, zPexExp false rs = Ok (Some p) /\ length p = S (length rs) /\ coef p (length rs) = 1 /\
    forall x, peval p x = roots_prod rs x.
Proof. intros N. destruct (zPexExp_ok false rs N) as (p & E & (L & C) & V); eauto 7. Qed.
(** ... by the letter of the C standard, root lists whose length is a power of two ... *)
Theorem C14_exp_strict_partial rs k : length rs = (2 ^ k)%nat ->
  exists p, zPexExp true rs = Ok (Some p) /\ length p = S (length rs) /\ coef p (length rs) = 1 /\
    forall x, peval p x = roots_prod rs x.
Proof.
  intros H. assert (rs <> []) as N by (intros ->; cbn in H; pose proof (Nat.pow_nonzero 2 k); lia).
  destruct (zPexExp_ok true rs N) as (p & E & (L & C) & V); eauto 7. right. now exists k.
Qed.
(** ... and three roots already copy between overlapping areas. *)
Theorem C14_exp_overlap_refuted : exists rs : list R, zPexExp true rs = UB.
Proof. exists [1; 2; 3]. reflexivity. Qed.
Example C14_ex : (2 <= length [1; 2; 3])%nat /\ length [1; 2; 3; 4] = (2 ^ 2)%nat. Proof. cbn. lia. Qed.
Example C14_ex2 : Derive_n (peval [1; 2; 3]) 1 2 = 14.
Proof. rewrite Derive_n_peval. unfold peval, coef; cbn. lra. Qed.
Print Assumptions C14_dif.
Print Assumptions C14_dif_constant_null.
Print Assumptions C14_intg.
Print Assumptions C14_difval.
Print Assumptions C14_modulo.
Print Assumptions C14_modulo_mismatch.
Print Assumptions C14_exp.
Print Assumptions C14_exp_strict_partial.
Print Assumptions C14_exp_overlap_refuted.

(** ** C15 *)
Theorem C15_rgl_partial p : ~ zero_poly p ->
  exists p', zPexRgl p = Ok p' /\ regular p' /\ (exists n, p = p' ++ repeat 0 n) /\ forall x, peval p' x = peval p x.
Proof.
  intros N. destruct (zPexRgl_ok p) as (_ & H). destruct (H N) as (p' & E & C & R & F). exists p'.
  split; [auto|]. split; [auto|]. split; [|intros; now apply peval_coef].
  exists (length p - length p')%nat. assert (length p' <= length p)%nat as L by (rewrite F, firstn_length; lia).
  apply coef_ext; [rewrite app_length, repeat_length; lia|]. intros i. rewrite <- C. unfold coef.
  destruct (Nat.lt_ge_cases i (length p')); [now rewrite app_nth1|].
  rewrite app_nth2, nth_overflow by auto. symmetry. apply coef_repeat.
Qed.
Theorem C15_zero_polynomial_refuted n : zPexRgl (repeat 0 n) = UB.
Proof. apply zPexRgl_ok. intros i. apply coef_repeat. Qed.
Example C15_ex : ~ zero_poly [1; 2; 0; 0]. Proof. intros Z. specialize (Z 1%nat). cbn in Z. lra. Qed.
Print Assumptions C15_rgl_partial.
Print Assumptions C15_zero_polynomial_refuted.
