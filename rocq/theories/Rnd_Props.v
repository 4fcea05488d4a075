(** C126: what the compensated summation of zDataSum, zRawVecInnerProd and zRawVecWSqrNorm is worth
    in rounded arithmetic. *)
From Coq Require Import Reals Lra Lia.
From Verif Require Import Prelude Prelude_Proofs Scalar RealLib Raw_Model Raw_Spec Raw_Proofs RawReal_Proofs Stat_Model Stat_Proofs Rnd_Model.
Local Open Scope R_scope.

(** ** Specification: the plain rounded sum and the rounded sum of the corrections *)
Fixpoint plain (rnd : R -> R) (x : nat -> R) (n : nat) : R :=
  match n with O => 0 | S k => rnd (plain rnd x k + x k) end.
Definition step (rnd : R -> R) x k : R := rnd (plain rnd x (S k) - plain rnd x k).
Definition correction (rnd : R -> R) x k : R := rnd (x k - step rnd x k).
Fixpoint corrections (rnd : R -> R) (x : nat -> R) (n : nat) : R :=
  match n with O => 0 | S k => rnd (corrections rnd x k + correction rnd x k) end.
(** the error of rounding y *)
Definition rerr (rnd : R -> R) y : R := rnd y - y.
(** the three rounding errors of the correction in round k: note that the error of the sum itself,
    [rerr rnd (plain rnd x k + x k)], is not among them *)
Definition cerr rnd x k : R :=
  Rabs (rerr rnd (plain rnd x (S k) - plain rnd x k)) + Rabs (rerr rnd (x k - step rnd x k)) + Rabs (rerr rnd (corrections rnd x k + correction rnd x k)).

Lemma balance rnd x n : exists E, Rabs E <= rsum n (cerr rnd x) /\ plain rnd x n + corrections rnd x n = rsum n x + E.
Proof.
  induction n as [|n (E & B & IH)]; [exists 0; cbn; rewrite Rabs_R0; lra|].
  exists (E - rerr rnd (plain rnd x (S n) - plain rnd x n) + rerr rnd (x n - step rnd x n) + rerr rnd (corrections rnd x n + correction rnd x n)).
  split.
  - cbn [rsum]. unfold cerr at 2.
    set (a := rerr rnd (plain rnd x (S n) - plain rnd x n)) in *. set (b := rerr rnd (x n - step rnd x n)) in *. set (c := rerr rnd (corrections rnd x n + correction rnd x n)) in *.
    clearbody a b c. revert B. unfold Rabs. repeat destruct Rcase_abs; lra.
  - unfold rerr. fold (step rnd x n). fold (correction rnd x n).
    cbn [corrections rsum]. change (rnd (x n - step rnd x n)) with (correction rnd x n).
    lra.
Qed.
Lemma comp_sum_rnd rnd (n : nat) (e : Z -> res R) (g : nat -> R) :
  (forall i, (i < n)%nat -> e (Z.of_nat i) = Ok (g i)) -> @comp_sum R (RndS rnd) (Z.of_nat n) e = Ok (rnd (plain rnd g n + corrections rnd g n)).
Proof.
  intros He. unfold comp_sum.
  destruct (forZ_inv (fun k st => st = (plain rnd g k, corrections rnd g k)) n
     (fun i st => x <- e i ;; Ok (@comp_step R (RndS rnd) st x)) (@s0 R (RndS rnd), @s0 R (RndS rnd))) as (st & E & ->).
  - reflexivity.
  - intros k st Hk ->. rewrite He by auto. cbn [bind]. eexists; split; [reflexivity|]. reflexivity.
  - rewrite E. reflexivity.
Qed.
Lemma zDataSum_rnd rnd data size : (size <= length data)%nat ->
  @zDataSum R (RndS rnd) data size = Ok (rnd (plain rnd (fun i => nth i data 0) size + corrections rnd (fun i => nth i data 0) size)).
Proof.
  intros H. unfold zDataSum. set (g := fun i => nth i data 0).
  match goal with |- context [for_ 0 size ?f ?s] => destruct (for_inv (fun k st => st = (plain rnd g k, corrections rnd g k)) 0 size f s) as (st & E & ->) end.
  - lia.
  - reflexivity.
  - intros k st Hk ->. rewrite get_nth by lia. cbn [bind]. eexists; split; [reflexivity|]. reflexivity.
  - rewrite E. reflexivity.
Qed.

(** ** C126 *)
(** The answer is the exact sum, up to the errors of rounding the corrections, rounded once:
    the errors of the running sum itself do not appear, for any number of data. *)
Theorem C126_data_sum rnd data size : (size <= length data)%nat ->
  let x := fun i => nth i data 0 in
  exists E, Rabs E <= rsum size (cerr rnd x) /\ @zDataSum R (RndS rnd) data size = Ok (rnd (rsum size x + E)).
Proof.
  intros H x. destruct (balance rnd x size) as (E & B & Q). exists E. split; auto. rewrite zDataSum_rnd by auto. fold x. now rewrite Q.
Qed.
Theorem C126_inner_prod rnd m v1 v2 (n : nat) (x y : nat -> R) : vecat m v1 n x -> vecat m v2 n y ->
  let p := fun i => rnd (x i * y i) in
  exists E, Rabs E <= rsum n (cerr rnd p) /\ @zRawVecInnerProd R (RndS rnd) m v1 v2 (Z.of_nat n) = Ok (rnd (rsum n p + E)).
Proof.
  intros V1 V2 p. destruct (balance rnd p n) as (E & B & Q). exists E. split; auto.
  unfold zRawVecInnerProd. rewrite (comp_sum_rnd rnd n _ p); [now rewrite Q|].
  intros i Hi. rewrite (load_ok _ _ _ (V1 i Hi)). cbn [bind]. rewrite (load_ok _ _ _ (V2 i Hi)). reflexivity.
Qed.
Theorem C126_weighted_norm rnd m v w (n : nat) (x y : nat -> R) : vecat m v n x -> vecat m w n y ->
  let p := fun i => rnd (rnd (y i * x i) * x i) in
  exists E, Rabs E <= rsum n (cerr rnd p) /\ @zRawVecWSqrNorm R (RndS rnd) m v w (Z.of_nat n) = Ok (rnd (rsum n p + E)).
Proof.
  intros V1 V2 p. destruct (balance rnd p n) as (E & B & Q). exists E. split; auto.
  unfold zRawVecWSqrNorm. rewrite (comp_sum_rnd rnd n _ p); [now rewrite Q|].
  intros i Hi. rewrite (load_ok _ _ _ (V2 i Hi)). cbn [bind]. rewrite (load_ok _ _ _ (V1 i Hi)). reflexivity.
Qed.
Theorem C126_col_inner_prod rnd m a cap v (rs cs c : nat) (x : nat -> nat -> R) (y : nat -> R) : matat m a cap rs cs x -> (c < cs)%nat -> vecat m v rs y ->
  let p := fun i => rnd (x i c * y i) in
  exists E, Rabs E <= rsum rs (cerr rnd p) /\ @zRawMatColInnerProd R (RndS rnd) m a cap v (Z.of_nat rs) (Z.of_nat cs) (Z.of_nat c) = Ok (rnd (rsum rs p + E)).
Proof.
  intros Hx Hc Hy p. destruct (balance rnd p rs) as (E & B & Q). exists E. split; auto.
  unfold zRawMatColInnerProd. rewrite (comp_sum_rnd rnd rs _ p); [now rewrite Q|].
  intros i Hi. rewrite (load_ok m _ (x i c)).
  - cbn [bind]. rewrite (load_ok _ _ _ (Hy i Hi)). reflexivity.
  - replace (padd (padd a (Z.of_nat c)) (Z.of_nat i * cap)%Z) with (at2 a cap i c); auto. unfold at2. rewrite padd_padd. f_equal. lia.
Qed.
Theorem C126_trace rnd m a cap (rs cs : nat) (x : nat -> nat -> R) : matat m a cap rs cs x ->
  let p := fun i => x i i in let n := Nat.min rs cs in
  exists E, Rabs E <= rsum n (cerr rnd p) /\ @zRawMatTrace R (RndS rnd) m a cap (Z.of_nat rs) (Z.of_nat cs) = Ok (rnd (rsum n p + E)).
Proof.
  intros Hx p n. destruct (balance rnd p n) as (E & B & Q). exists E. split; auto.
  unfold zRawMatTrace. replace (Z.min (Z.of_nat rs) (Z.of_nat cs)) with (Z.of_nat n) by (unfold n; lia). rewrite (comp_sum_rnd rnd n _ p); [now rewrite Q|].
  intros i Hi. apply load_ok. replace (padd a (Z.of_nat i * (cap + 1))%Z) with (at2 a cap i i).
  - apply Hx; unfold n in Hi; lia.
  - unfold at2. f_equal. lia.
Qed.
(** If the corrections are exact the answer is the correctly rounded sum. *)
Corollary C126_correctly_rounded rnd data size : (size <= length data)%nat ->
  let x := fun i => nth i data 0 in
  (forall k, (k < size)%nat -> rerr rnd (plain rnd x (S k) - plain rnd x k) = 0 /\ rerr rnd (x k - step rnd x k) = 0 /\ rerr rnd (corrections rnd x k + correction rnd x k) = 0) ->
  @zDataSum R (RndS rnd) data size = Ok (rnd (rsum size x)).
Proof.
  intros H x Z. destruct (C126_data_sum rnd data size H) as (E & B & ->). fold x in B |- *.
  rewrite (rsum_0 size (cerr rnd x)) in B.
  - assert (E = 0) as ->; [|now rewrite Rplus_0_r]. revert B. unfold Rabs. destruct Rcase_abs; lra.
  - intros k Hk. destruct (Z k Hk) as (A1 & A2 & A3). unfold cerr. rewrite A1, A2, A3, Rabs_R0. lra.
Qed.
(** With a rounding of relative error u the error before the last rounding is at most u times the sizes
    of the operands of the corrections. *)
Corollary C126_relative rnd u data size : (size <= length data)%nat -> (forall y, Rabs (rerr rnd y) <= u * Rabs y) ->
  let x := fun i => nth i data 0 in
  exists E, Rabs E <= u * rsum size (fun k => Rabs (plain rnd x (S k) - plain rnd x k) + Rabs (x k - step rnd x k) + Rabs (corrections rnd x k + correction rnd x k)) /\
    @zDataSum R (RndS rnd) data size = Ok (rnd (rsum size x + E)).
Proof.
  intros H U x. destruct (C126_data_sum rnd data size H) as (E & B & Q). exists E. split; auto.
  eapply Rle_trans; [exact B|]. rewrite <- rsum_scal. apply rsum_le. intros k Hk. unfold cerr. fold x. cbn beta. rewrite !Rmult_plus_distr_l.
  pose proof (U (plain rnd x (S k) - plain rnd x k)). pose proof (U (x k - step rnd x k)). pose proof (U (corrections rnd x k + correction rnd x k)). unfold Rminus in *. apply Rplus_le_compat; [apply Rplus_le_compat|]; assumption.
Qed.

(** ** Witness: a rounding in which 11 is not representable; the plain sum of 10, 1, 1 stays at 10 *)
Definition rnd_ex (y : R) : R := if Rltb 10 y then (if Rltb y 12 then 10 else y) else y.
Ltac rx := unfold rnd_ex; repeat match goal with |- context [Rltb ?a ?b] => destruct (Rltb_spec a b); try lra end.
Lemma rx10 : rnd_ex 10 = 10. Proof. rx. Qed.
Lemma rx11 : rnd_ex 11 = 10. Proof. rx. Qed.
Lemma rx12 : rnd_ex 12 = 12. Proof. rx. Qed.
Lemma rx0 : rnd_ex 0 = 0. Proof. rx. Qed.
Lemma rx1 : rnd_ex 1 = 1. Proof. rx. Qed.
Lemma rx2 : rnd_ex 2 = 2. Proof. rx. Qed.
Example C126_witness : plain rnd_ex (fun i => nth i [10; 1; 1] 0) 3 = 10 /\ @zDataSum R (RndS rnd_ex) [10; 1; 1] 3 = Ok 12.
Proof.
  assert (P1 : rnd_ex (0 + 10) = 10) by (replace (0 + 10) with 10 by ring; apply rx10).
  assert (P2 : rnd_ex (10 + 1) = 10) by (replace (10 + 1) with 11 by ring; apply rx11).
  assert (D1 : rnd_ex (10 - 0) = 10) by (replace (10 - 0) with 10 by ring; apply rx10).
  assert (D2 : rnd_ex (10 - 10) = 0) by (replace (10 - 10) with 0 by ring; apply rx0).
  assert (D3 : rnd_ex (1 - 0) = 1) by (replace (1 - 0) with 1 by ring; apply rx1).
  assert (Q0 : rnd_ex (0 + 0) = 0) by (replace (0 + 0) with 0 by ring; apply rx0).
  assert (Q1 : rnd_ex (0 + 1) = 1) by (replace (0 + 1) with 1 by ring; apply rx1).
  assert (Q2 : rnd_ex (1 + 1) = 2) by (replace (1 + 1) with 2 by ring; apply rx2).
  split.
  - cbn. now rewrite P1, P2, P2.
  - rewrite (C126_correctly_rounded rnd_ex [10; 1; 1] 3); [cbn|cbn; lia|].
    + replace (0 + 10 + 1 + 1) with 12 by ring. now rewrite rx12.
    + set (x := fun i => nth i [10; 1; 1] 0). intros k Hk. unfold rerr.
      assert (S1 : plain rnd_ex x 1 = 10) by exact P1.
      assert (S2 : plain rnd_ex x 2 = 10) by (change (rnd_ex (plain rnd_ex x 1 + 1) = 10); rewrite S1; exact P2).
      assert (S3 : plain rnd_ex x 3 = 10) by (change (rnd_ex (plain rnd_ex x 2 + 1) = 10); rewrite S2; exact P2).
      assert (T0 : step rnd_ex x 0 = 10) by (unfold step; rewrite S1; exact D1).
      assert (T1 : step rnd_ex x 1 = 0) by (unfold step; rewrite S1, S2; exact D2).
      assert (T2 : step rnd_ex x 2 = 0) by (unfold step; rewrite S2, S3; exact D2).
      assert (C0 : correction rnd_ex x 0 = 0) by (unfold correction; rewrite T0; exact D2).
      assert (C1 : correction rnd_ex x 1 = 1) by (unfold correction; rewrite T1; exact D3).
      assert (C2 : correction rnd_ex x 2 = 1) by (unfold correction; rewrite T2; exact D3).
      assert (K1 : corrections rnd_ex x 1 = 0) by (cbn [corrections]; rewrite C0; exact Q0).
      assert (K2 : corrections rnd_ex x 2 = 1) by (change (rnd_ex (corrections rnd_ex x 1 + correction rnd_ex x 1) = 1); rewrite K1, C1; exact Q1).
      destruct k as [|[|[|k]]]; [| | |lia].
      * rewrite S1, T0, C0. change (plain rnd_ex x 0) with 0. change (corrections rnd_ex x 0) with 0. change (x 0%nat) with 10. cbv zeta beta. cbn [nth]. rewrite D1, D2, Q0. lra.
      * rewrite S1, S2, T1, C1, K1. change (x 1%nat) with 1. cbv zeta beta. cbn [nth]. rewrite D2, D3, Q1. lra.
      * rewrite S2, S3, T2, C2, K2. change (x 2%nat) with 1. cbv zeta beta. cbn [nth]. rewrite D2, D3, Q2. lra.
Qed.
Print Assumptions C126_data_sum. Print Assumptions C126_inner_prod. Print Assumptions C126_weighted_norm. Print Assumptions C126_col_inner_prod. Print Assumptions C126_trace. Print Assumptions C126_correctly_rounded. Print Assumptions C126_relative.
