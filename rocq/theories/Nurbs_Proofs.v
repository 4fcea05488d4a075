(** Knot segments, basis functions: proofs. *)
From Coq Require Import Reals Lra Lia.
From Coquelicot Require Import Coquelicot.
From Verif Require Import Prelude Prelude_Proofs Scalar RealLib Fmat Fmat_Proofs Misc_Model IP_Model IP_Proofs Nurbs_Model Nurbs_Spec.
Local Open Scope R_scope.

Lemma quot_0 a : quot a 0 = 0.
Proof. unfold quot. destruct (Req_EM_T 0 0); congruence. Qed.
Lemma quot_ne a b : b <> 0 -> quot a b = a / b.
Proof. intros H. unfold quot. destruct (Req_EM_T b 0); congruence. Qed.

(** the basis on the span [s], as a polynomial of the parameter *)
Fixpoint span (U : nat -> R) (s r i : nat) (t : R) : R :=
  match r with
  | O => if (i =? s)%nat then 1 else 0
  | S r' =>
      quot (t - U i) (U (i + r)%nat - U i) * span U s r' i t
      + quot (U (i + r + 1)%nat - t) (U (i + r + 1)%nat - U (i + 1)%nat) * span U s r' (i + 1) t
  end.

Section Span.
  Variable U : nat -> R.
  Variable K : nat.
  Hypothesis M : nondecreasing U K.
  Lemma mono i j : (i <= j < K)%nat -> U i <= U j.
  Proof.
    intros [H1 H2]. induction j as [|j IH]; [replace i with 0%nat by lia; lra|].
    destruct (Nat.eq_dec i (S j)) as [->|]; [lra|]. specialize (M j). apply Rle_trans with (U j); [apply IH; lia|apply M; lia].
  Qed.
  Lemma span_out s r i t : (s < i \/ i + r < s)%nat -> span U s r i t = 0.
  Proof.
    revert i. induction r as [|r IH]; intros i H; cbn [span].
    - destruct (Nat.eqb_spec i s); [lia|auto].
    - rewrite (IH i) by lia. rewrite (IH (i + 1)%nat) by lia. ring.
  Qed.
  Lemma bspline_span s r i t : (i + r + 1 < K)%nat -> (S s < K)%nat -> U s <= t < U (S s) -> bspline U r i t = span U s r i t.
  Proof.
    revert i. induction r as [|r IH]; intros i H Hs Ht; cbn [span bspline].
    - destruct (Nat.eqb_spec i s) as [->|N].
      + destruct (Rle_dec (U s) t); [|lra]. destruct (Rlt_dec t (U (S s))); lra.
      + destruct (Rle_dec (U i) t); auto. destruct (Rlt_dec t (U (S i))); auto. exfalso.
        assert (i < s \/ s < i)%nat as [L|L] by lia.
        * assert (U (S i) <= U s) by (apply mono; lia). lra.
        * assert (U (S s) <= U i) by (apply mono; lia). lra.
    - rewrite !IH by (auto; lia). reflexivity.
  Qed.
  Lemma span_nonneg s r i t : (i + r + 1 < K)%nat -> (S s < K)%nat -> U s <= t <= U (S s) -> 0 <= span U s r i t.
  Proof.
    revert i. induction r as [|r IH]; intros i H Hs Ht; cbn [span].
    - destruct (Nat.eqb_spec i s); lra.
    - apply Rplus_le_le_0_compat.
      + destruct (le_lt_dec i s) as [L|L]; [|rewrite span_out by lia; lra].
        apply Rmult_le_pos; [|apply IH; auto; lia]. unfold quot. destruct (Req_EM_T _ 0) as [|N]; [lra|].
        assert (U i <= U (i + S r)%nat) by (apply mono; lia). assert (U i <= U s) by (apply mono; lia).
        apply Rmult_le_pos; [lra|]. apply Rlt_le, Rinv_0_lt_compat. lra.
      + destruct (le_lt_dec s (i + 1 + r)) as [L|L]; [|rewrite span_out by lia; lra].
        apply Rmult_le_pos; [|apply IH; auto; lia]. unfold quot. destruct (Req_EM_T _ 0) as [|N]; [lra|].
        assert (U (i + 1)%nat <= U (i + S r + 1)%nat) by (apply mono; lia). assert (U (S s) <= U (i + S r + 1)%nat) by (apply mono; lia).
        apply Rmult_le_pos; [lra|]. apply Rlt_le, Rinv_0_lt_compat. lra.
  Qed.
  Lemma span_sum s r t : (r <= s)%nat -> (s + r + 1 < K)%nat -> U s < U (S s) -> rsum (S r) (fun k => span U s r (s - r + k) t) = 1.
  Proof.
    intros Hr Hk Hs. induction r as [|r IH].
    - cbn. rewrite Nat.sub_0_r, Nat.add_0_r, Nat.eqb_refl. lra.
    - cbn [span]. rewrite rsum_add. rewrite rsum_S_l.
      rewrite (span_out s r (s - S r + 0)) by lia. rewrite Rmult_0_r, Rplus_0_l.
      replace (rsum (S (S r)) _) with (rsum (S r) (fun k => quot (U (s - r + k + S r)%nat - t) (U (s - r + k + S r)%nat - U (s - r + k)%nat) * span U s r (s - r + k) t)).
      2:{ symmetry. cbn [rsum]. rewrite (span_out s r (s - S r + S r + 1)) by lia. rewrite Rmult_0_r, Rplus_0_r.
          assert (G : forall q, quot (U (s - S r + q + S r + 1)%nat - t) (U (s - S r + q + S r + 1)%nat - U (s - S r + q + 1)%nat) * span U s r (s - S r + q + 1) t
            = quot (U (s - r + q + S r)%nat - t) (U (s - r + q + S r)%nat - U (s - r + q)%nat) * span U s r (s - r + q) t).
          { intros q. replace (s - S r + q + S r + 1)%nat with (s - r + q + S r)%nat by lia. replace (s - S r + q + 1)%nat with (s - r + q)%nat by lia. reflexivity. }
          rewrite G. f_equal. apply rsum_ext. intros q _. apply G. }
      rewrite <- rsum_add, <- IH by lia. apply rsum_ext. intros k Hk'.
      replace (s - S r + S k)%nat with (s - r + k)%nat by lia.
      assert (U (s - r + k)%nat <= U s) by (apply mono; lia).
      assert (U (S s) <= U (s - r + k + S r)%nat) by (apply mono; lia).
      rewrite !quot_ne by lra. field. lra.
  Qed.
  (** at the start of a span whose preceding knots coincide *)
  Lemma span_first s r : (r <= s)%nat -> (s + r + 1 < K)%nat -> U s < U (S s) ->
    (forall k, (s < k + r)%nat -> (k <= s)%nat -> U k = U s) -> span U s r (s - r) (U s) = 1.
  Proof.
    intros Hr Hk Hs. induction r as [|r IH]; intros E; cbn [span].
    - rewrite Nat.sub_0_r, Nat.eqb_refl. auto.
    - rewrite (span_out s r (s - S r)) by lia. replace (s - S r + 1)%nat with (s - r)%nat by lia.
      rewrite IH by (auto with arith; try lia; intros k H1 H2; apply E; lia).
      rewrite (E (s - r)%nat) by lia. replace (s - S r + S r + 1)%nat with (S s) by lia.
      rewrite Rmult_0_r, quot_ne by lra. field. lra.
  Qed.
  Lemma span_last s r : (s + r < K)%nat -> U s < U (S s) ->
    (forall k, (s < k)%nat -> (k <= s + r)%nat -> U k = U (S s)) -> span U s r s (U (S s)) = 1.
  Proof.
    intros Hk Hs. induction r as [|r IH]; intros E; cbn [span].
    - rewrite Nat.eqb_refl. auto.
    - rewrite (span_out s r (s + 1)) by lia. rewrite IH by (try lia; intros k H1 H2; apply E; lia).
      rewrite (E (s + S r)%nat) by lia. rewrite Rmult_0_r, quot_ne by lra. field. lra.
  Qed.
  (** ** the derivative *)
  Definition inv0 (x : R) : R := quot 1 x.
  Lemma quot_inv0 a b : quot a b = a * inv0 b.
  Proof. unfold inv0, quot. destruct (Req_EM_T b 0); [ring|]. field. auto. Qed.
  Fixpoint dspan (d s r i : nat) (t : R) : R :=
    match d with
    | O => span U s r i t
    | S d' => INR r * (inv0 (U (i + r)%nat - U i) * dspan d' s (r - 1) i t - inv0 (U (i + r + 1)%nat - U (i + 1)%nat) * dspan d' s (r - 1) (i + 1) t)
    end.
  Lemma ident r i : (i + S r + 1 < K)%nat ->
    inv0 (U (i + S r)%nat - U (i + 1)%nat) * (inv0 (U (i + S r + 1)%nat - U (i + 1)%nat) * (U (i + S r + 1)%nat - U (i + 1)%nat))
    = inv0 (U (i + S r)%nat - U (i + 1)%nat) * (inv0 (U (i + S r)%nat - U i) * (U (i + S r)%nat - U i)).
  Proof.
    intros H. unfold inv0, quot. destruct (Req_EM_T (U (i + S r)%nat - U (i + 1)%nat) 0) as [|N]; [ring|].
    assert (U i <= U (i + 1)%nat) by (apply mono; lia). assert (U (i + 1)%nat <= U (i + S r)%nat) by (apply mono; lia).
    assert (U (i + S r)%nat <= U (i + S r + 1)%nat) by (apply mono; lia).
    destruct (Req_EM_T (U (i + S r + 1)%nat - U (i + 1)%nat) 0); [lra|]. destruct (Req_EM_T (U (i + S r)%nat - U i) 0); [lra|]. field. repeat split; lra.
  Qed.
  Lemma dspan_derive1 s r i t : (i + r + 1 < K)%nat -> is_derive (span U s r i) t (dspan 1 s r i t).
  Proof.
    revert i. induction r as [|r IH]; intros i H.
    - cbn [span dspan]. change (INR 0) with 0. rewrite Rmult_0_l. apply @is_derive_const.
    - assert (D1 := IH i). assert (D2 := IH (i + 1)%nat).
      pose (A := inv0 (U (i + S r)%nat - U i)). pose (B := inv0 (U (i + S r + 1)%nat - U (i + 1)%nat)).
      apply is_derive_ext with (fun t => A * ((t - U i) * span U s r i t) + B * ((U (i + S r + 1)%nat - t) * span U s r (i + 1) t)).
      { intros u. cbn [span]. rewrite !quot_inv0. fold A B. rewrite <- !Rmult_assoc. rewrite !(Rmult_comm _ A), !(Rmult_comm _ B). reflexivity. }
      assert (D : is_derive (fun t => A * ((t - U i) * span U s r i t) + B * ((U (i + S r + 1)%nat - t) * span U s r (i + 1) t)) t
        (A * (span U s r i t + (t - U i) * dspan 1 s r i t) + B * (- span U s r (i + 1) t + (U (i + S r + 1)%nat - t) * dspan 1 s r (i + 1) t))).
      { specialize (D1 ltac:(lia)). specialize (D2 ltac:(lia)).
        auto_derive; [repeat split; auto; eexists; eassumption|].
        erewrite !is_derive_unique by eassumption. ring. }
      replace (dspan 1 s (S r) i t) with (A * (span U s r i t + (t - U i) * dspan 1 s r i t) + B * (- span U s r (i + 1) t + (U (i + S r + 1)%nat - t) * dspan 1 s r (i + 1) t)); [exact D|].
      clear D D1 D2 IH.
      destruct r as [|r].
      { cbn [dspan Nat.sub]. fold A B. change (INR 1) with 1. change (INR 0) with 0. cbn [dspan]. ring. }
      cbn [dspan]. replace (S (S r) - 1)%nat with (S r) by lia. replace (S r - 1)%nat with r by lia. fold A B.
      rewrite (S_INR (S r)). pose proof (ident (S r) i ltac:(lia)) as E. fold A B in E.
      cbn [span]. rewrite !quot_inv0.
      replace (i + 1 + S r)%nat with (i + S (S r))%nat by lia. replace (i + S r + 1)%nat with (i + S (S r))%nat in * by lia.
      replace (i + 1 + 1)%nat with (i + 2)%nat by lia.
      set (c := inv0 (U (i + S (S r))%nat - U (i + 1)%nat)) in *.
      set (V := U (i + S (S r) + 1)%nat) in *. set (W := U (i + S (S r))%nat) in *.
      set (X := span U s r i t). set (Y := span U s r (i + 1) t). set (Z := span U s r (i + 2) t).
      set (a1 := inv0 (U (i + S r)%nat - U i)). set (b1 := inv0 (V - U (i + 2)%nat)).
      apply Rminus_diag_uniq. transitivity (INR (S r) * Y * (c * (B * (V - U (i + 1)%nat)) - c * (A * (W - U i)))); [ring|rewrite E; ring].
  Qed.
  Lemma dspan_derive d s r i t : (i + r + 1 < K)%nat -> is_derive (dspan d s r i) t (dspan (S d) s r i t).
  Proof.
    revert r i. induction d as [|d IH]; intros r i H; [now apply dspan_derive1|].
    destruct r as [|r].
    { apply is_derive_ext with (fun _ => 0); [intros u; cbn [dspan]; change (INR 0) with 0; now rewrite Rmult_0_l|].
      replace (dspan (S (S d)) s 0 i t) with 0 by (cbn [dspan]; change (INR 0) with 0; ring). apply @is_derive_const. }
    assert (D1 := IH r i ltac:(lia)). assert (D2 := IH r (i + 1)%nat ltac:(lia)).
    cbn [dspan] in *. replace (S r - 1)%nat with r by lia.
    generalize (INR (S r)). intros k.
    auto_derive; [repeat split; auto; eexists; eassumption|].
    apply is_derive_unique in D1, D2.
    change (Derive (fun x => dspan d s r i x) t) with (Derive (dspan d s r i) t).
    change (Derive (fun x => dspan d s r (i + 1) x) t) with (Derive (dspan d s r (i + 1)) t).
    rewrite D1, D2. ring.
  Qed.
  Lemma dspan_derive_n d s r i t : (i + r + 1 < K)%nat -> is_derive_n (span U s r i) d t (dspan d s r i t).
  Proof.
    intros H. revert t. induction d as [|d IH]; intros t; [reflexivity|]. cbn [is_derive_n].
    apply is_derive_ext with (dspan d s r i); [|now apply dspan_derive].
    intros u. symmetry. destruct d; [reflexivity|]. apply is_derive_unique. apply IH.
  Qed.
  Lemma dspan_high d s r i t : (r < d)%nat -> dspan d s r i t = 0.
  Proof.
    revert r i. induction d as [|d IH]; intros r i H; [lia|]. cbn [dspan]. destruct r as [|r]; [change (INR 0) with 0; ring|].
    rewrite !IH by lia. ring.
  Qed.
  Lemma dspan_out d s r i t : (s < i \/ i + r < s)%nat -> dspan d s r i t = 0.
  Proof.
    revert r i. induction d as [|d IH]; intros r i H; [now apply span_out|]. cbn [dspan].
    destruct r as [|r]; [change (INR 0) with 0; ring|]. rewrite !IH by lia. ring.
  Qed.
End Span.
