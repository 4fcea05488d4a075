(** Real-number facts used by the proofs: reflection of the boolean comparisons
    of [RealS] and finite sums [rsum n f] = f 0 + ... + f (n-1). *)
From Coq Require Export Reals Lra Psatz.
From Verif Require Export Prelude_Proofs Scalar.
Local Open Scope R_scope.

Lemma Rltb_spec x y : reflect (x < y) (Rltb x y).
Proof. unfold Rltb. destruct (Rlt_dec x y); constructor; auto. Qed.
Lemma Rleb_spec x y : reflect (x <= y) (Rleb x y).
Proof. unfold Rleb. destruct (Rle_dec x y); constructor; auto. Qed.
Lemma Reqb_spec x y : reflect (x = y) (Reqb x y).
Proof. unfold Reqb. destruct (Req_EM_T x y); constructor; auto. Qed.

Lemma Rltb_true x y : x < y -> Rltb x y = true.
Proof. destruct (Rltb_spec x y); tauto. Qed.
Lemma Rltb_false x y : ~ x < y -> Rltb x y = false.
Proof. destruct (Rltb_spec x y); tauto. Qed.
Lemma Rleb_true x y : x <= y -> Rleb x y = true.
Proof. destruct (Rleb_spec x y); tauto. Qed.
Lemma Rleb_false x y : ~ x <= y -> Rleb x y = false.
Proof. destruct (Rleb_spec x y); tauto. Qed.

(** Turn the generic operations into those of [R]. *)
Ltac rs := cbn [s0 s1 sadd ssub smul sdiv sopp sabs ssqrt slt sle seq sofZ RealS is_tol] in *.

Lemma is_tol_R tol x : is_tol tol x = Rleb (Rabs x) tol.
Proof. reflexivity. Qed.
Lemma is_tol_0 x : is_tol 0 x = true <-> x = 0.
Proof.
  rewrite is_tol_R. destruct (Rleb_spec (Rabs x) 0) as [H|H].
  - split; auto. intros _. destruct (Req_dec x 0) as [|N]; auto.
    pose proof (Rabs_pos_lt x N); lra.
  - split; [discriminate|]. intros ->. rewrite Rabs_R0 in H. lra.
Qed.
Lemma not_tol_neq0 tol x : 0 <= tol -> is_tol tol x = false -> x <> 0.
Proof.
  rewrite is_tol_R. intros Ht. destruct (Rleb_spec (Rabs x) tol) as [H|H]; [discriminate|].
  intros _ ->. rewrite Rabs_R0 in H. lra.
Qed.

(** Finite sums. *)
Fixpoint rsum (n : nat) (f : nat -> R) : R :=
  match n with O => 0 | S m => rsum m f + f m end.

Lemma rsum_ext n f g : (forall i, (i < n)%nat -> f i = g i) -> rsum n f = rsum n g.
Proof.
  induction n as [|n IH]; intros H; cbn; auto. rewrite IH, H; auto.
Qed.
Lemma rsum_0 n f : (forall i, (i < n)%nat -> f i = 0) -> rsum n f = 0.
Proof.
  induction n as [|n IH]; intros H; cbn; auto. rewrite IH, H; auto; lra.
Qed.
Lemma rsum_add n f g : rsum n (fun i => f i + g i) = rsum n f + rsum n g.
Proof. induction n as [|n IH]; cbn; [|rewrite IH]; lra. Qed.
Lemma rsum_sub n f g : rsum n (fun i => f i - g i) = rsum n f - rsum n g.
Proof. induction n as [|n IH]; cbn; [|rewrite IH]; lra. Qed.
Lemma rsum_opp n f : rsum n (fun i => - f i) = - rsum n f.
Proof. induction n as [|n IH]; cbn; [|rewrite IH]; lra. Qed.
Lemma rsum_scal n c f : rsum n (fun i => c * f i) = c * rsum n f.
Proof. induction n as [|n IH]; cbn; [|rewrite IH]; lra. Qed.
Lemma rsum_scal_r n c f : rsum n (fun i => f i * c) = rsum n f * c.
Proof. induction n as [|n IH]; cbn; [|rewrite IH]; lra. Qed.
Lemma rsum_swap n m f :
  rsum n (fun i => rsum m (fun j => f i j)) = rsum m (fun j => rsum n (fun i => f i j)).
Proof.
  induction n as [|n IH]; cbn.
  - now rewrite rsum_0.
  - rewrite IH. now rewrite <- rsum_add.
Qed.
Lemma rsum_S_l n f : rsum (S n) f = f O + rsum n (fun i => f (S i)).
Proof. induction n as [|n IH]; cbn in *; lra. Qed.
Lemma rsum_app n m f : rsum (n + m) f = rsum n f + rsum m (fun i => f (n + i)%nat).
Proof.
  induction m as [|m IH]; cbn.
  - rewrite Nat.add_0_r; lra.
  - rewrite Nat.add_succ_r; cbn. rewrite IH; lra.
Qed.
Lemma rsum_split n k f : (k < n)%nat ->
  rsum n f = rsum k f + f k + rsum (n - S k) (fun i => f (S k + i)%nat).
Proof.
  intros H. replace n with (S k + (n - S k))%nat at 1 by lia. now rewrite rsum_app.
Qed.
Lemma rsum_delta n k f : (k < n)%nat ->
  (forall i, (i < n)%nat -> i <> k -> f i = 0) -> rsum n f = f k.
Proof.
  intros H Hf. rewrite (rsum_split n k) by auto.
  rewrite !rsum_0; [lra| |]; intros i Hi; apply Hf; lia.
Qed.
Lemma rsum_nonneg n f : (forall i, (i < n)%nat -> 0 <= f i) -> 0 <= rsum n f.
Proof.
  induction n as [|n IH]; intros H; cbn; [lra|].
  assert (0 <= rsum n f) by auto. assert (0 <= f n) by auto. lra.
Qed.
Lemma rsum_le n f g : (forall i, (i < n)%nat -> f i <= g i) -> rsum n f <= rsum n g.
Proof.
  induction n as [|n IH]; intros H; cbn; [lra|].
  assert (rsum n f <= rsum n g) by auto. assert (f n <= g n) by auto. lra.
Qed.
Lemma rsum_nonneg_0 n f : (forall i, (i < n)%nat -> 0 <= f i) -> rsum n f = 0 ->
  forall i, (i < n)%nat -> f i = 0.
Proof.
  induction n as [|n IH]; intros H H0 i Hi; [lia|]. cbn in H0.
  assert (0 <= rsum n f) by (apply rsum_nonneg; auto). assert (0 <= f n) by auto.
  destruct (Nat.eq_dec i n) as [->|N]; [lra|]. apply IH; auto; try lra. lia.
Qed.
Lemma rsum_const n c : rsum n (fun _ => c) = INR n * c.
Proof.
  induction n as [|n IH]; [cbn; lra|]. rewrite S_INR. cbn [rsum]. rewrite IH. lra.
Qed.
Lemma rsum_rev n f : rsum n f = rsum n (fun i => f (n - 1 - i)%nat).
Proof.
  induction n as [|n IH]; auto.
  rewrite (rsum_S_l n (fun i => f (S n - 1 - i)%nat)). cbn [rsum]. rewrite IH.
  replace (f (S n - 1 - 0)%nat) with (f n) by (f_equal; lia).
  replace (rsum n (fun i => f (S n - 1 - S i)%nat)) with (rsum n (fun i => f (n - 1 - i)%nat)).
  - lra.
  - apply rsum_ext; intros; f_equal; lia.
Qed.
