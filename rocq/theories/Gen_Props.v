(** C90 (linear equations in the sense of the least norm or the least error).  Arithmetic is that of the reals and the
    tolerance of the elimination is 0, except in the statements for every scalar type. *)
From Coq Require Import Reals Lra Lia Psatz QArith.
From Verif Require Import Prelude Prelude_Proofs Scalar RealLib Fmat Fmat_Proofs LE_Model LE_Spec LE_Props IP_Model Vop Eig_Model
  Gen_Model Gen_Spec Gen_Proofs Gen2_Proofs.
Local Open Scope R_scope.

(** ** Norm minimisation (zLESolveNormMin), for every n x p matrix, weights positive or NULL (then 1): an answer is a
    solution of a x = b and has the least sum of x_k^2 / w_k of all solutions, being the only one; there is no answer
    exactly when the rows are linearly dependent. *)
Theorem C90_norm_min_partial n p (a : fmat R) (b : fvec R) w ans : (0 < n)%nat -> (0 < p)%nat -> nr a = n -> nc a = p -> vlen b = n -> vlen ans = p ->
  wfit p w -> (forall k, (k < p)%nat -> 0 < wt w k) ->
  exists o, zLESolveNormMin 0 a b w ans = Ok o /\
    match o with
    | Some x => vlen x = p /\ rows_indep n p (el a) /\
                least p (fun z => solves n p (el a) z (vel b)) (fun z => rsum p (fun k => 1 / wt w k * z k ^ 2)) (vel x)
    | None => ~ rows_indep n p (el a)
    end.
Proof.
  intros Hn Hp A1 A2 B X F W. unfold zLESolveNormMin. rewrite A1, A2, B, X, !Nat.eqb_refl. cbn [negb orb].
  destruct (normmin_ok n p a Hn Hp A1 A2 b w ans (List.seq 0 n) B X F W (perm_seq n)) as (o & E & H).
  exists o. split; [|exact H]. rewrite <- E. destruct w as [w|]; [|reflexivity]. cbn in F. rewrite F, Nat.eqb_refl. reflexivity.
Qed.
(** The weights are said to be those of the norm: the answer does not minimise the sum of w_k x_k^2 (x + y = 1 with
    the weights 1 and 2). *)
Definition wsqQ (w x : list Q) : Q := fold_right Qplus 0%Q (map (fun p => fst p * snd p * snd p)%Q (combine w x)).
Definition Qltb (x y : Q) : bool := negb (Qle_bool y x).
Lemma Qltb_lt x y : Qltb x y = true -> (x < y)%Q.
Proof. unfold Qltb. intros H. apply Qnot_le_lt. intros L. apply Qle_bool_iff in L. rewrite L in H. discriminate H. Qed.
Lemma weights_check : match zLESolveNormMin 0%Q (mat_of 0%Q [[1; 1]]%Q) (vec_of 0%Q [1]%Q) (Some (vec_of 0%Q [1; 2]%Q)) (zvec 2) with
  | Ok (Some x) => solves_q (mat_of 0%Q [[1; 1]]%Q) x (vec_of 0%Q [1]%Q) && Qltb (wsqQ [1; 2]%Q [2 # 3; 1 # 3]%Q) (wsqQ [1; 2]%Q (to_list x))
  | _ => false end = true.
Proof. vm_compute. reflexivity. Qed.
Theorem C90_weights_refuted : exists (a : fmat Q) (b w x z : fvec Q), nr a = 1%nat /\ nc a = 2%nat /\
  zLESolveNormMin 0%Q a b (Some w) (zvec 2) = Ok (Some x) /\ solves_q a x b = true /\ solves_q a z b = true /\
  (wsqQ (to_list w) (to_list z) < wsqQ (to_list w) (to_list x))%Q.
Proof.
  pose proof weights_check as C. destruct (zLESolveNormMin _ _ _ _ _) as [[x|]|] eqn:E; try discriminate C.
  apply andb_prop in C. destruct C as (C1 & C2). exists (mat_of 0%Q [[1; 1]]%Q), (vec_of 0%Q [1]%Q), (vec_of 0%Q [1; 2]%Q), x, (vec_of 0%Q [2 # 3; 1 # 3]%Q).
  conjs; auto. apply Qltb_lt. exact C2.
Qed.

(** ** Norm minimisation with a reference (zLESolveRefNormMin) *)
Theorem C90_ref_norm_min_partial n p (a : fmat R) (b : fvec R) w ref ans : (0 < n)%nat -> (0 < p)%nat -> nr a = n -> nc a = p -> vlen b = n -> vlen ref = p -> vlen ans = p ->
  wfit p w -> (forall k, (k < p)%nat -> 0 < wt w k) ->
  exists o, zLESolveRefNormMin 0 a b w ref ans = Ok o /\
    match o with
    | Some x => vlen x = p /\ rows_indep n p (el a) /\
                least p (fun z => solves n p (el a) z (vel b)) (fun z => rsum p (fun k => 1 / wt w k * (z k - vel ref k) ^ 2)) (vel x)
    | None => ~ rows_indep n p (el a)
    end.
Proof.
  intros Hn Hp A1 A2 B RF X F W. unfold zLESolveRefNormMin. rewrite A1, A2, B, X, RF, !Nat.eqb_refl. cbn [negb orb].
  destruct (refnormmin_ok n p a Hn Hp A1 A2 b w ref ans (List.seq 0 n) B RF X F W (perm_seq n)) as (o & E & H).
  exists o. split; [|exact H]. rewrite <- E. destruct w as [w|]; [|reflexivity]. cbn in F. rewrite F, Nat.eqb_refl. reflexivity.
Qed.

(** ** Error minimisation (zLESolveErrorMin): an answer has the least weighted residual of all vectors, being the only
    one; there is no answer exactly when the columns are linearly dependent. *)
Theorem C90_error_min n p (a : fmat R) (b : fvec R) w ans : (0 < n)%nat -> (0 < p)%nat -> nr a = n -> nc a = p -> vlen b = n -> vlen ans = p ->
  wfit n w -> (forall i, (i < n)%nat -> 0 < wt w i) ->
  exists o, zLESolveErrorMin 0 a b w ans = Ok o /\
    match o with
    | Some x => vlen x = p /\ cols_indep n p (el a) /\
                least p (fun _ => True) (fun z => rsum n (fun i => wt w i * (mv p (el a) z i - vel b i) ^ 2)) (vel x)
    | None => ~ cols_indep n p (el a)
    end.
Proof.
  intros Hn Hp A1 A2 B X F W. unfold zLESolveErrorMin. rewrite A1, A2, B, X, !Nat.eqb_refl. cbn [negb orb].
  destruct (errormin_ok n p a Hn Hp A1 A2 b w ans (List.seq 0 p) B X F W (perm_seq p)) as (o & E & H).
  exists o. split; [|exact H]. rewrite <- E. destruct w as [w|]; [|reflexivity]. cbn in F. rewrite F, Nat.eqb_refl. reflexivity.
Qed.

(** ** Singularity-robust solvers: for every matrix, weights of the error not negative and weights of the norm positive
    there is an answer, and it has the least sum of the two weighted sums of squares, being the only one. *)
Theorem C90_sr_bias n p (a : fmat R) (b wn we ans : fvec R) bias : (0 < n)%nat -> (0 < p)%nat -> nr a = n -> nc a = p -> vlen b = n -> vlen we = n -> vlen wn = p -> vlen ans = p ->
  (forall i, (i < n)%nat -> 0 <= vel we i) -> (forall k, (k < p)%nat -> 0 < vel wn k + bias) ->
  exists x, zLESolveSRBias 0 a b (Some wn) (Some we) bias ans = Ok (Some x) /\ vlen x = p /\
    least p (fun _ => True) (fun z => rsum n (fun i => vel we i * (mv p (el a) z i - vel b i) ^ 2) + rsum p (fun k => (vel wn k + bias) * z k ^ 2)) (vel x).
Proof.
  intros Hn Hp A1 A2 B WE WN X W D. unfold zLESolveSRBias, _zLESolveSRSizeEqual. rewrite A1, A2, B, X, WE, WN, !Nat.eqb_refl. cbn [negb orb bind].
  destruct (sr_bias_ok n p a Hn Hp A1 A2 b wn (Some we) bias ans (List.seq 0 p) B X WN WE W (fun k Hk => Rlt_le _ _ (D k Hk)) (perm_seq p)) as (o & E & H).
  destruct o as [x|]; [exists x; split; [exact E|exact H]|]. destruct H as (k & Hk & Z). specialize (D k Hk). lra.
Qed.
(** with weights that may vanish, an answer is still the one least vector *)
Theorem C90_sr_nonneg n p (a : fmat R) (b wn we ans : fvec R) bias : (0 < n)%nat -> (0 < p)%nat -> nr a = n -> nc a = p -> vlen b = n -> vlen we = n -> vlen wn = p -> vlen ans = p ->
  (forall i, (i < n)%nat -> 0 <= vel we i) -> (forall k, (k < p)%nat -> 0 <= vel wn k + bias) ->
  exists o, zLESolveSRBias 0 a b (Some wn) (Some we) bias ans = Ok o /\ forall x, o = Some x -> vlen x = p /\
    least p (fun _ => True) (fun z => rsum n (fun i => vel we i * (mv p (el a) z i - vel b i) ^ 2) + rsum p (fun k => (vel wn k + bias) * z k ^ 2)) (vel x).
Proof.
  intros Hn Hp A1 A2 B WE WN X W D. unfold zLESolveSRBias, _zLESolveSRSizeEqual. rewrite A1, A2, B, X, WE, WN, !Nat.eqb_refl. cbn [negb orb bind].
  destruct (sr_bias_ok n p a Hn Hp A1 A2 b wn (Some we) bias ans (List.seq 0 p) B X WN WE W D (perm_seq p)) as (o & E & H).
  exists o. split; [exact E|]. intros x ->. exact H.
Qed.
Theorem C90_sr_ref n p (a : fmat R) (b wn we ref ans : fvec R) : (0 < n)%nat -> (0 < p)%nat -> nr a = n -> nc a = p -> vlen b = n -> vlen we = n -> vlen wn = p -> vlen ref = p -> vlen ans = p ->
  (forall i, (i < n)%nat -> 0 <= vel we i) -> (forall k, (k < p)%nat -> 0 < vel wn k) ->
  exists x, zLESolveSRRef 0 a b (Some wn) (Some we) ref ans = Ok (Some x) /\ vlen x = p /\
    least p (fun _ => True) (fun z => rsum n (fun i => vel we i * (mv p (el a) z i - vel b i) ^ 2) + rsum p (fun k => vel wn k * (z k - vel ref k) ^ 2)) (vel x).
Proof.
  intros Hn Hp A1 A2 B WE WN RF X W D. unfold zLESolveSRRef, _zLESolveSRSizeEqual. rewrite A1, A2, B, X, WE, WN, !Nat.eqb_refl. cbn [negb orb bind].
  destruct (sr_ref_ok n p a Hn Hp A1 A2 b wn (Some we) ref ans (List.seq 0 p) B X WN RF WE W (fun k Hk => Rlt_le _ _ (D k Hk)) (perm_seq p)) as (o & E & H).
  destruct o as [x|]; [exists x; split; [exact E|exact H]|]. destruct H as (k & Hk & Z). specialize (D k Hk). lra.
Qed.
(** the bias in the null space (zLESolveSRAux) amounts to a reference: the answers are the same *)
Theorem C90_sr_aux n p (a : fmat R) (b wn we aux ans : fvec R) : (0 < n)%nat -> (0 < p)%nat -> nr a = n -> nc a = p -> vlen b = n -> vlen we = n -> vlen wn = p -> vlen aux = p -> vlen ans = p ->
  (forall i, (i < n)%nat -> 0 <= vel we i) -> (forall k, (k < p)%nat -> 0 < vel wn k) ->
  exists x, zLESolveSRAux 0 a b (Some wn) (Some we) ans aux = Ok x /\ vlen x = p /\
    least p (fun _ => True) (fun z => rsum n (fun i => vel we i * (mv p (el a) z i - vel b i) ^ 2) + rsum p (fun k => vel wn k * (z k - vel aux k) ^ 2)) (vel x).
Proof.
  intros Hn Hp A1 A2 B WE WN AX X W D. unfold zLESolveSRAux. rewrite B.
  destruct (residual_ok n p a Hn Hp A1 A2 b aux B AX) as (r & Er & Vr & Hr). rewrite Er. cbn [bind].
  destruct (C90_sr_bias n p a r wn we ans 0 Hn Hp A1 A2 Vr WE WN X W) as (x & E & Vx & (_ & H)); [intros k Hk; rewrite Rplus_0_r; auto|].
  unfold zLESolveSR. change (@s0 R _) with 0. rewrite E. cbn [bind]. unfold zVecAddNCDRC. rewrite op2_R by congruence. eexists. split; [reflexivity|]. cbn [vlen vel]. split; auto.
  assert (K : forall z, rsum n (fun i => vel we i * (mv p (el a) (fun k => z k - vel aux k) i - vel r i) ^ 2) + rsum p (fun k => (vel wn k + 0) * (z k - vel aux k) ^ 2) =
    rsum n (fun i => vel we i * (mv p (el a) z i - vel b i) ^ 2) + rsum p (fun k => vel wn k * (z k - vel aux k) ^ 2)).
  { intros z. f_equal; apply rsum_ext; intros i Hi; [rewrite mv_sub, Hr by auto; f_equal; f_equal; ring|ring]. }
  assert (KX : rsum n (fun i => vel we i * (mv p (el a) (vel x) i - vel r i) ^ 2) + rsum p (fun k => (vel wn k + 0) * vel x k ^ 2) =
    rsum n (fun i => vel we i * (mv p (el a) (fun i => (vel x i + vel aux i)%S) i - vel b i) ^ 2) + rsum p (fun k => vel wn k * ((vel x k + vel aux k)%S - vel aux k) ^ 2)).
  { rewrite <- (K (fun i => (vel x i + vel aux i)%S)). f_equal.
    - apply rsum_ext. intros i Hi. f_equal. f_equal. f_equal. apply mv_ext. intros. rs. ring.
    - apply rsum_ext. intros k Hk. f_equal. f_equal. rs. ring. }
  split; auto. intros z _. destruct (H (fun k => z k - vel aux k) Logic.I) as (H1 & H2). rewrite K, KX in H1, H2. split; [exact H1|].
  intros L i Hi. specialize (H2 L i Hi). cbv beta in H2. rs. lra.
Qed.

(** ** Sizes: every call with sizes that do not fit is rejected, for every scalar type *)
Theorem C90_rejects {T} {ST : Scalar T} (tol : T) (a : fmat T) (b ans : fvec T) (w : option (fvec T)) :
  (~ (nr a = vlen b /\ nc a = vlen ans /\ (forall v, w = Some v -> vlen v = vlen ans)) -> zLESolveNormMin tol a b w ans = Ok None) /\
  (~ (nr a = vlen b /\ nc a = vlen ans /\ (forall v, w = Some v -> vlen v = vlen b)) -> zLESolveErrorMin tol a b w ans = Ok None) /\
  (forall ref, ~ (nr a = vlen b /\ nc a = vlen ans /\ vlen ref = vlen ans /\ (forall v, w = Some v -> vlen v = vlen ans)) -> zLESolveRefNormMin tol a b w ref ans = Ok None) /\
  (forall wn we bias, ~ (nr a = vlen b /\ nc a = vlen ans /\ vlen we = vlen b /\ vlen wn = vlen ans) -> zLESolveSRBias tol a b (Some wn) (Some we) bias ans = Ok None).
Proof.
  conjs.
  - intros N. unfold zLESolveNormMin. destruct (Nat.eqb_spec (nr a) (vlen b)); cbn [negb orb]; auto. destruct (Nat.eqb_spec (nc a) (vlen ans)); cbn [negb orb]; auto.
    destruct w as [w|]; [destruct (Nat.eqb_spec (vlen ans) (vlen w)); cbn [negb]; auto|]; exfalso; apply N; conjs; auto; intros v [= <-] || (intros v; discriminate); congruence.
  - intros N. unfold zLESolveErrorMin. destruct (Nat.eqb_spec (nr a) (vlen b)); cbn [negb orb]; auto. destruct (Nat.eqb_spec (nc a) (vlen ans)); cbn [negb orb]; auto.
    destruct w as [w|]; [destruct (Nat.eqb_spec (vlen b) (vlen w)); cbn [negb]; auto|]; exfalso; apply N; conjs; auto; intros v [= <-] || (intros v; discriminate); congruence.
  - intros ref N. unfold zLESolveRefNormMin. destruct (Nat.eqb_spec (nr a) (vlen b)); cbn [negb orb]; auto. destruct (Nat.eqb_spec (nc a) (vlen ans)); cbn [negb orb]; auto.
    destruct (Nat.eqb_spec (vlen ref) (vlen ans)); cbn [negb orb]; auto.
    destruct w as [w|]; [destruct (Nat.eqb_spec (vlen ans) (vlen w)); cbn [negb]; auto|]; exfalso; apply N; conjs; auto; intros v [= <-] || (intros v; discriminate); congruence.
  - intros wn we bias N. unfold zLESolveSRBias, _zLESolveSRSizeEqual. destruct (Nat.eqb_spec (nr a) (vlen b)); cbn [negb orb bind]; auto. destruct (Nat.eqb_spec (nc a) (vlen ans)); cbn [negb orb bind]; auto.
    destruct (Nat.eqb_spec (vlen we) (vlen b)); cbn [negb orb bind]; auto. destruct (Nat.eqb_spec (vlen wn) (vlen ans)); cbn [negb orb bind]; auto. exfalso. apply N. auto.
Qed.
(** a reference of another size is not rejected by zLESolveSRRef: one too long is read and written beyond the objects *)
Theorem C90_ref_size_refuted : ~ (forall (a : fmat R) (b wn we ref ans : fvec R), nr a = vlen b -> nc a = vlen ans -> vlen we = vlen b -> vlen wn = vlen ans ->
  exists o, zLESolveSRRef 0 a b (Some wn) (Some we) ref ans = Ok o).
Proof.
  intros H. destruct (H (FM 1 1 (fun _ _ => 1)) (FV 1 (fun _ => 1)) (FV 1 (fun _ => 1)) (FV 1 (fun _ => 1)) (FV 2 (fun _ => 1)) (FV 1 (fun _ => 1))) as (o & E); auto. discriminate E.
Qed.
(** the weights of zLESolveSR cannot be NULL, although zLESolveSRBiasDST, which it calls, allows for it *)
Theorem C90_sr_null_refuted : ~ (forall (a : fmat R) (b wn ans : fvec R), nr a = vlen b -> nc a = vlen ans -> vlen wn = vlen ans ->
  exists o, zLESolveSR 0 a b (Some wn) None ans = Ok o).
Proof.
  intros H. destruct (H (FM 1 1 (fun _ _ => 1)) (FV 1 (fun _ => 1)) (FV 1 (fun _ => 1)) (FV 1 (fun _ => 1))) as (o & E); auto. discriminate E.
Qed.

(** concrete cases: two equations in three unknowns, three in two, and dependent rows *)
Definition qa : fmat Q := mat_of 0%Q [[1; 2; 0]; [0; 1; 1]]%Q.
Example C90_norm_case : match zLESolveNormMin 0%Q qa (vec_of 0%Q [5; 3]%Q) None (zvec 3) with
  Ok (Some x) => qeq_lists (to_list x) [2 # 3; 13 # 6; 5 # 6]%Q | _ => false end = true.
Proof. vm_compute. reflexivity. Qed.
Example C90_error_case : match zLESolveErrorMin 0%Q (transpose qa) (vec_of 0%Q [1; 2; 4]%Q) (Some (vec_of 0%Q [1; 1; 2]%Q)) (zvec 2) with
  Ok (Some x) => qeq_lists (to_list x) [-5 # 11; 40 # 11]%Q | _ => false end = true.
Proof. vm_compute. reflexivity. Qed.
Example C90_dependent_case : zLESolveNormMin 0%Q (mat_of 0%Q [[1; 2]; [2; 4]]%Q) (vec_of 0%Q [1; 1]%Q) None (zvec 2) = Ok None.
Proof. vm_compute. reflexivity. Qed.
Example C90_sr_case : match zLESolveSR 0%Q (mat_of 0%Q [[1; 2]; [2; 4]]%Q) (vec_of 0%Q [1; 1]%Q) (Some (vec_of 0%Q [1; 1]%Q)) (Some (vec_of 0%Q [1; 1]%Q)) (zvec 2) with
  Ok (Some x) => qeq_lists (to_list x) [3 # 26; 3 # 13]%Q | _ => false end = true.
Proof. vm_compute. reflexivity. Qed.

Print Assumptions C90_norm_min_partial.
Print Assumptions C90_ref_norm_min_partial.
Print Assumptions C90_error_min.
Print Assumptions C90_sr_bias.
Print Assumptions C90_sr_nonneg.
Print Assumptions C90_sr_ref.
Print Assumptions C90_sr_aux.
Print Assumptions C90_rejects.
Print Assumptions C90_weights_refuted.
Print Assumptions C90_ref_size_refuted.
Print Assumptions C90_sr_null_refuted.
