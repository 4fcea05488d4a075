(** C91 (linear equations with the inverse matrix of Moore and Penrose), C92 (equation of Lyapunov), C93 (inverse matrix
    of Moore and Penrose).  Arithmetic is that of the reals and the tolerances are 0, except where binary64 or rational
    numbers are used for a counterexample. *)
From Coq Require Import Reals Lra Lia Psatz QArith PrimFloat.
From Verif Require Import Prelude Prelude_Proofs Scalar RealLib Fmat Fmat_Proofs LE_Model LE_Spec LE_Props IP_Model Vop Eig_Model Eig_Spec
  Gen_Model Gen_Spec Gen_Proofs Gen2_Proofs Gen3_Proofs Gen4_Proofs Gen5_Proofs.
Local Open Scope R_scope.

Definition nonzero (n p : nat) (A : nat -> nat -> R) : Prop := exists i k, (i < n)%nat /\ (k < p)%nat /\ A i k <> 0.

(** ** C91.  zLESolveMP (= zLESolveMP_LQ), for every n x p matrix that is not zero, of any rank, and weights that are
    positive or NULL (then 1): among the vectors with the least weighted residual, the answer is the only one with the
    least sum of x_k^2 / wn_k.  [idx2] is the order left in the index array of the workspace. *)
Theorem C91_mp_partial n p (a : fmat R) (b : fvec R) wn we ans idx2 : (0 < n)%nat -> (0 < p)%nat -> nr a = n -> nc a = p -> vlen b = n -> vlen ans = p ->
  wfit p wn -> wfit n we -> (forall k, (k < p)%nat -> 0 < wt wn k) -> (forall i, (i < n)%nat -> 0 < wt we i) -> (forall r, perm r (idx2 r)) -> nonzero n p (el a) ->
  exists x, zLESolveMP_LQ 0 0 idx2 a b wn we ans = Ok x /\ vlen x = p /\
    least p (fun z => forall y, rsum n (fun i => wt we i * (mv p (el a) z i - vel b i) ^ 2) <= rsum n (fun i => wt we i * (mv p (el a) y i - vel b i) ^ 2))
      (fun z => rsum p (fun k => 1 / wt wn k * z k ^ 2)) (vel x).
Proof. intros Hn Hp R1 C1 B X FN FE WN WE P2 NZ. exact (mp_lq_ok n p a b wn we ans idx2 Hn Hp R1 C1 B X FN FE WN WE P2 NZ). Qed.
(** without weights the answer is the product with the inverse matrix of Moore and Penrose *)
Theorem C91_mp_inverse n p (a : fmat R) (b : fvec R) ans idx2 M : (0 < n)%nat -> (0 < p)%nat -> nr a = n -> nc a = p -> vlen b = n -> vlen ans = p ->
  (forall r, perm r (idx2 r)) -> nonzero n p (el a) -> mp_inverse n p (el a) M ->
  exists x, zLESolveMP_LQ 0 0 idx2 a b None None ans = Ok x /\ vlen x = p /\ forall k, (k < p)%nat -> vel x k = rsum n (fun i => M k i * vel b i).
Proof.
  intros Hn Hp R1 C1 B X P2 NZ HM.
  destruct (mp_lq_ok n p a b None None ans idx2 Hn Hp R1 C1 B X Logic.I Logic.I) as (x & E & V & L); auto; try (intros k Hk; cbn; lra).
  exists x. split; auto. split; auto. intros k Hk. destruct (mp_least n p (el a) M (vel b) HM) as (L1 & L2). destruct L as (L3 & L4).
  assert (W : forall z, wsq p (rinv (wt None)) z = wsq p (fun _ => 1) z) by (intros; apply wsq_ext; auto; intros; unfold rinv; cbn; rs; field).
  apply (L2 (vel x) L3); auto. destruct (L4 _ L1) as (Q & _). rewrite !W in Q. exact Q.
Qed.
(** the zero matrix: the answer, which should be the zero vector, is what the destination contained *)
Theorem C91_zero_refuted n p (a : fmat R) (b ans : fvec R) wn we idx2 : (0 < n)%nat -> (0 < p)%nat -> nr a = n -> nc a = p -> vlen b = n -> vlen ans = p -> (forall r, perm r (idx2 r)) ->
  (forall i k, (i < n)%nat -> (k < p)%nat -> el a i k = 0) ->
  zLESolveMP_LQ 0 0 idx2 a b wn we ans = Ok ans /\
  ((exists k, (k < p)%nat /\ vel ans k <> 0) ->
   ~ least p (fun z => forall y, rsum n (fun i => (mv p (el a) z i - vel b i) ^ 2) <= rsum n (fun i => (mv p (el a) y i - vel b i) ^ 2)) (fun z => rsum p (fun k => z k ^ 2)) (vel ans)).
Proof.
  intros Hn Hp R1 C1 B X P2 Z. split.
  - apply (mp_lq_zero n p a b wn we ans idx2); auto.
  - intros (k & Hk & N) L0. destruct L0 as (_ & L). destruct (L (fun _ => 0)) as (L1 & _).
    + intros y. right. apply rsum_ext. intros i Hi. f_equal. f_equal. unfold mv. apply rsum_ext. intros j Hj. rewrite Z by auto. ring.
    + rewrite (rsum_0 p (fun _ => 0 ^ 2)) in L1 by (intros; ring).
      assert (Q : rsum p (fun k => vel ans k ^ 2) = 0) by (apply Rle_antisym; auto; apply rsum_nonneg; intros; apply pow2_ge_0).
      apply N. apply sq0. exact (rsum_nonneg_0 p _ (fun i _ => pow2_ge_0 _) Q k Hk).
Qed.
(** the weights are said to be those of the norm: the answer does not minimise the sum of wn_k x_k^2 (x + y = 1) *)
Theorem C91_weights_refuted : ~ (forall n p (a : fmat R) (b : fvec R) wn ans idx2 x, (0 < n)%nat -> (0 < p)%nat -> nr a = n -> nc a = p -> vlen b = n -> vlen ans = p -> vlen wn = p ->
  (forall k, (k < p)%nat -> 0 < vel wn k) -> (forall r, perm r (idx2 r)) -> nonzero n p (el a) -> zLESolveMP_LQ 0 0 idx2 a b (Some wn) None ans = Ok x ->
  forall z, solves n p (el a) z (vel b) -> rsum p (fun k => vel wn k * vel x k ^ 2) <= rsum p (fun k => vel wn k * z k ^ 2)).
Proof.
  intros H. set (a := FM 1 2 (fun _ _ => 1)). set (b := FV 1 (fun _ => 1)). set (w := FV 2 (fun k => INR (S k))). set (ans := FV 2 (fun _ => 0)).
  assert (PS : forall r, perm r (List.seq 0 r)) by (intros; apply perm_seq).
  assert (WP : forall k, (k < 2)%nat -> 0 < vel w k) by (intros [|[|k]] Hk; cbn; lra || lia).
  assert (NZ : nonzero 1 2 (el a)) by (exists 0%nat, 0%nat; cbn; conjs; try lia; lra).
  destruct (C91_mp_partial 1 2 a b (Some w) None ans (fun r => List.seq 0 r)) as (x & E & V & L); auto; try lia; try exact Logic.I.
  all: try (intros i Hi; cbn; lra).  all: try reflexivity.
  specialize (H 1%nat 2%nat a b w ans (fun r => List.seq 0 r) x ltac:(lia) ltac:(lia) eq_refl eq_refl eq_refl eq_refl eq_refl WP PS NZ E (fun k => if (k =? 0)%nat then 2/3 else 1/3)).
  assert (S : solves 1 2 (el a) (fun k => if (k =? 0)%nat then 2/3 else 1/3) (vel b)) by (intros r Hr; unfold mv; cbn; lra).
  specialize (H S). destruct L as (L1 & L2). specialize (L1 (fun k => if (k =? 0)%nat then 1/3 else 2/3)).
  destruct (L2 (fun k => if (k =? 0)%nat then 1/3 else 2/3)) as (L3 & _).
  { intros y. unfold mv. cbn. rs. match goal with |- ?l <= ?r => replace l with 0 by field end.
    match goal with |- 0 <= 0 + (1 * (?e * (?e * 1))) => pose proof (pow2_ge_0 e) | _ => idtac end. nra. }
  unfold mv in L1. cbn in L1, L3, H. rs. set (u := vel x 0%nat) in *. set (v := vel x 1%nat) in *.
  assert (u + v = 1) by nra. assert (v = 2/3) by nra. nra.
Qed.
(** a right-hand side of another size is not rejected: the equations are solved for the zero vector, for every scalar type *)
Theorem C91_size_refuted {T} {ST : Scalar T} tol lqtol idx2 (a : fmat T) (b ans : fvec T) wn we : vlen b <> nr a ->
  zLESolveMP_LQ tol lqtol idx2 a b wn we ans = zLESolveMP_LQ tol lqtol idx2 a (zvec (nr a)) wn we ans.
Proof.
  intros N. unfold zLESolveMP_LQ, copy_b. rewrite (proj2 (Nat.eqb_neq _ _) N). cbn [zvec vlen]. rewrite Nat.eqb_refl. reflexivity.
Qed.
(** ** the bias in the null space (zLESolveMPAux): the same optimum measured from aux *)
Theorem C91_aux_partial n p (a : fmat R) (b aux : fvec R) wn we ans idx2 : (0 < n)%nat -> (0 < p)%nat -> nr a = n -> nc a = p -> vlen b = n -> vlen aux = p -> vlen ans = p ->
  wfit p wn -> wfit n we -> (forall k, (k < p)%nat -> 0 < wt wn k) -> (forall i, (i < n)%nat -> 0 < wt we i) -> (forall r, perm r (idx2 r)) -> nonzero n p (el a) ->
  exists x, zLESolveMPAux 0 0 idx2 a b wn we ans aux = Ok x /\ vlen x = p /\
    least p (fun z => forall y, rsum n (fun i => wt we i * (mv p (el a) z i - vel b i) ^ 2) <= rsum n (fun i => wt we i * (mv p (el a) y i - vel b i) ^ 2))
      (fun z => rsum p (fun k => 1 / wt wn k * (z k - vel aux k) ^ 2)) (vel x).
Proof.
  intros Hn Hp R1 C1 B AX X FN FE WN WE P2 NZ. unfold zLESolveMPAux. rewrite B.
  destruct (residual_ok n p a Hn Hp R1 C1 b aux B AX) as (r & Er & Vr & Hr). rewrite Er. cbn [bind].
  destruct (C91_mp_partial n p a r wn we ans idx2) as (x & E & V & L1 & L2); auto. rewrite E. cbn [bind].
  unfold zVecAddNCDRC. rewrite op2_R by congruence. eexists. split; [reflexivity|]. cbn [vlen vel]. split; auto.
  assert (K : forall z, rsum n (fun i => wt we i * (mv p (el a) (fun k => z k - vel aux k) i - vel r i) ^ 2) = rsum n (fun i => wt we i * (mv p (el a) z i - vel b i) ^ 2)).
  { intros z. apply rsum_ext. intros i Hi. rewrite mv_sub, Hr by auto. f_equal. f_equal. ring. }
  assert (KX : rsum n (fun i => wt we i * (mv p (el a) (vel x) i - vel r i) ^ 2) = rsum n (fun i => wt we i * (mv p (el a) (fun i => (vel x i + vel aux i)%S) i - vel b i) ^ 2)).
  { rewrite <- K. apply rsum_ext. intros i Hi. f_equal. f_equal. f_equal. apply mv_ext. intros. rs. ring. }
  assert (KN : rsum p (fun k => 1 / wt wn k * vel x k ^ 2) = rsum p (fun k => 1 / wt wn k * ((vel x k + vel aux k)%S - vel aux k) ^ 2)).
  { apply rsum_ext. intros k Hk. f_equal. f_equal. rs. ring. }
  split.
  - intros y. rewrite <- KX, <- K. apply L1.
  - intros z Hz. destruct (L2 (fun k => z k - vel aux k)) as (A1 & A2).
    + intros y. rewrite K. specialize (Hz (fun k => y k + vel aux k)). rewrite <- (K (fun k => y k + vel aux k)) in Hz.
      rewrite (rsum_ext n (fun i => wt we i * (mv p (el a) (fun k => y k + vel aux k - vel aux k) i - vel r i) ^ 2) (fun i => wt we i * (mv p (el a) y i - vel r i) ^ 2)) in Hz; auto.
      intros i Hi. f_equal. f_equal. f_equal. apply mv_ext. intros. ring.
    + rewrite KN in A1, A2. split; auto. intros Q i Hi. specialize (A2 Q i Hi). cbv beta in A2. rs. lra.
Qed.
(** ** the null space (zLESolveMPNull): the answer is that of zLESolveMP; the matrix is symmetric, annihilated by a, and
    takes every vector of the null space to its negative *)
Theorem C91_null_partial n p (a : fmat R) (b : fvec R) wn we ans mn idx2 : (0 < n)%nat -> (0 < p)%nat -> nr a = n -> nc a = p -> vlen b = n -> vlen ans = p -> nr mn = p -> nc mn = p ->
  wfit p wn -> wfit n we -> (forall k, (k < p)%nat -> 0 < wt wn k) -> (forall i, (i < n)%nat -> 0 < wt we i) -> (forall r, perm r (idx2 r)) -> nonzero n p (el a) ->
  exists x N, zLESolveMPNull 0 0 idx2 a b wn we ans mn = Ok (x, N) /\ zLESolveMP_LQ 0 0 idx2 a b wn we ans = Ok x /\ nr N = p /\ nc N = p /\
    (forall i j, (i < p)%nat -> (j < p)%nat -> el N i j = el N j i) /\
    (forall z, solves n p (el a) (mv p (el N) z) (fun _ => 0)) /\
    (forall z, solves n p (el a) z (fun _ => 0) -> forall i, (i < p)%nat -> mv p (el N) z i = - z i).
Proof.
  intros Hn Hp R1 C1 B X M1 M2 FN FE WN WE P2 NZ.
  destruct (mp_null_ok n p a b wn we ans idx2 Hn Hp R1 C1 B X FN FE WN WE P2 mn M1 M2 NZ) as (x & N & E1 & E2 & N1 & N2 & N3 & N4 & N5).
  exists x, N. conjs; auto. intros z i Hi. unfold mv.
  rewrite (rsum_ext p _ (fun k => rsum p (fun j => z j * (el a i k * el N k j)))) by (intros k Hk; rewrite <- rsum_scal; apply rsum_ext; intros; ring).
  rewrite rsum_swap. apply rsum_0. intros j Hj. rewrite rsum_scal, N4 by auto. ring.
Qed.
(** so it is not a projector, as documented, but the negative of one: applied twice it does not give the same *)
Theorem C91_projector_refuted n p (a : fmat R) (b : fvec R) ans mn idx2 z : (0 < n)%nat -> (0 < p)%nat -> nr a = n -> nc a = p -> vlen b = n -> vlen ans = p -> nr mn = p -> nc mn = p ->
  (forall r, perm r (idx2 r)) -> nonzero n p (el a) -> solves n p (el a) z (fun _ => 0) -> (exists k, (k < p)%nat /\ z k <> 0) ->
  exists x N, zLESolveMPNull 0 0 idx2 a b None None ans mn = Ok (x, N) /\ exists k, (k < p)%nat /\ mv p (el N) (mv p (el N) z) k <> mv p (el N) z k.
Proof.
  intros Hn Hp R1 C1 B X M1 M2 P2 NZ Hz (k & Hk & Nk).
  destruct (C91_null_partial n p a b None None ans mn idx2) as (x & N & E & _ & N1 & N2 & N3 & N4 & N5); auto; try exact Logic.I; try (intros i Hi; cbn; lra).
  exists x, N. split; auto. exists k. split; auto. rewrite (N5 z Hz k Hk). rewrite (N5 (mv p (el N) z)); auto. rewrite (N5 z Hz k Hk). lra.
Qed.
(** ** LU decomposition (zLESolveMP_LU), for full column rank *)
Theorem C91_lu_partial n p (a : fmat R) (b : fvec R) wn we ans idx2 : (0 < n)%nat -> (0 < p)%nat -> nr a = n -> nc a = p -> vlen b = n -> vlen ans = p ->
  wfit n we -> (forall i, (i < n)%nat -> 0 < wt we i) -> (forall r, perm r (idx2 r)) -> (p <= n)%nat -> cols_indep n p (el a) ->
  exists x, zLESolveMP_LU 0 idx2 a b wn we ans = Ok x /\ vlen x = p /\
    least p (fun _ => True) (fun z => rsum n (fun i => wt we i * (mv p (el a) z i - vel b i) ^ 2)) (vel x).
Proof. intros Hn Hp R1 C1 B X FE WE P2 Hle CI. exact (mp_lu_ok n p a b wn we ans idx2 Hn Hp R1 C1 B X FE WE P2 Hle CI). Qed.
(** for other matrices it writes beyond the factor, or gives a vector that is no solution although there is one *)
Theorem C91_lu_refuted : zLESolveMP_LU 0%Q (fun r => List.seq 0 r) (mat_of 0%Q [[0; 0; 1]; [0; 0; 1]]%Q) (vec_of 0%Q [1; 1]%Q) None None (zvec 3) = UB /\
  match zLESolveMP_LU 0%Q (fun r => List.seq 0 r) (mat_of 0%Q [[0; 1; 1]; [0; 1; 0]; [0; 2; 1]]%Q) (vec_of 0%Q [1; 1; 2]%Q) None None (zvec 3) with
  | Ok x => solves_q (mat_of 0%Q [[0; 1; 1]; [0; 1; 0]; [0; 2; 1]]%Q) x (vec_of 0%Q [1; 1; 2]%Q) | UB => true end = false /\
  solves_q (mat_of 0%Q [[0; 1; 1]; [0; 1; 0]; [0; 2; 1]]%Q) (vec_of 0%Q [0; 1; 0]%Q) (vec_of 0%Q [1; 1; 2]%Q) = true.
Proof. split; [|split]; vm_compute; reflexivity. Qed.
(** ** singular value decomposition (zLESolveMP_SVD), for every decomposition with orthonormal factors, positive singular
    values and a = u diag(sv) v *)
Theorem C91_svd n p (a : fmat R) (b ans : fvec R) svd r (u v : fmat R) sv : nr a = n -> nc a = p -> vlen b = n -> vlen ans = p ->
  svd a = Ok (r, u, sv, v) -> nr u = n -> nc v = p -> orthonormal_cols n r (el u) -> orthonormal_rows p r (el v) -> (forall k, (k < r)%nat -> 0 < vel sv k) ->
  (forall i k, (i < n)%nat -> (k < p)%nat -> el a i k = rsum r (fun t => el u i t * vel sv t * el v t k)) ->
  exists x, zLESolveMP_SVD svd a b ans = Ok x /\ vlen x = p /\
    least p (fun z => forall y, rsum n (fun i => (mv p (el a) z i - vel b i) ^ 2) <= rsum n (fun i => (mv p (el a) y i - vel b i) ^ 2)) (fun z => rsum p (fun k => z k ^ 2)) (vel x).
Proof.
  intros R1 C1 B X SV U V OC OR SP HA. unfold zLESolveMP_SVD. rewrite SV. cbn [bind].
  destruct (mulmtv_R (FM (nr u) r (el u)) b (zvec r)) as (t & Et & T1 & T2); cbn [nr nc]; try congruence; auto. rewrite Et. cbn [bind nr nc el] in *.
  unfold zVecDemNCDRC. rewrite op2_R by (cbn [vlen]; auto). cbn [bind].
  match goal with |- context [zMulMatTVecNC ?m ?y ans] => destruct (mulmtv_R m y ans) as (x & Ex & X1 & X2); cbn [nr nc vlen]; try congruence; auto; rewrite Ex end. cbn [nr nc el vel] in *.
  exists x. split; auto. split; [congruence|].
  set (Tm := fun k i => el u i k / vel sv k).
  assert (LP : left_pinv n r (fun i k => el u i k * vel sv k) Tm).
  { split.
    - intros i j Hi Hj. unfold mmul, Tm. rewrite (rsum_ext n _ (fun l => vel sv j / vel sv i * (el u l i * el u l j))) by (intros; unfold Rdiv; ring).
      rewrite rsum_scal. change (rsum n (fun l => el u l i * el u l j)) with (cdot n (el u) i j). rewrite OC by auto. unfold delta. destruct (Nat.eqb_spec i j) as [->|]; [field; specialize (SP j Hj); lra|ring].
    - intros i j Hi Hj. unfold mmul, Tm. apply rsum_ext. intros l Hl. specialize (SP l Hl). field. lra. }
  destruct (factor_pinv n p r (el a) (fun i k => el u i k * vel sv k) (el v) Tm HA OR LP) as (MP & _).
  pose proof (mp_least n p (el a) _ (vel b) MP) as (L1 & L2).
  assert (XE : forall k, (k < p)%nat -> vel x k = mv n (fun k j => rsum r (fun i => el v i k * Tm i j)) (vel b) k).
  { intros k Hk. rewrite X2 by congruence. unfold mv. rewrite (rsum_ext n _ (fun c => rsum r (fun i => el v i k * (Tm i c * vel b c)))) by (intros; rewrite <- rsum_scal_r; apply rsum_ext; intros; ring).
    rewrite rsum_swap. apply rsum_ext. intros i Hi. rewrite rsum_scal. f_equal. rewrite T2 by auto. unfold Tm. rs. unfold Rdiv. rewrite U. rewrite <- rsum_scal_r. apply rsum_ext. intros; ring. }
  assert (ERR : forall z y, wsq n (fun _ => 1) (resid p (el a) (vel b) z) <= wsq n (fun _ => 1) (resid p (el a) (vel b) y) <->
    rsum n (fun i => (mv p (el a) z i - vel b i) ^ 2) <= rsum n (fun i => (mv p (el a) y i - vel b i) ^ 2)).
  { intros z y. assert (K : forall z, wsq n (fun _ => 1) (resid p (el a) (vel b) z) = rsum n (fun i => (mv p (el a) z i - vel b i) ^ 2)) by (intros; apply rsum_ext; intros; unfold resid; ring).
    rewrite !K. tauto. }
  assert (NRM : forall z, wsq p (fun _ => 1) z = rsum p (fun k => z k ^ 2)) by (intros; apply rsum_ext; intros; ring).
  assert (EQ1 : forall y, rsum n (fun i => (mv p (el a) (vel x) i - vel b i) ^ 2) <= rsum n (fun i => (mv p (el a) y i - vel b i) ^ 2)).
  { intros y. rewrite (rsum_ext n (fun i => (mv p (el a) (vel x) i - vel b i) ^ 2) (fun i => (mv p (el a) (mv n (fun k j => rsum r (fun i => el v i k * Tm i j)) (vel b)) i - vel b i) ^ 2)).
    - apply ERR. apply L1.
    - intros i Hi. f_equal. f_equal. apply mv_ext. exact XE. }
  assert (EQ2 : rsum p (fun k => vel x k ^ 2) = wsq p (fun _ => 1) (mv n (fun k j => rsum r (fun i => el v i k * Tm i j)) (vel b))).
  { rewrite NRM. apply rsum_ext. intros k Hk. rewrite XE by auto. reflexivity. }
  split; auto. intros z Hz. destruct (L2 z) as (A1 & A2).
  - intros y. apply ERR. apply Hz.
  - rewrite EQ2, <- NRM. split; auto. intros Q k Hk. rewrite XE by auto. auto.
Qed.

(** ** C92.  zLELyapnovSolve, for all square matrices of one size: an answer X satisfies X A + A^T X = B and is the only
    matrix that does; NULL means that X A + A^T X = 0 for a matrix X that is not zero. *)
Theorem C92_lyapnov n (a b ans : fmat R) : (0 < n)%nat -> nr a = n -> nc a = n -> nr b = n -> nc b = n -> nr ans = n -> nc ans = n ->
  let eq X B := forall i j, (i < n)%nat -> (j < n)%nat -> rsum n (fun k => X i k * el a k j) + rsum n (fun k => el a k i * X k j) = B i j in
  exists o, zLELyapnovSolve 0 a b ans = Ok o /\
   match o with
   | Some X => nr X = n /\ nc X = n /\ eq (el X) (el b) /\ (forall Y, eq Y (el b) -> forall i j, (i < n)%nat -> (j < n)%nat -> Y i j = el X i j)
   | None => exists Z i j, eq Z (fun _ _ => 0) /\ (i < n)%nat /\ (j < n)%nat /\ Z i j <> 0
   end.
Proof. intros Hn R1 C1 B1 B2 X1 X2 eq. exact (lyapnov_ok n a Hn R1 C1 b ans B1 B2 X1 X2). Qed.
(** for a symmetric right-hand side the answer is symmetric *)
Theorem C92_symmetric n (a b ans X : fmat R) : (0 < n)%nat -> nr a = n -> nc a = n -> nr b = n -> nc b = n -> nr ans = n -> nc ans = n ->
  (forall i j, (i < n)%nat -> (j < n)%nat -> el b i j = el b j i) -> zLELyapnovSolve 0 a b ans = Ok (Some X) ->
  forall i j, (i < n)%nat -> (j < n)%nat -> el X i j = el X j i.
Proof.
  intros Hn R1 C1 B1 B2 X1 X2 S E i j Hi Hj. destruct (C92_lyapnov n a b ans) as (o & E' & H); auto. rewrite E in E'. injection E' as <-. destruct H as (_ & _ & H1 & H2).
  symmetry. apply (H2 (fun i j => el X j i)); auto. intros k l Hk Hl. rewrite S by auto. rewrite <- (H1 l k) by auto. rewrite Rplus_comm. f_equal; apply rsum_ext; intros; ring.
Qed.
Theorem C92_rejects {T} {ST : Scalar T} tol (a b ans : fmat T) : ~ (nr a = nc a /\ nr b = nc b /\ nr ans = nc ans /\ nr a = nr ans /\ nr b = nr ans) -> zLELyapnovSolve tol a b ans = Ok None.
Proof.
  intros N. unfold zLELyapnovSolve, issqr. destruct (Nat.eqb_spec (nr a) (nc a)); cbn [negb orb]; auto. destruct (Nat.eqb_spec (nr b) (nc b)); cbn [negb orb]; auto.
  destruct (Nat.eqb_spec (nr ans) (nc ans)); cbn [negb orb]; auto. destruct (Nat.eqb_spec (nr a) (nr ans)); cbn [negb orb]; auto. destruct (Nat.eqb_spec (nr b) (nr ans)); cbn [negb orb]; auto.
  exfalso. apply N. auto.
Qed.
(** a failure is said to mean that a is singular: it is not so for diag(1,-1) *)
Theorem C92_singular_refuted : zLELyapnovSolve 0%Q (mat_of 0%Q [[1; 0]; [0; -1]]%Q) (mat_of 0%Q [[1; 0]; [0; 1]]%Q) (zmat 2 2) = Ok None /\
  match zLESolveGauss 0%Q (mat_of 0%Q [[1; 0]; [0; -1]]%Q) (vec_of 0%Q [3; 5]%Q) (zvec 2) with Ok (Some x) => qeq_lists (to_list x) [3; -5]%Q | _ => false end = true.
Proof. split; vm_compute; reflexivity. Qed.
Example C92_case : match zLELyapnovSolve 0%Q (mat_of 0%Q [[1; 2]; [0; 3]]%Q) (mat_of 0%Q [[2; 4]; [4; 1]]%Q) (zmat 2 2) with
  Ok (Some X) => meq_q X (mat_of 0%Q [[1; 1 # 2]; [1 # 2; -1 # 6]]%Q) | _ => false end = true.
Proof. vm_compute. reflexivity. Qed.

(** ** C93.  zMatMPInv, for every n x p matrix that is not zero: the answer satisfies the four documented relations, and
    is the only matrix that does; the returned rank is the trace of the projector X A, that is the dimension of its range. *)
Theorem C93_mpinv n p (a mp : fmat R) : (0 < n)%nat -> (0 < p)%nat -> nr a = n -> nc a = p -> nr mp = p -> nc mp = n -> nonzero n p (el a) ->
  exists rank X, zMatMPInv 0 0 a mp = Ok (Some (rank, X)) /\ nr X = p /\ nc X = n /\ mp_inverse n p (el a) (el X) /\
    (forall Y, mp_inverse n p (el a) Y -> forall k i, (k < p)%nat -> (i < n)%nat -> Y k i = el X k i) /\
    INR rank = rsum p (fun k => mmul n (el X) (el a) k k).
Proof.
  intros Hn Hp R1 C1 M1 M2 NZ. destruct (mpinv_ok n p a Hn Hp R1 C1 NZ mp M1 M2) as (rank & X & E & X1 & X2 & X3 & X4 & _). exists rank, X. conjs; auto.
  intros Y HY k i Hk Hi. exact (mp_unique n p (el a) Y (el X) HY X3 k i Hk Hi).
Qed.
(** with the null space: X is the same and the matrix N is X A - I *)
Theorem C93_null n p (a mp mn : fmat R) : (0 < n)%nat -> (0 < p)%nat -> nr a = n -> nc a = p -> nr mp = p -> nc mp = n -> nr mn = p -> nc mn = p -> nonzero n p (el a) ->
  exists rank X N, zMatMPInvNull 0 0 a mp mn = Ok (Some (rank, X, N)) /\ zMatMPInv 0 0 a mp = Ok (Some (rank, X)) /\ nr N = p /\ nc N = p /\
    forall k l, (k < p)%nat -> (l < p)%nat -> el N k l = mmul n (el X) (el a) k l - delta k l.
Proof.
  intros Hn Hp R1 C1 M1 M2 N1 N2 NZ. destruct (mpinv_ok n p a Hn Hp R1 C1 NZ mp M1 M2) as (rank & X & E & X1 & X2 & X3 & X4 & H).
  destruct (H mn N1 N2) as (N & EN & K). exists rank, X, N. auto.
Qed.
(** the product of the inverse matrix and another one *)
Theorem C93_mul n p c (a m2 m : fmat R) : (0 < n)%nat -> (0 < p)%nat -> nr a = n -> nc a = p -> nr m2 = n -> nc m2 = c -> nr m = p -> nc m = c -> nonzero n p (el a) ->
  exists Y, zMulMPInvMatMat 0 0 a m2 m = Ok (Some Y) /\ nr Y = p /\ nc Y = c /\
    forall X, mp_inverse n p (el a) X -> forall k j, (k < p)%nat -> (j < c)%nat -> el Y k j = rsum n (fun i => X k i * el m2 i j).
Proof. intros Hn Hp R1 C1 A1 A2 M1 M2 NZ. exact (mulmpinv_ok n p a Hn Hp R1 C1 NZ c m2 m A1 A2 M1 M2). Qed.
(** the iteration of Penrose: whenever it ends, after any number of steps, the answer is the same; that it ends (by the
    theorem of Cayley and Hamilton, after at most p steps) is not proved *)
Theorem C93_penrose_partial n p (a mp X : fmat R) fuel rank : nr a = n -> nc a = p -> nr mp = p -> nc mp = n -> nonzero n p (el a) ->
  zMatMPInvPenrose 0 fuel a mp = Ok (Some (rank, X)) -> nr X = p /\ nc X = n /\ mp_inverse n p (el a) (el X) /\ INR rank = rsum p (fun k => mmul n (el X) (el a) k k).
Proof. intros R1 C1 M1 M2 NZ H. exact (penrose_all n p a mp fuel rank X R1 C1 M1 M2 NZ H). Qed.
Theorem C93_agree n p (a mp X : fmat R) fuel rank : (0 < n)%nat -> (0 < p)%nat -> nr a = n -> nc a = p -> nr mp = p -> nc mp = n -> nonzero n p (el a) ->
  zMatMPInvPenrose 0 fuel a mp = Ok (Some (rank, X)) ->
  exists Y, zMatMPInv 0 0 a mp = Ok (Some (rank, Y)) /\ forall k i, (k < p)%nat -> (i < n)%nat -> el X k i = el Y k i.
Proof.
  intros Hn Hp R1 C1 M1 M2 NZ H. destruct (C93_penrose_partial n p a mp X fuel rank R1 C1 M1 M2 NZ H) as (X1 & X2 & X3 & X4).
  destruct (C93_mpinv n p a mp Hn Hp R1 C1 M1 M2 NZ) as (r & Y & E & Y1 & Y2 & Y3 & Y4 & Y5).
  assert (rank = r) as ->; [|exists Y; split; auto].
  apply INR_eq. rewrite X4, Y5. apply rsum_ext. intros k Hk. apply mmul_ext; auto.
Qed.
(** the zero matrix: an error (-1) instead of the rank 0; and the iteration of Penrose fills the matrix with NaN *)
Theorem C93_zero_refuted n p (a mp : fmat R) : (0 < n)%nat -> (0 < p)%nat -> nr a = n -> nc a = p -> (forall i k, (i < n)%nat -> (k < p)%nat -> el a i k = 0) ->
  zMatMPInv 0 0 a mp = Ok None /\ mp_inverse n p (el a) (fun _ _ => 0).
Proof.
  intros Hn Hp R1 C1 Z. split.
  - unfold zMatMPInv, zMatDecompLQAndResize. rewrite R1, C1.
    destruct (lq_ok n p a Hn Hp R1 C1) as (l & q & rank & C & E & L1 & L2 & Q1 & Q2 & RK & O & LT & LQ & LI & CQ). rewrite E. cbn [bind].
    destruct rank as [|r]; [destruct (0 <? n)%nat; reflexivity|]. exfalso. pose proof (O 0%nat 0%nat ltac:(lia) ltac:(lia)) as O0. unfold rdot in O0. rewrite rsum_0 in O0; [unfold delta in O0; cbn in O0; lra|].
    intros k Hk. rewrite (CQ 0%nat k) by lia. rewrite rsum_0; [ring|]. intros i Hi. rewrite Z by auto. ring.
  - split; [|split; [|split]]; intros; unfold mmul.
    + rewrite Z by auto. apply rsum_0. intros. rewrite rsum_0; [ring|]. intros; ring.
    + apply rsum_0. intros. ring.
    + rewrite !rsum_0 by (intros; ring). reflexivity.
    + rewrite !rsum_0 by (intros; ring). reflexivity.
Qed.
Theorem C93_penrose_zero_refuted : match zMatMPInvPenrose 1e-12%float 2 (FM 2 2 (fun _ _ => 0%float)) (FM 2 2 (fun _ _ => 0%float)) with
  | Ok (Some (0%nat, X)) => PrimFloat.eqb (el X 0 0) (el X 0 0) | _ => true end = false.
Proof. vm_compute. reflexivity. Qed.
(** a destination of another size is not rejected, but left alone *)
Theorem C93_size_refuted n p (a mp : fmat R) : (0 < n)%nat -> (0 < p)%nat -> nr a = n -> nc a = p -> ~ (nr mp = p /\ nc mp = n) -> nonzero n p (el a) ->
  exists rank, zMatMPInv 0 0 a mp = Ok (Some (rank, mp)).
Proof.
  intros Hn Hp R1 C1 N NZ. destruct (mpinv_parts n p a Hn Hp R1 C1 NZ) as (l & q & rank & t & E & L1 & L2 & Q1 & Q2 & RK & O & LQ & CI & Et & T1 & T2 & T3).
  unfold zMatMPInv. rewrite E. cbn [bind]. rewrite (proj2 (Nat.eqb_neq rank 0)) by lia. rewrite Et. cbn [bind]. exists rank. unfold zMulMatTMat.
  destruct (Nat.eqb_spec (nr q) (nr t)); cbn [andb]; auto. destruct (Nat.eqb_spec (nc q) (nr mp)); cbn [andb]; auto. destruct (Nat.eqb_spec (nc t) (nc mp)); cbn [andb]; auto.
  exfalso. apply N. split; congruence.
Qed.
(** a matrix of rank 1, by both algorithms *)
Example C93_penrose_case : match zMatMPInvPenrose 0%Q 3 (mat_of 0%Q [[1; 2]; [2; 4]; [0; 0]]%Q) (zmat 2 3) with
  Ok (Some (1%nat, X)) => meq_q X (mat_of 0%Q [[1 # 25; 2 # 25; 0]; [2 # 25; 4 # 25; 0]]%Q) | _ => false end = true.
Proof. vm_compute. reflexivity. Qed.
Definition near (x y : float) : bool := PrimFloat.ltb (PrimFloat.abs (PrimFloat.sub x y)) 1e-9%float.
Example C93_binary64 : match zMatMPInv 1e-12%float 1e-12%float (FM 3 2 (fun i j => if (i =? 0)%nat then (if (j =? 0)%nat then 1 else 2)%float else if (i =? 1)%nat then (if (j =? 0)%nat then 2 else 4)%float else 0%float)) (FM 2 3 (fun _ _ => 0%float)) with
  Ok (Some (1%nat, X)) => near (el X 0 0) 0.04 && near (el X 0 1) 0.08 && near (el X 1 1) 0.16 && near (el X 1 2) 0 | _ => false end = true.
Proof. vm_compute. reflexivity. Qed.
Example C91_binary64 : match zLESolveMP_LQ 1e-12%float 1e-12%float (fun r => List.seq 0 r) (FM 3 2 (fun i j => if (i =? 0)%nat then (if (j =? 0)%nat then 1 else 2)%float else if (i =? 1)%nat then (if (j =? 0)%nat then 2 else 4)%float else 0%float))
    (FV 3 (fun _ => 1%float)) None None (FV 2 (fun _ => 7%float)) with
  Ok x => near (vel x 0%nat) 0.12 && near (vel x 1%nat) 0.24 | _ => false end = true.
Proof. vm_compute. reflexivity. Qed.
Example C91_case : nonzero 3 2 (fun i j => INR i * INR (S j)) /\ wfit 2 (Some (FV 2 (fun k => INR (S k)))) /\ (forall k, (k < 2)%nat -> 0 < wt (Some (FV 2 (fun k => INR (S k)))) k).
Proof.
  split; [exists 1%nat, 1%nat; cbn; conjs; try lia; lra|]. split; [reflexivity|]. intros k Hk. cbn [wt vel]. apply lt_0_INR. lia.
Qed.

Print Assumptions C91_mp_partial.
Print Assumptions C91_mp_inverse.
Print Assumptions C91_zero_refuted.
Print Assumptions C91_weights_refuted.
Print Assumptions C91_size_refuted.
Print Assumptions C91_aux_partial.
Print Assumptions C91_null_partial.
Print Assumptions C91_projector_refuted.
Print Assumptions C91_lu_partial.
Print Assumptions C91_lu_refuted.
Print Assumptions C91_svd.
Print Assumptions C92_lyapnov.
Print Assumptions C92_symmetric.
Print Assumptions C92_rejects.
Print Assumptions C92_singular_refuted.
Print Assumptions C93_mpinv.
Print Assumptions C93_null.
Print Assumptions C93_mul.
Print Assumptions C93_penrose_partial.
Print Assumptions C93_agree.
Print Assumptions C93_zero_refuted.
Print Assumptions C93_penrose_zero_refuted.
Print Assumptions C93_size_refuted.
