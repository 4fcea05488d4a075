(** The inverse matrix of Moore and Penrose. *)
From Coq Require Import Reals Lra Lia Psatz.
From Verif Require Import Prelude Prelude_Proofs Scalar RealLib Fmat Fmat_Proofs LE_Model LE_Spec LE_Props IP_Model IP_Proofs Vop Qp_Proofs
  Eig_Model Eig_Spec Eig_Proofs Eig6_Proofs Gen_Model Gen_Spec Gen_Proofs Gen2_Proofs Gen3_Proofs.
Local Open Scope R_scope.

(** ** algebra of matrices given by their elements *)
Lemma mmul_ext k A A' B B' i j : (forall l, (l < k)%nat -> A i l = A' i l) -> (forall l, (l < k)%nat -> B l j = B' l j) -> mmul k A B i j = mmul k A' B' i j.
Proof. intros H1 H2. apply rsum_ext. intros l Hl. rewrite H1, H2 by auto. reflexivity. Qed.
Lemma mmul_assoc k l A B C i j : mmul l (mmul k A B) C i j = mmul k A (mmul l B C) i j.
Proof.
  unfold mmul. rewrite (rsum_ext l _ (fun t => rsum k (fun s => A i s * (B s t * C t j)))) by (intros t Ht; rewrite <- rsum_scal_r; apply rsum_ext; intros; ring).
  rewrite rsum_swap. apply rsum_ext. intros s Hs. apply rsum_scal.
Qed.
Lemma mmul_delta_l k A i j : (i < k)%nat -> mmul k delta A i j = A i j.
Proof. intros Hi. apply (delta_sum_l k i (fun l => A l j)); auto. Qed.
Lemma mmul_delta_r k A i j : (j < k)%nat -> mmul k A delta i j = A i j.
Proof.
  intros Hj. unfold mmul. rewrite (rsum_ext k _ (fun l => delta j l * A i l)) by (intros l Hl; unfold delta; rewrite (Nat.eqb_sym l j); ring).
  apply (delta_sum_l k j (A i)); auto.
Qed.
Definition tr (A : nat -> nat -> R) : nat -> nat -> R := fun i j => A j i.
Lemma mmul_tr k A B i j : tr (mmul k A B) i j = mmul k (tr B) (tr A) i j.
Proof. unfold tr, mmul. apply rsum_ext. intros; ring. Qed.
Lemma mmul_scal_l k c A B i j : mmul k (fun i j => c * A i j) B i j = c * mmul k A B i j.
Proof. unfold mmul. rewrite <- rsum_scal. apply rsum_ext. intros; ring. Qed.
Lemma mmul_scal_r k c A B i j : mmul k A (fun i j => c * B i j) i j = c * mmul k A B i j.
Proof. unfold mmul. rewrite <- rsum_scal. apply rsum_ext. intros; ring. Qed.
Lemma mmul_sub_l k A A' B i j : mmul k (fun i j => A i j - A' i j) B i j = mmul k A B i j - mmul k A' B i j.
Proof. unfold mmul. rewrite <- rsum_sub. apply rsum_ext. intros; ring. Qed.
Lemma mmul_sub_r k A B B' i j : mmul k A (fun i j => B i j - B' i j) i j = mmul k A B i j - mmul k A B' i j.
Proof. unfold mmul. rewrite <- rsum_sub. apply rsum_ext. intros; ring. Qed.
Lemma mmul_mv k A B i j : mmul k A B i j = mv k A (fun l => B l j) i.
Proof. reflexivity. Qed.
(** a^T a z = 0 means a z = 0 *)
Lemma gram_kernel n p A z : (forall k, (k < p)%nat -> rsum n (fun i => A i k * mv p A z i) = 0) -> forall i, (i < n)%nat -> mv p A z i = 0.
Proof.
  intros H i Hi. assert (E : rsum n (fun i => mv p A z i ^ 2) = 0).
  { rewrite (rsum_ext n _ (fun i => rsum p (fun k => z k * (A i k * mv p A z i)))).
    - rewrite rsum_swap. apply rsum_0. intros k Hk. rewrite rsum_scal, H by auto. ring.
    - intros r Hr. transitivity (rsum p (fun k => A r k * z k) * mv p A z r); [unfold mv; ring|]. rewrite <- rsum_scal_r. apply rsum_ext. intros; ring. }
  apply sq0. exact (rsum_nonneg_0 n _ (fun i _ => pow2_ge_0 _) E i Hi).
Qed.
Lemma gram_kernel_m n p A Z : (forall k j, (k < p)%nat -> mmul n (tr A) (mmul p A Z) k j = 0) -> forall i j, (i < n)%nat -> mmul p A Z i j = 0.
Proof. intros H i j Hi. apply (gram_kernel n p A (fun l => Z l j)); auto. intros k Hk. exact (H k j Hk). Qed.

(** ** what the four conditions mean *)
Lemma mp_inverse_ext n p M X Y : mp_inverse n p M X -> (forall k j, Y k j = X k j) -> mp_inverse n p M Y.
Proof.
  intros (H1 & H2 & H3 & H4) E.
  assert (MY : forall i j, mmul p M Y i j = mmul p M X i j) by (intros; apply mmul_ext; auto).
  assert (YM : forall i j, mmul n Y M i j = mmul n X M i j) by (intros; apply mmul_ext; auto).
  split; [|split; [|split]]; intros.
  - rewrite <- H1 by auto. apply mmul_ext; auto.
  - rewrite E, <- H2 by auto. apply mmul_ext; auto.
  - rewrite !MY. auto.
  - rewrite !YM. auto.
Qed.
Lemma mp_normal n p M X b : mp_inverse n p M X -> forall k, (k < p)%nat -> rsum n (fun i => M i k * (mv p M (mv n X b) i - b i)) = 0.
Proof.
  intros (H1 & H2 & H3 & H4) k Hk.
  assert (E : forall i, (i < n)%nat -> mv p M (mv n X b) i = rsum n (fun j => mmul p M X j i * b j)).
  { intros i Hi. rewrite <- (mv_mm n n p (mmul p M X) M X b) by auto. unfold mv. apply rsum_ext. intros j Hj. rewrite H3 by auto. reflexivity. }
  rewrite (rsum_ext n _ (fun i => rsum n (fun j => b j * (mmul p M X j i * M i k)) - b i * M i k)).
  - rewrite rsum_sub, rsum_swap. rewrite (rsum_ext n (fun j => rsum n _) (fun j => b j * M j k)); [ring|].
    intros j Hj. rewrite rsum_scal. f_equal. apply H1; auto.
  - intros i Hi. rewrite E by auto. rewrite Rmult_minus_distr_l, <- rsum_scal. f_equal; [apply rsum_ext; intros; ring|ring].
Qed.
Lemma mp_range n p M X b d : mp_inverse n p M X -> (forall i, (i < n)%nat -> mv p M d i = 0) -> rsum p (fun k => mv n X b k * d k) = 0.
Proof.
  intros (H1 & H2 & H3 & H4) Hd.
  assert (E : forall k, (k < p)%nat -> mv n X b k = rsum p (fun l => mmul n X M l k * mv n X b l)).
  { intros k Hk. transitivity (mv p (mmul n X M) (mv n X b) k); [|unfold mv at 1; apply rsum_ext; intros l Hl; rewrite H4 by auto; reflexivity].
    rewrite <- (mv_mm p n p X (mmul n X M) X b); auto. intros i j Hi Hj. rewrite <- H2 by auto. reflexivity. }
  rewrite (rsum_ext p _ (fun k => rsum p (fun l => mv n X b l * (mmul n X M l k * d k)))).
  - rewrite rsum_swap. apply rsum_0. intros l Hl. rewrite rsum_scal.
    change (rsum p (fun k => mmul n X M l k * d k)) with (mv p (mmul n X M) d l). rewrite (mv_mm p p n (mmul n X M) X M d) by auto.
    unfold mv at 2. rewrite rsum_0; [ring|]. intros i Hi. rewrite Hd by auto. ring.
  - intros k Hk. rewrite E at 1 by auto. rewrite <- rsum_scal_r. apply rsum_ext. intros; ring.
Qed.
Lemma mp_least n p M X b : mp_inverse n p M X ->
  least p (fun z => least_error n p (fun _ => 1) M b z) (wsq p (fun _ => 1)) (mv n X b).
Proof.
  intros HX. set (x := mv n X b).
  assert (G : forall z, wsq n (fun _ => 1) (resid p M b z) = wsq n (fun _ => 1) (resid p M b x) + wsq n (fun _ => 1) (mv p M (fun k => z k - x k))).
  { intros z. assert (Z : rsum n (fun i => mv p M (fun k => z k - x k) i * (mv p M x i - b i)) = 0).
    { rewrite (rsum_ext n _ (fun i => rsum p (fun k => (z k - x k) * (M i k * (mv p M x i - b i))))) by (intros i Hi; unfold mv at 1; rewrite <- rsum_scal_r; apply rsum_ext; intros; ring).
      rewrite rsum_swap. apply rsum_0. intros k Hk. rewrite rsum_scal. unfold x. rewrite (mp_normal n p M X b HX k Hk). ring. }
    replace (wsq n (fun _ => 1) (resid p M b z)) with (wsq n (fun _ => 1) (resid p M b x) + wsq n (fun _ => 1) (mv p M (fun k => z k - x k)) + 2 * rsum n (fun i => mv p M (fun k => z k - x k) i * (mv p M x i - b i))); [rewrite Z; ring|].
    unfold wsq. rewrite <- rsum_scal, <- !rsum_add. apply rsum_ext. intros i Hi. unfold resid. rewrite mv_sub. ring. }
  assert (N : forall z, 0 <= wsq n (fun _ => 1) (mv p M (fun k => z k - x k))) by (intros; apply wsq_nonneg; intros; lra).
  assert (LE : least_error n p (fun _ => 1) M b x) by (intros z; rewrite (G z); specialize (N z); lra).
  split; auto. intros z Hz. specialize (Hz x). rewrite (G z) in Hz.
  assert (Z0 : forall i, (i < n)%nat -> mv p M (fun k => z k - x k) i = 0).
  { apply (wsq_0 n (fun _ => 1)); [intros; lra|]. specialize (N z). lra. }
  pose proof (mp_range n p M X b (fun k => z k - x k) HX Z0) as P.
  assert (EZ : wsq p (fun _ => 1) z = wsq p (fun _ => 1) x + wsq p (fun _ => 1) (fun k => z k - x k)).
  { replace (wsq p (fun _ => 1) z) with (wsq p (fun _ => 1) x + wsq p (fun _ => 1) (fun k => z k - x k) + 2 * rsum p (fun k => mv n X b k * (z k - x k))); [rewrite P; ring|].
    unfold wsq. rewrite <- rsum_scal, <- !rsum_add. apply rsum_ext. intros k Hk. unfold x. ring. }
  assert (N2 : 0 <= wsq p (fun _ => 1) (fun k => z k - x k)) by (apply wsq_nonneg; intros; lra).
  split; [lra|]. intros L i Hi.
  assert (Q : z i - x i = 0); [|lra]. apply (wsq_0 p (fun _ => 1) (fun k => z k - x k)); auto; [intros; lra|]. lra.
Qed.
Lemma mp_unique n p M X Y : mp_inverse n p M X -> mp_inverse n p M Y -> forall k j, (k < p)%nat -> (j < n)%nat -> X k j = Y k j.
Proof.
  intros HX HY k j Hk Hj.
  destruct (mp_least n p M X (fun i => delta j i) HX) as (X1 & X2). destruct (mp_least n p M Y (fun i => delta j i) HY) as (Y1 & Y2).
  destruct (X2 _ Y1) as (A1 & A2). destruct (Y2 _ X1) as (B1 & B2). specialize (B2 A1 k Hk).
  unfold mv in B2. rewrite (rsum_ext n _ (fun i => delta j i * X k i)) in B2 by (intros; ring).
  rewrite (rsum_ext n (fun i => Y k i * _) (fun i => delta j i * Y k i)) in B2 by (intros; ring).
  rewrite (delta_sum_l n j (X k)), (delta_sum_l n j (Y k)) in B2 by auto. exact B2.
Qed.

(** ** the part of L *)
Definition left_pinv (n r : nat) (L Tm : nat -> nat -> R) : Prop :=
  (forall i j, (i < r)%nat -> (j < r)%nat -> mmul n Tm L i j = delta i j) /\
  (forall i j, (i < n)%nat -> (j < n)%nat -> mmul r L Tm i j = mmul r L Tm j i).
Lemma gram_nonsingular n r L : cols_indep n r L -> nonsingular r (fun i j => rsum n (fun k => L k i * L k j)).
Proof.
  intros CI x Hx i Hi. apply (CI x); auto. intros q Hq. apply (gram_kernel n r L x); auto. intros k Hk. rewrite <- (Hx k Hk). unfold mv.
  rewrite (rsum_ext r _ (fun j => rsum n (fun i => L i k * (L i j * x j)))) by (intros j Hj; rewrite <- rsum_scal_r; apply rsum_ext; intros; ring).
  rewrite rsum_swap. apply rsum_ext. intros i0 Hi0. rewrite rsum_scal. reflexivity.
Qed.
(** the normal equations determine the answer *)
Lemma normal_pinv n r L Tm : cols_indep n r L ->
  (forall i j, (i < r)%nat -> (j < n)%nat -> mmul n (tr L) (mmul r L Tm) i j = L j i) -> left_pinv n r L Tm.
Proof.
  intros CI H. split.
  - intros i j Hi Hj. assert (Q : mmul n Tm L i j - delta i j = 0); [|lra].
    apply (CI (fun l => mmul n Tm L l j - delta l j)); auto. intros q Hq. apply (gram_kernel n r L (fun l => mmul n Tm L l j - delta l j)); auto. intros k Hk.
    rewrite (rsum_ext n _ (fun i => tr L k i * (mmul r L (mmul n Tm L) i j - L i j))).
    + rewrite (rsum_ext n _ (fun i => tr L k i * mmul r L (mmul n Tm L) i j - tr L k i * L i j)) by (intros; ring). rewrite rsum_sub.
      change (mmul n (tr L) (mmul r L (mmul n Tm L)) k j - mmul n (tr L) L k j = 0).
      rewrite (mmul_ext n (tr L) (tr L) (mmul r L (mmul n Tm L)) (mmul n (mmul r L Tm) L)) by (auto; intros; symmetry; apply mmul_assoc).
      rewrite <- mmul_assoc. rewrite (mmul_ext n (mmul n (tr L) (mmul r L Tm)) (tr L) L L) by (auto; intros l Hl; rewrite H by auto; reflexivity). ring.
    + intros i0 Hi0. unfold tr. f_equal. rewrite (mv_sub r L (fun l => mmul n Tm L l j) (fun l => delta l j)). unfold mmul at 2, mv at 1. f_equal.
      rewrite <- (mmul_delta_r r L i0 j) by auto. reflexivity.
  - intros i j Hi Hj. set (P := mmul r L Tm).
    assert (K : forall i j, (i < n)%nat -> (j < n)%nat -> mmul n (tr P) P i j = P j i).
    { intros i' j' Hi' Hj'. rewrite (mmul_ext n (tr P) (mmul r (tr Tm) (tr L)) P P) by (auto; intros; apply mmul_tr).
      rewrite mmul_assoc. rewrite (mmul_ext r (tr Tm) (tr Tm) (mmul n (tr L) P) (tr L)) by (auto; intros l Hl; apply H; auto).
      rewrite <- mmul_tr. reflexivity. }
    rewrite <- (K j i), <- (K i j) by auto. unfold mmul at 1 2, tr. apply rsum_ext. intros; ring.
Qed.
Lemma square_normal n L Tm : (forall i j, (i < n)%nat -> (j < n)%nat -> mmul n L Tm i j = delta i j) ->
  forall i j, (i < n)%nat -> (j < n)%nat -> mmul n (tr L) (mmul n L Tm) i j = L j i.
Proof.
  intros H i j Hi Hj. rewrite (mmul_ext n (tr L) (tr L) (mmul n L Tm) delta) by auto. rewrite mmul_delta_r by auto. reflexivity.
Qed.
(** the two factors make the inverse matrix *)
Lemma factor_pinv n p r M L Q Tm : (forall i k, (i < n)%nat -> (k < p)%nat -> M i k = mmul r L Q i k) -> orthonormal_rows p r Q -> left_pinv n r L Tm ->
  mp_inverse n p M (fun k j => rsum r (fun i => Q i k * Tm i j)) /\
  (forall k l, (k < p)%nat -> (l < p)%nat -> mmul n (fun k j => rsum r (fun i => Q i k * Tm i j)) M k l = rsum r (fun i => Q i k * Q i l)).
Proof.
  intros HM O (T1 & T2). set (X := fun k j => rsum r (fun i => Q i k * Tm i j)).
  assert (QX : forall i j, (i < r)%nat -> mmul p Q X i j = Tm i j) by (intros i j Hi; exact (orows_back p r Q (fun i => Tm i j) i O Hi)).
  assert (MX : forall i j, (i < n)%nat -> mmul p M X i j = mmul r L Tm i j).
  { intros i j Hi. rewrite (mmul_ext p M (mmul r L Q) X X) by auto. rewrite mmul_assoc. apply mmul_ext; auto. }
  assert (XM : forall k l, (k < p)%nat -> (l < p)%nat -> mmul n X M k l = rsum r (fun i => Q i k * Q i l)).
  { intros k l Hk Hl. change (mmul n (mmul r (tr Q) Tm) M k l = mmul r (tr Q) Q k l).
    rewrite (mmul_ext n _ (mmul r (tr Q) Tm) M (mmul r L Q)) by auto. rewrite mmul_assoc. apply mmul_ext; auto. intros t Ht.
    rewrite <- mmul_assoc. rewrite (mmul_ext r (mmul n Tm L) delta Q Q) by auto. apply mmul_delta_l; auto. }
  split; [split; [|split; [|split]]|exact XM].
  - intros i k Hi Hk. rewrite (mmul_ext n (mmul p M X) (mmul r L Tm) M (mmul r L Q)) by auto. rewrite HM by auto.
    rewrite mmul_assoc. apply mmul_ext; auto. intros t Ht. rewrite <- mmul_assoc. rewrite (mmul_ext r (mmul n Tm L) delta Q Q) by auto. apply mmul_delta_l; auto.
  - intros k j Hk Hj. rewrite (mmul_ext p (mmul n X M) (mmul r (tr Q) Q) X X) by (auto; intros; apply XM; auto). rewrite mmul_assoc.
    rewrite (mmul_ext r (tr Q) (tr Q) (mmul p Q X) Tm) by auto. reflexivity.
  - intros i j Hi Hj. rewrite !MX by auto. auto.
  - intros k l Hk Hl. rewrite !XM by auto. apply rsum_ext. intros; ring.
Qed.

Section MPInv.
  Variables (n p : nat) (a : fmat R).
  Hypothesis Hn : (0 < n)%nat.
  Hypothesis Hp : (0 < p)%nat.
  Hypothesis R1 : nr a = n.
  Hypothesis C1 : nc a = p.
  Hypothesis NZ : exists i k, (i < n)%nat /\ (k < p)%nat /\ el a i k <> 0.
  Lemma lq_resize : exists l q rank C, zMatDecompLQAndResize 0 a (zmat (nr a) (nr a)) (zmat (nr a) (nc a)) = Ok (l, q, rank) /\ nr l = n /\ nc l = rank /\ nr q = rank /\ nc q = p /\
    (0 < rank <= Nat.min n p)%nat /\ orthonormal_rows p rank (el q) /\
    (forall i k, (i < n)%nat -> (k < p)%nat -> el a i k = mmul rank (el l) (el q) i k) /\
    (forall j j', (j < rank)%nat -> (j' < rank)%nat -> rsum n (fun i => C j i * el l i j') = delta j j').
  Proof.
    rewrite R1, C1. destruct (lq_ok n p a Hn Hp R1 C1) as (l & q & rank & C & E & L1 & L2 & Q1 & Q2 & RK & O & LT & LQ & LI & _).
    assert (Hr : (0 < rank)%nat).
    { destruct rank; [|lia]. exfalso. destruct NZ as (i & k & Hi & Hk & N). apply N. rewrite LQ by auto. reflexivity. }
    unfold zMatDecompLQAndResize. rewrite E. cbn [bind]. rewrite R1. destruct (Nat.ltb_spec rank n).
    - eexists _, _, _, C. split; [reflexivity|]. cbn [nr nc el]. conjs; auto; lia.
    - exists l, q, rank, C. split; [reflexivity|]. conjs; auto; lia.
  Qed.
  Lemma mp_left_ok r (l : fmat R) : (0 < r)%nat -> nr l = n -> nc l = r -> cols_indep n r (el l) ->
    exists t, mp_left 0 l = Ok t /\ nr t = r /\ nc t = n /\ left_pinv n r (el l) (el t).
  Proof.
    intros Hr L1 L2 CI. unfold mp_left, issqr. rewrite L1, L2. destruct (Nat.eqb_spec n r) as [Er|Nr].
    - subst r. destruct (C29_inverse_partial n l (zmat n n)) as (t & E & T1 & T2 & T3); auto. { rewrite <- Er in CI. exact CI. }
      rewrite <- Er. rewrite E. cbn [bind]. exists t. conjs; auto. apply normal_pinv; [rewrite <- Er in CI; exact CI|]. apply square_normal. exact T3.
    - unfold zMulMatTMat. rewrite L2. cbn [nr nc zmat]. rewrite !Nat.eqb_refl. cbn [andb].
      destruct (C29_mul_inv_exact r n (mul_matT_mat l l) (transpose l) (zmat r n)) as (o & E & H); auto.
      rewrite E. cbn [bind].
      assert (GE : forall i j, el (mul_matT_mat l l) i j = rsum n (fun k => el l k i * el l k j)) by (intros; unfold mul_matT_mat; cbn [el]; rewrite ksum_R, L1; reflexivity).
      destruct o as [t|].
      + destruct H as (_ & T1 & T2 & T3). exists t. conjs; auto. apply normal_pinv; auto. intros i j Hi Hj. rewrite <- mmul_assoc.
        specialize (T3 i j Hi Hj). cbn [transpose el] in T3. rewrite <- T3. unfold mm, mmul at 1. apply rsum_ext. intros k Hk. rewrite GE. reflexivity.
      + exfalso. apply H. intros x Hx. apply (gram_nonsingular n r (el l) CI x). intros i Hi. rewrite <- (Hx i Hi). unfold mv. apply rsum_ext. intros j Hj. rewrite GE. reflexivity.
  Qed.
  Lemma mpinv_parts : exists l q rank t, zMatDecompLQAndResize 0 a (zmat (nr a) (nr a)) (zmat (nr a) (nc a)) = Ok (l, q, rank) /\ nr l = n /\ nc l = rank /\ nr q = rank /\ nc q = p /\
    (0 < rank <= Nat.min n p)%nat /\ orthonormal_rows p rank (el q) /\ (forall i k, (i < n)%nat -> (k < p)%nat -> el a i k = mmul rank (el l) (el q) i k) /\
    cols_indep n rank (el l) /\ mp_left 0 l = Ok t /\ nr t = rank /\ nc t = n /\ left_pinv n rank (el l) (el t).
  Proof.
    destruct lq_resize as (l & q & rank & C & E & L1 & L2 & Q1 & Q2 & RK & O & LQ & LI).
    pose proof (left_inv_indep n rank (el l) C LI) as CI.
    destruct (mp_left_ok rank l) as (t & Et & T1 & T2 & T3); auto; try lia.
    exists l, q, rank, t. conjs; auto; lia.
  Qed.
  Lemma mulT_ok (q t m : fmat R) : nr q = nr t -> nc q = nr m -> nc t = nc m ->
    nr (zMulMatTMat q t m) = nr m /\ nc (zMulMatTMat q t m) = nc m /\ forall k j, el (zMulMatTMat q t m) k j = rsum (nr q) (fun i => el q i k * el t i j).
  Proof.
    intros H1 H2 H3. unfold zMulMatTMat. rewrite H1, H2, H3, !Nat.eqb_refl. cbn [andb mul_matT_mat nr nc el]. conjs; auto. intros k j. rewrite ksum_R, H1. reflexivity.
  Qed.
  Lemma mpinv_ok mp : nr mp = p -> nc mp = n ->
    exists rank X, zMatMPInv 0 0 a mp = Ok (Some (rank, X)) /\ nr X = p /\ nc X = n /\ mp_inverse n p (el a) (el X) /\ INR rank = rsum p (fun k => mmul n (el X) (el a) k k) /\
      forall mn, nr mn = p -> nc mn = p -> exists N, zMatMPInvNull 0 0 a mp mn = Ok (Some (rank, X, N)) /\ nr N = p /\ nc N = p /\
        forall k l, (k < p)%nat -> (l < p)%nat -> el N k l = mmul n (el X) (el a) k l - delta k l.
  Proof.
    intros M1 M2. destruct mpinv_parts as (l & q & rank & t & E & L1 & L2 & Q1 & Q2 & RK & O & LQ & CI & Et & T1 & T2 & T3).
    destruct (mulT_ok q t mp) as (X1 & X2 & X3); try congruence.
    destruct (factor_pinv n p rank (el a) (el l) (el q) (el t) LQ O T3) as (F1 & F2).
    assert (EX : forall k j, el (zMulMatTMat q t mp) k j = rsum rank (fun i => el q i k * el t i j)) by (intros; rewrite X3, Q1; reflexivity).
    assert (XA : forall k l, (k < p)%nat -> (l < p)%nat -> mmul n (el (zMulMatTMat q t mp)) (el a) k l = rsum rank (fun i => el q i k * el q i l)).
    { intros k l' Hk Hl. rewrite <- F2 by auto. apply mmul_ext; auto. }
    exists rank, (zMulMatTMat q t mp). unfold zMatMPInv, zMatMPInvNull. rewrite E. cbn [bind]. rewrite (proj2 (Nat.eqb_neq rank 0)) by lia. rewrite Et. cbn [bind].
    split; [reflexivity|]. split; [congruence|]. split; [congruence|]. split.
    { apply (mp_inverse_ext n p (el a) _ (el (zMulMatTMat q t mp)) F1). auto. }
    split.
    { rewrite (rsum_ext p _ (fun k => rsum rank (fun i => el q i k * el q i k))) by (intros; apply XA; auto). rewrite rsum_swap.
      rewrite (rsum_ext rank _ (fun _ => 1)); [rewrite rsum_const; ring|]. intros i Hi. change (rsum p (fun k => el q i k * el q i k)) with (rdot p (el q) i i). rewrite O by lia. unfold delta. rewrite Nat.eqb_refl. reflexivity. }
    intros mn N1 N2. destruct (mulT_ok q q mn) as (Y1 & Y2 & Y3); try congruence.
    destruct (sub_ident_ok p (zMulMatTMat q q mn)) as (N & EN & K1 & K2 & K3); try congruence. rewrite EN. cbn [bind]. exists N. conjs; auto.
    intros k l' Hk Hl. rewrite K3, (proj2 (Nat.ltb_lt k p)), Y3, XA by auto. rewrite Q1. reflexivity.
  Qed.
  (** the product with another matrix *)
  Lemma mulmpinv_ok c (m2 m : fmat R) : nr m2 = n -> nc m2 = c -> nr m = p -> nc m = c ->
    exists Y, zMulMPInvMatMat 0 0 a m2 m = Ok (Some Y) /\ nr Y = p /\ nc Y = c /\
      forall X, mp_inverse n p (el a) X -> forall k j, (k < p)%nat -> (j < c)%nat -> el Y k j = rsum n (fun i => X k i * el m2 i j).
  Proof.
    intros A1 A2 M1 M2. destruct mpinv_parts as (l & q & rank & t & E & L1 & L2 & Q1 & Q2 & RK & O & LQ & CI & Et & T1 & T2 & T3).
    assert (S : exists s, (if issqr l then zMulInvMatMat 0 l m2 (zmat rank (nc m2)) else
        zMulInvMatMat 0 (zMulMatTMat l l (zmat rank rank)) (zMulMatTMat l m2 (zmat rank (nc m2))) (zmat rank (nc m2))) = Ok (Some s) /\ nr s = rank /\ nc s = c /\
        forall i j, (i < rank)%nat -> (j < c)%nat -> el s i j = rsum n (fun k => el t i k * el m2 k j)).
    { assert (U : forall S, (forall i j, (i < rank)%nat -> (j < c)%nat -> mmul n (tr (el l)) (mmul rank (el l) S) i j = mmul n (tr (el l)) (el m2) i j) ->
        forall i j, (i < rank)%nat -> (j < c)%nat -> S i j = rsum n (fun k => el t i k * el m2 k j)).
      { intros S HS i j Hi Hj. destruct T3 as (T3 & T4). assert (Q : S i j - mmul n (el t) (el m2) i j = 0); [|unfold mmul in Q; lra].
        apply (CI (fun i => S i j - mmul n (el t) (el m2) i j)); [|lia]. intros r Hr. apply (gram_kernel n rank (el l) (fun i => S i j - mmul n (el t) (el m2) i j)); auto. intros k Hk.
        rewrite (rsum_ext n _ (fun i0 => tr (el l) k i0 * mmul rank (el l) S i0 j - tr (el l) k i0 * mmul rank (el l) (mmul n (el t) (el m2)) i0 j)).
        - rewrite rsum_sub. change (mmul n (tr (el l)) (mmul rank (el l) S) k j - mmul n (tr (el l)) (mmul rank (el l) (mmul n (el t) (el m2))) k j = 0).
          rewrite HS by auto. rewrite (mmul_ext n (tr (el l)) (tr (el l)) (mmul rank (el l) (mmul n (el t) (el m2))) (mmul n (mmul rank (el l) (el t)) (el m2))) by (auto; intros; symmetry; apply mmul_assoc).
          rewrite <- mmul_assoc. rewrite (mmul_ext n (mmul n (tr (el l)) (mmul rank (el l) (el t))) (tr (el l)) (el m2) (el m2)); [ring| |auto].
          intros x Hx. (* l^T (l t) = (l t l)^T = l^T *)
          transitivity (mmul n (mmul rank (el l) (el t)) (el l) x k).
          + unfold tr. unfold mmul at 1 3. apply rsum_ext. intros y Hy. rewrite T4 by auto. ring.
          + rewrite mmul_assoc. rewrite (mmul_ext rank (el l) (el l) (mmul n (el t) (el l)) delta) by auto. rewrite mmul_delta_r by auto. reflexivity.
        - intros i0 Hi0. rewrite (mv_sub rank (el l) (fun i => S i j) (fun i => mmul n (el t) (el m2) i j)). unfold tr. rewrite !mmul_mv. ring. }
      unfold issqr. rewrite L1, L2, A2. destruct (Nat.eqb_spec n rank) as [Er|Nr].
      - destruct (C29_mul_inv_exact n c l m2 (zmat rank c)) as (o & Eo & H); auto; try congruence. destruct o as [s|]; [|exfalso; apply H; rewrite <- Er in CI; exact CI].
        destruct H as (_ & S1 & S2 & S3). exists s. split; auto. split; [congruence|]. split; auto. apply U. intros i j Hi Hj. apply mmul_ext; auto. intros k Hk. rewrite <- Er. apply S3; auto.
      - assert (EL : zMulMatTMat l l (zmat rank rank) = mul_matT_mat l l) by (unfold zMulMatTMat; rewrite L1, L2; cbn [nr nc zmat]; rewrite !Nat.eqb_refl; reflexivity).
        assert (EM : zMulMatTMat l m2 (zmat rank c) = mul_matT_mat l m2) by (unfold zMulMatTMat; rewrite L1, L2, A1, A2; cbn [nr nc zmat]; rewrite !Nat.eqb_refl; reflexivity).
        rewrite EL, EM.
        assert (GE : forall (m : fmat R) i j, el (mul_matT_mat l m) i j = rsum n (fun k => el l k i * el m k j)) by (intros; unfold mul_matT_mat; cbn [el]; rewrite ksum_R, L1; reflexivity).
        destruct (C29_mul_inv_exact rank c (mul_matT_mat l l) (mul_matT_mat l m2) (zmat rank c)) as (o & Eo & H); auto; try lia.
        destruct o as [s|].
        + destruct H as (_ & S1 & S2 & S3). exists s. split; auto. split; auto. split; auto. apply U. intros i j Hi Hj. rewrite <- mmul_assoc.
          transitivity (el (mul_matT_mat l m2) i j); [|rewrite GE; reflexivity]. rewrite <- S3 by auto. unfold mm, mmul at 1. apply rsum_ext. intros k Hk. rewrite GE. reflexivity.
        + exfalso. apply H. intros x Hx. apply (gram_nonsingular n rank (el l) CI x). intros i Hi. rewrite <- (Hx i Hi). unfold mv. apply rsum_ext. intros j Hj. rewrite GE. reflexivity. }
    destruct S as (s & Es & S1 & S2 & S3).
    unfold zMulMPInvMatMat. rewrite E. cbn [bind]. rewrite (proj2 (Nat.eqb_neq rank 0)) by lia. rewrite Es. cbn [bind].
    destruct (mulT_ok q s m) as (Y1 & Y2 & Y3); try congruence. eexists. split; [reflexivity|]. split; [congruence|]. split; [congruence|].
    intros X HX k j Hk Hj. destruct (factor_pinv n p rank (el a) (el l) (el q) (el t) LQ O T3) as (F1 & _).
    rewrite Y3, Q1. rewrite (rsum_ext rank _ (fun i => rsum n (fun x => el q i k * el t i x * el m2 x j))).
    - rewrite rsum_swap. apply rsum_ext. intros i Hi. rewrite (mp_unique n p (el a) X _ HX F1 k i Hk Hi). rewrite <- rsum_scal_r. reflexivity.
    - intros i Hi. rewrite S3 by auto. rewrite <- rsum_scal. apply rsum_ext. intros; ring.
  Qed.
End MPInv.
