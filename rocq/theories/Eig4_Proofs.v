(** Orthonormal families; the singular value decomposition. *)
From Coq Require Import Reals Lra Lia Psatz.
From Verif Require Import Prelude Prelude_Proofs Scalar RealLib Fmat Fmat_Proofs LE_Model IP_Model Vop Qp_Spec Qp_Proofs
  Stat_Model Stat_Proofs Eig_Model Eig_Spec Eig_Proofs Eig2_Proofs Eig3_Proofs.
Local Open Scope R_scope.

Lemma delta_sum n i (f : nat -> R) : (i < n)%nat -> rsum n (fun k => f k * delta i k) = f i.
Proof.
  intros H. rewrite (rsum_delta n i); auto; [unfold delta; rewrite Nat.eqb_refl; ring|].
  intros k _ K. unfold delta. replace (i =? k)%nat with false by (symmetry; apply Nat.eqb_neq; auto). ring.
Qed.
Lemma delta_sym a b : delta a b = delta b a.
Proof. unfold delta. rewrite Nat.eqb_sym. reflexivity. Qed.
(** the square of a combination of orthonormal columns *)
Lemma isom n r U (y : nat -> R) : orthonormal_cols n r U ->
  rsum n (fun k => rsum r (fun i => U k i * y i) ^ 2) = rsum r (fun i => y i ^ 2).
Proof.
  intros O. rewrite (rsum_ext n _ (fun k => rsum r (fun i => rsum r (fun l => y i * (y l * (U k i * U k l)))))).
  2:{ intros k Hk. replace (rsum r (fun i => U k i * y i) ^ 2) with (rsum r (fun i => U k i * y i) * rsum r (fun i => U k i * y i)) by ring.
      rewrite <- rsum_scal_r. apply rsum_ext. intros i Hi. rewrite <- rsum_scal. apply rsum_ext. intros; ring. }
  rewrite rsum_swap. apply rsum_ext. intros i Hi. rewrite rsum_swap.
  rewrite (rsum_ext r _ (fun l => (y i * y l) * delta i l)).
  - rewrite delta_sum by auto. ring.
  - intros l Hl. rewrite <- (O i l) by auto. unfold cdot. rewrite <- rsum_scal. apply rsum_ext. intros; ring.
Qed.
(** Bessel's inequality *)
Lemma bessel n r Q (x : nat -> R) : orthonormal_rows n r Q ->
  rsum r (fun a => rsum n (fun k => x k * Q a k) ^ 2) <= rsum n (fun k => x k ^ 2).
Proof.
  intros O. set (al := fun a => rsum n (fun k => x k * Q a k)).
  assert (OC : orthonormal_cols n r (fun k a => Q a k)) by (intros a b Ha Hb; apply (O a b Ha Hb)).
  pose proof (isom n r (fun k a => Q a k) al OC) as I.
  assert (P : 0 <= rsum n (fun k => (x k - rsum r (fun a => Q a k * al a)) ^ 2)) by (apply rsum_nonneg; intros; apply pow2_ge_0).
  rewrite (rsum_ext n _ (fun k => x k ^ 2 - 2 * (x k * rsum r (fun a => Q a k * al a)) + rsum r (fun a => Q a k * al a) ^ 2)) in P by (intros; ring).
  rewrite rsum_add, rsum_sub, I, rsum_scal in P.
  assert (C : rsum n (fun k => x k * rsum r (fun a => Q a k * al a)) = rsum r (fun a => al a ^ 2)).
  { rewrite (rsum_ext n _ (fun k => rsum r (fun a => al a * (x k * Q a k)))) by (intros; rewrite <- rsum_scal; apply rsum_ext; intros; ring).
    rewrite rsum_swap. apply rsum_ext. intros a Ha. rewrite rsum_scal. fold (al a). ring. }
  rewrite C in P. change (rsum r (fun a => al a ^ 2) <= rsum n (fun k => x k ^ 2)). lra.
Qed.
Lemma family_size n r Q : orthonormal_rows n r Q -> (r <= n)%nat.
Proof.
  intros O. apply INR_le.
  assert (E : INR r = rsum n (fun k => rsum r (fun a => Q a k ^ 2))).
  { rewrite rsum_swap. rewrite (rsum_ext r _ (fun _ => 1)); [rewrite rsum_const; ring|].
    intros a Ha. transitivity (rdot n Q a a); [apply rsum_ext; intros; ring|].
    rewrite O by auto. unfold delta. rewrite Nat.eqb_refl. reflexivity. }
  rewrite E. rewrite <- (Rmult_1_r (INR n)), <- rsum_const. apply rsum_le. intros k Hk.
  pose proof (bessel n r Q (fun l => delta k l) O) as B. cbv beta in B.
  rewrite (rsum_ext r _ (fun a => Q a k ^ 2)) in B.
  2:{ intros a Ha. f_equal. rewrite <- (delta_sum n k (Q a)) by auto. apply rsum_ext. intros; ring. }
  rewrite (rsum_ext n _ (fun l => (fun l => delta k l) l * delta k l)) in B by (intros; ring).
  rewrite delta_sum in B by auto. unfold delta in B. rewrite Nat.eqb_refl in B. exact B.
Qed.
(** a family of pairwise orthogonal, non-zero vectors *)
Lemma orth_family n r Y : (forall a b, (a < r)%nat -> (b < r)%nat -> a <> b -> rdot n Y a b = 0) ->
  (forall a, (a < r)%nat -> 0 < rdot n Y a a) -> (r <= n)%nat.
Proof.
  intros O P. apply (family_size n r (fun a k => Y a k / R_sqrt.sqrt (rdot n Y a a))).
  intros a b Ha Hb. unfold rdot at 1.
  assert (Sa : R_sqrt.sqrt (rdot n Y a a) <> 0) by (apply Rgt_not_eq, sqrt_lt_R0, P; auto).
  assert (Sb : R_sqrt.sqrt (rdot n Y b b) <> 0) by (apply Rgt_not_eq, sqrt_lt_R0, P; auto).
  rewrite (rsum_ext n _ (fun k => / (R_sqrt.sqrt (rdot n Y a a) * R_sqrt.sqrt (rdot n Y b b)) * (Y a k * Y b k))) by (intros; field; auto).
  rewrite rsum_scal. fold (rdot n Y a b). unfold delta. destruct (Nat.eqb_spec a b) as [->|Nab].
  - rewrite sqrt_sqrt by (left; apply P; auto). apply Rinv_l. apply Rgt_not_eq, P. auto.
  - rewrite (O a b) by auto. ring.
Qed.

(** the exchange of a and b *)
Definition tau (a b k : nat) : nat := if (k =? a)%nat then b else if (k =? b)%nat then a else k.
Lemma tau_lt a b k N : (a < N)%nat -> (b < N)%nat -> (k < N)%nat -> (tau a b k < N)%nat.
Proof. unfold tau. nbp. Qed.
Lemma tau_inj a b k l : tau a b k = tau a b l -> k = l.
Proof. unfold tau. nbp. Qed.
Lemma rsum_tau a b N f : (a < N)%nat -> (b < N)%nat -> rsum N (fun k => f (tau a b k)) = rsum N f.
Proof.
  intros Ha Hb. destruct (Nat.eq_dec a b) as [->|Nab].
  - apply rsum_ext. intros k Hk. unfold tau. nbp.
  - apply (rsum_two_eq N a b); auto.
    + intros k Hk K1 K2. unfold tau. nbp.
    + unfold tau. nbp. lra.
Qed.

(** *** singular values *)
Section SVD.
  Variables (n p : nat) (m : fmat R).
  Hypotheses (Rm : nr m = n) (Cm : nc m = p).
  (** U^T m *)
  Definition pr (U : nat -> nat -> R) (i k : nat) : R := rsum n (fun r => U r i * el m r k).
  Notation G := (fun U a b => rdot p (pr U) a b).
  Lemma gram V D a b : orthogonal n V ->
    (forall r q, (r < n)%nat -> (q < n)%nat -> mmul n (fun i j => rsum p (fun k => el m i k * el m j k)) V r q = mmul n V D r q) ->
    (a < n)%nat -> (b < n)%nat -> G V a b = D a b.
  Proof.
    intros (O1 & _) M Ha Hb. unfold rdot, pr.
    rewrite (rsum_ext p _ (fun k => rsum n (fun r => rsum n (fun s => V r a * ((el m r k * el m s k) * V s b))))).
    2:{ intros k Hk. rewrite <- rsum_scal_r. apply rsum_ext. intros r Hr. rewrite <- rsum_scal. apply rsum_ext. intros; ring. }
    rewrite rsum_swap.
    rewrite (rsum_ext n _ (fun r => V r a * mmul n V D r b)).
    2:{ intros r Hr. rewrite <- M by auto. unfold mmul. rewrite rsum_swap, <- rsum_scal. apply rsum_ext. intros s Hs.
        rewrite rsum_scal. rewrite rsum_scal_r. ring. }
    unfold mmul. rewrite (rsum_ext n _ (fun r => rsum n (fun l => D l b * (V r a * V r l)))).
    2:{ intros r Hr. rewrite <- rsum_scal. apply rsum_ext. intros; ring. }
    rewrite rsum_swap. rewrite (rsum_ext n _ (fun l => D l b * delta a l)).
    - apply (delta_sum n a (fun l => D l b)). auto.
    - intros l Hl. rewrite rsum_scal. f_equal. apply O1; auto.
  Qed.
  Lemma pr_ext U U' i i' k : (forall r, (r < n)%nat -> U r i = U' r i') -> pr U i k = pr U' i' k.
  Proof. intros H. apply rsum_ext. intros. rewrite H by auto. reflexivity. Qed.
  Lemma G_pos U a : 0 <= G U a a.
  Proof. apply rsum_nonneg. intros. nra. Qed.

  Variables (tol svdtol : R).
  Hypotheses (Ht : 0 <= tol) (Hs : 0 <= svdtol).
  Lemma swap_orth a b U U' : (a < n)%nat -> (b < n)%nat -> (forall r q, (r < n)%nat -> (q < n)%nat -> U' r q = U r (tau a b q)) ->
    orthogonal n U -> orthogonal n U'.
  Proof.
    intros Ha Hb H (O1 & O2). split; intros x y Hx Hy.
    - unfold cdot. rewrite (rsum_ext n _ (fun k => U k (tau a b x) * U k (tau a b y))) by (intros; rewrite !H by auto; reflexivity).
      pose proof (O1 (tau a b x) (tau a b y) (tau_lt a b x n Ha Hb Hx) (tau_lt a b y n Ha Hb Hy)) as OO. unfold cdot in OO. rewrite OO. unfold delta.
      destruct (Nat.eqb_spec x y) as [->|Nx]; [rewrite Nat.eqb_refl; reflexivity|].
      destruct (Nat.eqb_spec (tau a b x) (tau a b y)) as [E|]; [apply tau_inj in E; congruence|reflexivity].
    - rewrite <- (O2 x y Hx Hy). unfold rdot.
      rewrite (rsum_ext n _ (fun k => (fun k => U x k * U y k) (tau a b k))) by (intros; rewrite !H by auto; reflexivity).
      apply (rsum_tau a b n (fun k => U x k * U y k)); auto.
  Qed.

  Definition sinv (i : nat) (sv : fvec R) (u : fmat R) : Prop :=
    vlen sv = n /\ nr u = n /\ nc u = n /\ orthogonal n (el u) /\
    (forall k, (k < i)%nat -> vel sv k = R_sqrt.sqrt (G (el u) k k) /\ svdtol < G (el u) k k /\
       forall l, (k < l)%nat -> (l < n)%nat -> G (el u) l l <= G (el u) k k) /\
    (forall k, (i <= k < n)%nat -> vel sv k = G (el u) k k).
  Lemma nth_to_list_ (v : fvec R) k : (k < vlen v)%nat -> nth k (to_list v) 0 = vel v k.
  Proof.
    intros H. unfold to_list. rewrite (nth_indep _ 0 (vel v 0%nat)) by (rewrite map_length, seq_length; auto).
    rewrite map_nth, seq_nth by auto. reflexivity.
  Qed.
  Lemma nth_skipn_ (l : list R) i k : nth k (skipn i l) 0 = nth (i + k) l 0.
  Proof. revert i; induction l; intros [|i]; cbn; auto. - destruct k; reflexivity. Qed.
  (** columns are only exchanged: a property of the pairs of columns stays *)
  Lemma sort_ok (P : R -> Prop) sv u : sinv 0 sv u ->
    (forall a b, (a < n)%nat -> (b < n)%nat -> a <> b -> P (G (el u) a b)) ->
    exists sv' u' r, _zMatSVDSort svdtol m sv u = Ok (sv', u', r) /\ (r <= Nat.min n p)%nat /\
      vlen sv' = n /\ nr u' = n /\ nc u' = n /\ orthogonal n (el u') /\
      (forall k, (k < r)%nat -> vel sv' k = R_sqrt.sqrt (G (el u') k k) /\ svdtol < G (el u') k k /\
         forall l, (k < l)%nat -> (l < n)%nat -> G (el u') l l <= G (el u') k k) /\
      (forall k, (r <= k < n)%nat -> vel sv' k = 0) /\
      ((r < Nat.min n p)%nat -> forall k, (r <= k < n)%nat -> G (el u') k k <= svdtol) /\
      (forall a b, (a < n)%nat -> (b < n)%nat -> a <> b -> P (G (el u') a b)).
  Proof.
    intros I0 P0. unfold _zMatSVDSort. rewrite Rm, Cm.
    match goal with |- context [forb 0 (Nat.min n p) ?g ?s0] =>
      destruct (forb_inv (fun i (s : fvec R * fmat R) => sinv i (fst s) (snd s) /\ forall a b, (a < n)%nat -> (b < n)%nat -> a <> b -> P (G (el (snd s)) a b))
        (fun x : fvec R * fmat R * nat => (snd x < Nat.min n p)%nat /\ sinv (snd x) (fst (fst x)) (snd (fst x)) /\
           (forall a b, (a < n)%nat -> (b < n)%nat -> a <> b -> P (G (el (snd (fst x))) a b)) /\
           forall k, (snd x <= k < n)%nat -> G (el (snd (fst x))) k k <= svdtol) 0 (Nat.min n p) g s0) as (o & E & H) end.
    - lia.
    - auto.
    - intros i (sv1 & u1) Hi ((L1 & L2 & L3 & O & HS & HR) & PP). cbn [fst snd] in *.
      destruct (extremum_ok (fun x => x) (fun y m => slt m y) Rlt) with (data := skipn i (to_list sv1)) (size := (vlen sv1 - i)%nat)
        as ((mx & im) & EX & B1 & B2 & B3 & B4).
      { intros. cbn [slt RealS]. destruct (Rltb_spec m0 y); split; intros; auto; try discriminate; lra. }
      { intros a H. lra. } { intros. lra. } { intros. lra. }
      { rewrite skipn_length. unfold to_list. rewrite map_length, seq_length. lia. }
      unfold zDataMax. rewrite EX. cbn [bind]. cbn [fst snd] in B1, B2, B3, B4.
      assert (NT : forall k, (i + k < n)%nat -> nth k (skipn i (to_list sv1)) 0 = G (el u1) (i + k)%nat (i + k)%nat).
      { intros k Hk. rewrite nth_skipn_. rewrite nth_to_list_ by lia. apply HR. lia. }
      rewrite NT in B2 by lia.
      rewrite is_tol_R. rewrite B2. rewrite (Rabs_right (G (el u1) (i + im)%nat (i + im)%nat)) by (apply Rle_ge, G_pos).
      assert (MX : forall k, (i <= k < n)%nat -> G (el u1) k k <= G (el u1) (i + im)%nat (i + im)%nat).
      { intros k Hk. specialize (B3 (k - i)%nat ltac:(lia)). rewrite NT in B3 by lia. replace (i + (k - i))%nat with k in B3 by lia. rewrite B2 in B3. lra. }
      destruct (Rleb_spec (G (el u1) (i + im)%nat (i + im)%nat) svdtol) as [T|T].
      + eexists. split; [reflexivity|]. cbn [fst snd]. split; [lia|]. split; [unfold sinv; conjs; auto|]. split; [auto|].
        intros k Hk. specialize (MX k Hk). lra.
      + apply Rnot_le_lt in T. set (j := (im + i)%nat). replace (i + im)%nat with j in * by lia.
        assert (Hj : (i <= j < n)%nat) by lia.
        unfold vec_swap. rewrite !(proj2 (Nat.ltb_lt _ _)) by lia. cbn [andb bind].
        rewrite vget_ok by (cbn; lia). cbn [bind]. rewrite vset_ok by (cbn; lia). cbn [bind].
        unfold mat_swap_col. rewrite !(proj2 (Nat.ltb_lt _ _)) by lia. cbn [andb bind].
        eexists. split; [reflexivity|]. cbn [fst snd vlen vel nr nc el].
        set (U' := fun r q : nat => if (q =? i)%nat then el u1 r j else if (q =? j)%nat then el u1 r i else el u1 r q).
        assert (HU : forall r q, U' r q = el u1 r (tau i j q)) by (intros r q; unfold U', tau; nbp).
        assert (GU : forall a b, G U' a b = G (el u1) (tau i j a) (tau i j b)).
        { intros a b. unfold rdot. apply rsum_ext. intros k Hk. f_equal; apply pr_ext; intros; apply HU. }
        split; [|intros a b Ha Hb Nab; rewrite GU; apply PP; try (apply tau_lt; lia); intros Q; apply tau_inj in Q; auto].
        unfold sinv. cbn [vlen vel nr nc el]. conjs; auto.
        * apply (swap_orth i j (el u1)); auto; lia.
        * assert (TI : tau i j i = j) by (unfold tau; rewrite Nat.eqb_refl; reflexivity).
          intros k Hk. rewrite !GU. destruct (Nat.eq_dec k i) as [->|Nk].
          -- rewrite Nat.eqb_refl, TI. split; [rewrite HR by lia; reflexivity|]. split; [exact T|].
             intros l Hl Hl'. rewrite GU. apply MX. unfold tau. nbp.
          -- destruct (HS k ltac:(lia)) as (K1 & K2 & K3).
             assert (TK : tau i j k = k) by (unfold tau; nbp). rewrite TK.
             split; [rewrite <- K1; nbp|]. split; [exact K2|]. intros l Hl Hl'. rewrite GU. apply K3; unfold tau; nbp.
        * intros k Hk. rewrite GU. unfold tau. nbp; apply HR; lia.
    - rewrite E. cbn [bind].
      assert (FIN : forall sv1 u1 r, (r <= Nat.min n p)%nat -> sinv r sv1 u1 ->
         (forall a b, (a < n)%nat -> (b < n)%nat -> a <> b -> P (G (el u1) a b)) ->
         ((r < Nat.min n p)%nat -> forall k, (r <= k < n)%nat -> G (el u1) k k <= svdtol) ->
         exists sv' u' r', (sv <- for_ r (Nat.max r (vlen sv1)) (fun i sv => vset sv i 0%S) sv1 ;; Ok (sv, u1, r)) = Ok (sv', u', r') /\ (r' <= Nat.min n p)%nat /\
      vlen sv' = n /\ nr u' = n /\ nc u' = n /\ orthogonal n (el u') /\
      (forall k, (k < r')%nat -> vel sv' k = R_sqrt.sqrt (G (el u') k k) /\ svdtol < G (el u') k k /\
         forall l, (k < l)%nat -> (l < n)%nat -> G (el u') l l <= G (el u') k k) /\
      (forall k, (r' <= k < n)%nat -> vel sv' k = 0) /\
      ((r' < Nat.min n p)%nat -> forall k, (r' <= k < n)%nat -> G (el u') k k <= svdtol) /\
      (forall a b, (a < n)%nat -> (b < n)%nat -> a <> b -> P (G (el u') a b))).
      { intros sv1 u1 r Hr (L1 & L2 & L3 & O & HS & HR) PP QQ.
        destruct (vec_loop sv1 r (Nat.max r (vlen sv1)) (fun i sv => vset sv i 0%S) (fun _ => 0)) as (sv' & E' & L' & H'); [lia|lia|reflexivity|].
        rewrite E'. cbn [bind]. exists sv', u1, r. split; [reflexivity|]. conjs; auto; try lia.
        - intros k Hk. rewrite H'. destruct (HS k Hk) as (K1 & K2). split; auto. rewrite <- K1. nbp.
        - intros k Hk. rewrite H'. nbp. }
      destruct o as [(sv1 & u1)|((sv1 & u1) & r)]; cbn [fst snd] in H.
      + destruct H as (I & PP). apply FIN; auto. intros; lia.
      + destruct H as (Lt & I & PP & Q). apply FIN; auto. lia.
  Qed.
End SVD.
