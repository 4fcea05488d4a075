(** Proofs about the generalized linear equation solvers. *)
From Coq Require Import Reals Lra Lia Psatz.
From Verif Require Import Prelude Prelude_Proofs Scalar RealLib Fmat Fmat_Proofs LE_Model LE_Spec LE_Proofs LE2_Proofs LE3_Proofs LE_Props IP_Model IP_Proofs Vop Qp_Proofs Eig_Model
  Gen_Model Gen_Spec.
Local Open Scope R_scope.

(** the weights as a function *)
Definition wt (w : option (fvec R)) (k : nat) : R := match w with Some w => vel w k | None => 1 end.
Definition wfit (n : nat) (w : option (fvec R)) : Prop := match w with Some w => vlen w = n | None => True end.
Lemma weigh_R n w k x : wfit n w -> (k < n)%nat -> weigh w k x = wt w k * x.
Proof. destruct w as [w|]; cbn; intros F Hk; [unfold zVecElem; rewrite F; nbts|lra]. Qed.

(** ** the quadratic products *)
Section Quad.
  Variables (n c : nat) (a : nat -> nat -> res R) (A : nat -> nat -> R) (w : option (fvec R)).
  Hypothesis HA : forall i k, (i < n)%nat -> (k < c)%nat -> a i k = Ok (A i k).
  Hypothesis HW : wfit c w.
  Lemma quad_ok q : (n <= nr q)%nat -> (n <= nc q)%nat ->
    exists q', quad n c a w q = Ok q' /\ nr q' = nr q /\ nc q' = nc q /\
      forall i j, (i < n)%nat -> (j < n)%nat -> el q' i j = rsum c (fun k => wt w k * A i k * A j k).
  Proof.
    intros R1 C1. unfold quad.
    match goal with |- context [for_ 0 c ?f ?s] =>
      destruct (for_inv (fun k q' => nr q' = nr q /\ nc q' = nc q /\ forall i j, (i <= j)%nat -> (j < n)%nat -> el q' i j = rsum k (fun k => wt w k * A i k * A j k)) 0 c f s) as (q1 & E & N1 & N2 & N3)
    end.
    - lia.
    - cbn [nr nc el rsum]. conjs; auto.
    - intros k s Hk (A1 & A2 & A3).
      destruct (for_inv (fun i q' => nr q' = nr q /\ nc q' = nc q /\ forall i' j, (i' <= j)%nat -> (j < n)%nat ->
        el q' i' j = if (i' <? i)%nat then rsum (S k) (fun k => wt w k * A i' k * A j k) else el s i' j) 0 n
        (fun i q => x <- a i k ;; (let wa := weigh w k x in for_ i n (fun j q => y <- a j k ;; mmod q i j (fun z => (z + wa * y)%S)) q)) s) as (s1 & E & M1 & M2 & M3).
      + lia.
      + conjs; auto.
      + intros i s' Hi (B1 & B2 & B3). rewrite (HA i k) by lia. cbn [bind]. cbv zeta. rewrite (weigh_R c) by (auto; lia).
        destruct (row_loop s' i i n (fun j q => y <- a j k ;; mmod q i j (fun z => (z + (wt w k * A i k) * y)%S)) (fun j => el s' i j + (wt w k * A i k) * A j k))
          as (s2 & E2 & D1 & D2 & D3); try lia.
        * intros j m' Hj F1 F2 F3. rewrite (HA j k) by lia. cbn [bind]. rewrite mmod_ok by lia. rewrite F3 by lia. reflexivity.
        * exists s2. split; [exact E2|]. conjs; try congruence. intros i' j H1 H2. rewrite D3. specialize (B3 i' j H1 H2).
          destruct (Nat.eqb_spec i' i) as [->|Ni]; cbn [andb].
          -- rewrite (proj2 (Nat.leb_le i j)), (proj2 (Nat.ltb_lt j n)), (proj2 (Nat.ltb_lt i (S i))) by lia. cbn [andb].
             rewrite B3, Nat.ltb_irrefl. rewrite A3 by lia. cbn [rsum]. ring.
          -- rewrite B3. nbts.
      + exists s1. split; [exact E|]. conjs; auto. intros i j H1 H2. rewrite M3 by auto. rewrite (proj2 (Nat.ltb_lt i n)) by lia. reflexivity.
    - rewrite E. cbn [bind].
      match goal with |- context [for_ 0 n ?f ?s] =>
        destruct (for_inv (fun i q' => nr q' = nr q /\ nc q' = nc q /\ (forall i' j, (i' <= j)%nat -> (j < n)%nat -> el q' i' j = el q1 i' j) /\
          (forall i' j, (i' < i)%nat -> (i' <= j)%nat -> (j < n)%nat -> el q' j i' = el q1 i' j)) 0 n f s) as (q2 & E2 & P1 & P2 & P3 & P4)
      end.
      + lia.
      + conjs; auto. intros; lia.
      + intros i s Hi (A1 & A2 & A3 & A4).
        destruct (col_loop s i i n (fun j q => x <- mget q i j ;; mset q j i x) (fun j => el q1 i j)) as (s2 & F & G1 & G2 & G3); try lia.
        * intros j m' Hj F1 F2 F3. rewrite mget_ok by lia. cbn [bind]. f_equal.
          destruct (Nat.eq_dec j i) as [->|Nj]; [|rewrite F3 by lia; apply A3; lia].
          rewrite F3 by lia. apply A3; lia.
        * exists s2. split; [exact F|]. conjs; try congruence.
          -- intros i' j H1 H2. rewrite G3. destruct (Nat.eqb_spec j i) as [->|Nj]; cbn [andb]; [|apply A3; lia].
             destruct (Nat.leb_spec i i'); cbn [andb]; [|apply A3; lia]. assert (i' = i) by lia. subst. rewrite (proj2 (Nat.ltb_lt i n)) by lia. reflexivity.
          -- intros i' j H1 H2 H3. rewrite G3. destruct (Nat.eqb_spec i' i) as [->|Ni]; cbn [andb].
             ++ rewrite (proj2 (Nat.leb_le i j)), (proj2 (Nat.ltb_lt j n)) by lia. reflexivity.
             ++ apply A4; lia.
      + exists q2. split; [exact E2|]. conjs; auto. intros i j Hi Hj. destruct (le_lt_dec i j).
        * rewrite P3, N3 by lia. reflexivity.
        * rewrite P4, N3 by lia. apply rsum_ext. intros; ring.
  Qed.
End Quad.

(** ** Gauss's elimination without tolerance *)
Lemma gauss_ok n nv na (m : fmat R) (b : fvec R) idx : (0 < n)%nat -> nr m = n -> nc m = n -> vlen b = n -> (n <= nv)%nat -> (n <= na)%nat -> perm n idx ->
  exists o, gauss 0 nv na m b idx = Ok o /\
   match o with Some x => vlen x = n /\ solves n n (el m) (vel x) (vel b) /\ nonsingular n (el m) | None => ~ nonsingular n (el m) end.
Proof.
  intros Hn A1 A2 B N1 N2 P. unfold gauss. rewrite B, (proj2 (Nat.leb_le n na)), (proj2 (Nat.leb_le n nv)) by lia. cbn [andb].
  unfold zLESolveGaussDST. rewrite B.
  destruct (mul_inv_ok 0 n 1 m (col_of b) (col_of (FV n (vel (zvec n)))) idx (zvec nv)) as (o & E & H); auto; try lra. rewrite E. cbn [rmap].
  exists (option_map of_col o). split; auto. destruct o as [Y|]; cbn [option_map].
  - destruct H as (Y1 & Y2 & F & SF & HY & HI). pose proof (negligible_0 n (el m) F SF) as Z. conjs; auto.
    + apply (solves_madd0 n (el m) F); auto. exact (HY 0%nat ltac:(lia)).
    + apply (nonsingular_madd0 n (el m) F); auto.
  - destruct H as (F & i & x & SF & Hi & Nx & HK). pose proof (negligible_0 n (el m) F SF) as Z. intros N. apply Nx.
    apply (nonsingular_madd0 n (el m) F Z) in N. exact (N x HK i Hi).
Qed.

(** ** least squares *)
Lemma sq0 x : x ^ 2 = 0 -> x = 0.
Proof. intros. nra. Qed.
Lemma wsq_nonneg n w x : (forall i, (i < n)%nat -> 0 <= w i) -> 0 <= wsq n w x.
Proof. intros H. apply rsum_nonneg. intros i Hi. specialize (H i Hi). pose proof (pow2_ge_0 (x i)). nra. Qed.
Lemma wsq_0 n w x : (forall i, (i < n)%nat -> 0 < w i) -> wsq n w x = 0 -> forall i, (i < n)%nat -> x i = 0.
Proof.
  intros H Z i Hi. assert (E : w i * x i ^ 2 = 0).
  { apply (rsum_nonneg_0 n (fun i => w i * x i ^ 2)); auto. intros j Hj. specialize (H j Hj). pose proof (pow2_ge_0 (x j)). nra. }
  specialize (H i Hi). apply sq0. nra.
Qed.
Lemma wsq_ext n w w' x y : (forall i, (i < n)%nat -> w i = w' i) -> (forall i, (i < n)%nat -> x i = y i) -> wsq n w x = wsq n w' y.
Proof. intros H1 H2. apply rsum_ext. intros i Hi. rewrite H1, H2 by auto. reflexivity. Qed.
Lemma mv_sub p A x y r : mv p A (fun k => x k - y k) r = mv p A x r - mv p A y r.
Proof. unfold mv. rewrite <- rsum_sub. apply rsum_ext. intros; ring. Qed.
Lemma mv_ext p A x y r : (forall k, (k < p)%nat -> x k = y k) -> mv p A x r = mv p A y r.
Proof. intros H. apply rsum_ext. intros k Hk. rewrite H by auto. reflexivity. Qed.
Lemma mv_0 p A r : mv p A (fun _ => 0) r = 0.
Proof. apply rsum_0. intros; ring. Qed.
Section LeastSquares.
  Variables (n p : nat) (A : nat -> nat -> R) (w d : nat -> R).
  (** the matrix of the normal equations *)
  Variable M : nat -> nat -> R.
  Hypothesis HM : forall k l, (k < p)%nat -> (l < p)%nat -> M k l = rsum n (fun i => w i * A i k * A i l) + (if (k =? l)%nat then d k else 0).
  Lemma normal_mv x k : (k < p)%nat -> mv p M x k = rsum n (fun i => A i k * (w i * mv p A x i)) + d k * x k.
  Proof.
    intros Hk. unfold mv at 1. rewrite (rsum_ext p _ (fun l => rsum n (fun i => w i * A i k * A i l * x l) + (if (l =? k)%nat then d k * x l else 0))).
    - rewrite rsum_add, (rsum_delta p k (fun l => if (l =? k)%nat then d k * x l else 0)); [rewrite Nat.eqb_refl|auto|intros l Hl Nl; nbts]. f_equal. rewrite rsum_swap. apply rsum_ext. intros i Hi. unfold mv. rewrite <- !rsum_scal. apply rsum_ext. intros; ring.
    - intros l Hl. rewrite HM by auto. rewrite Rmult_plus_distr_r, rsum_scal_r. f_equal. rewrite (Nat.eqb_sym k l). destruct (_ =? _)%nat; ring.
  Qed.
  Lemma normal_qf x : rsum p (fun k => x k * mv p M x k) = wsq n w (mv p A x) + wsq p d x.
  Proof.
    rewrite (rsum_ext p _ (fun k => rsum n (fun i => A i k * x k * (w i * mv p A x i)) + d k * x k ^ 2)).
    - rewrite rsum_add. unfold wsq. f_equal. rewrite rsum_swap. apply rsum_ext. intros i Hi. rewrite rsum_scal_r. unfold mv. ring.
    - intros k Hk. rewrite normal_mv by auto. rewrite Rmult_plus_distr_l, <- rsum_scal. f_equal; [apply rsum_ext; intros; ring|ring].
  Qed.
  Lemma normal_kernel x : solves p p M x (fun _ => 0) -> wsq n w (mv p A x) + wsq p d x = 0.
  Proof. intros H. rewrite <- normal_qf. apply rsum_0. intros k Hk. rewrite (H k Hk). ring. Qed.
  (** the sum of squares with the reference [ref] *)
  Variables b ref : nat -> R.
  Definition cost (x : nat -> R) : R := wsq n w (resid p A b x) + wsq p d (fun k => x k - ref k).
  Lemma normal_gap x z : solves p p M x (fun k => rsum n (fun i => A i k * (w i * b i)) + d k * ref k) ->
    cost z = cost x + wsq n w (mv p A (fun k => z k - x k)) + wsq p d (fun k => z k - x k).
  Proof.
    intros H.
    assert (X : rsum p (fun k => (z k - x k) * (rsum n (fun i => A i k * (w i * resid p A b x i)) + d k * (x k - ref k))) = 0).
    { apply rsum_0. intros k Hk. specialize (H k Hk). rewrite normal_mv in H by auto. unfold resid.
      rewrite (rsum_ext n _ (fun i => A i k * (w i * mv p A x i) - A i k * (w i * b i))) by (intros; ring). rewrite rsum_sub.
      match goal with |- _ * ?q = 0 => assert (Hq : q = 0) by lra; rewrite Hq end. ring. }
    assert (Y : rsum p (fun k => (z k - x k) * (rsum n (fun i => A i k * (w i * resid p A b x i)) + d k * (x k - ref k))) =
      rsum n (fun i => w i * resid p A b x i * mv p A (fun k => z k - x k) i) + rsum p (fun k => d k * (x k - ref k) * (z k - x k))).
    { rewrite (rsum_ext p _ (fun k => rsum n (fun i => w i * resid p A b x i * (A i k * (z k - x k))) + d k * (x k - ref k) * (z k - x k))).
      - rewrite rsum_add. f_equal. rewrite rsum_swap. apply rsum_ext. intros i Hi. rewrite rsum_scal. reflexivity.
      - intros k Hk. rewrite Rmult_plus_distr_l, <- rsum_scal. f_equal; [apply rsum_ext; intros; ring|ring]. }
    rewrite X in Y. unfold cost, wsq.
    rewrite (rsum_ext n (fun i => w i * resid p A b z i ^ 2) (fun i => w i * resid p A b x i ^ 2 + 2 * (w i * resid p A b x i * mv p A (fun k => z k - x k) i) + w i * mv p A (fun k => z k - x k) i ^ 2)).
    - rewrite (rsum_ext p (fun i => d i * (z i - ref i) ^ 2) (fun k => d k * (x k - ref k) ^ 2 + 2 * (d k * (x k - ref k) * (z k - x k)) + d k * (z k - x k) ^ 2)) by (intros; ring).
      rewrite !rsum_add, !rsum_scal. lra.
    - intros i Hi. rewrite mv_sub. unfold resid. ring.
  Qed.
  Hypothesis W : forall i, (i < n)%nat -> 0 <= w i.
  Hypothesis D : forall k, (k < p)%nat -> 0 <= d k.
  Lemma normal_least x : nonsingular p M -> solves p p M x (fun k => rsum n (fun i => A i k * (w i * b i)) + d k * ref k) ->
    least p (fun _ => True) cost x.
  Proof.
    intros NS H. split; auto. intros z _. rewrite (normal_gap x z H). pose proof (wsq_nonneg n w (mv p A (fun k => z k - x k)) W). pose proof (wsq_nonneg p d (fun k => z k - x k) D).
    split; [lra|]. intros L i Hi. assert (Z1 : wsq n w (mv p A (fun k => z k - x k)) = 0) by lra. assert (Z2 : wsq p d (fun k => z k - x k) = 0) by lra.
    assert (Q : z i - x i = 0); [|lra]. refine (NS (fun k => z k - x k) _ i Hi). intros k Hk. rewrite normal_mv by auto.
    pose proof (rsum_nonneg_0 n _ (fun i Hi => Rmult_le_pos _ _ (W i Hi) (pow2_ge_0 _)) Z1) as Z1'. pose proof (rsum_nonneg_0 p _ (fun i Hi => Rmult_le_pos _ _ (D i Hi) (pow2_ge_0 _)) Z2 k Hk) as Z2'. cbv beta in *.
    rewrite rsum_0.
    - assert (d k * (z k - x k) = 0); [|lra]. destruct (Req_dec (d k) 0) as [->|Nd]; [ring|]. assert ((z k - x k) ^ 2 = 0) by (apply (Rmult_eq_reg_l (d k)); lra).
      rewrite (sq0 (z k - x k)); auto. ring.
    - intros j Hj. specialize (Z1' j Hj). cbv beta in Z1'. destruct (Req_dec (w j) 0) as [->|Nw]; [ring|].
      assert (mv p A (fun k => z k - x k) j ^ 2 = 0) by (apply (Rmult_eq_reg_l (w j)); lra).
      rewrite (sq0 (mv p A (fun k => z k - x k) j)); auto. ring.
  Qed.
End LeastSquares.

Section LeastNorm.
  Variables (n p : nat) (A : nat -> nat -> R) (w : nat -> R).
  Hypothesis W : forall k, (k < p)%nat -> 0 < w k.
  Variable M : nat -> nat -> R.
  Hypothesis HM : forall i j, (i < n)%nat -> (j < n)%nat -> M i j = rsum p (fun k => w k * A i k * A j k).
  Definition rinv (w : nat -> R) (k : nat) : R := 1 / w k.
  (** W A^T y *)
  Definition back (y : nat -> R) (k : nat) : R := w k * rsum n (fun i => A i k * y i).
  Lemma back_mv y i : (i < n)%nat -> mv n M y i = mv p A (back y) i.
  Proof.
    intros Hi. unfold mv, back. rewrite (rsum_ext n _ (fun j => rsum p (fun k => w k * A i k * A j k * y j))).
    - rewrite rsum_swap. apply rsum_ext. intros k Hk. rewrite <- !rsum_scal. apply rsum_ext. intros; ring.
    - intros j Hj. rewrite HM by auto. rewrite rsum_scal_r. reflexivity.
  Qed.
  Lemma back_least b ref x y : (forall k, (k < p)%nat -> x k = ref k + back y k) -> solves n p A x b ->
    least p (fun z => solves n p A z b) (fun z => wsq p (rinv w) (fun k => z k - ref k)) x.
  Proof.
    intros HX S. split; auto. intros z HZ.
    assert (G : wsq p (rinv w) (fun k => z k - ref k) = wsq p (rinv w) (fun k => x k - ref k) + wsq p (rinv w) (fun k => z k - x k)).
    { assert (X : rsum p (fun k => (z k - x k) * rsum n (fun i => A i k * y i)) = 0).
      { rewrite (rsum_ext p _ (fun k => rsum n (fun i => y i * (A i k * (z k - x k))))) by (intros k Hk; rewrite <- rsum_scal; apply rsum_ext; intros; ring).
        rewrite rsum_swap. apply rsum_0. intros i Hi. rewrite rsum_scal. change (rsum p (fun k => A i k * (z k - x k))) with (mv p A (fun k => z k - x k) i).
        rewrite mv_sub, HZ, S by auto. ring. }
      unfold wsq. rewrite (rsum_ext p (fun i => rinv w i * (z i - ref i) ^ 2) (fun k => rinv w k * (x k - ref k) ^ 2 + 2 * ((z k - x k) * rsum n (fun i => A i k * y i)) + rinv w k * (z k - x k) ^ 2)).
      - rewrite !rsum_add, rsum_scal. lra.
      - intros k Hk. specialize (HX k Hk). unfold back in HX. pose proof (W k Hk). unfold rinv.
        assert (E : rsum n (fun i => A i k * y i) = (x k - ref k) / w k) by (rewrite HX; field; lra). rewrite E. field. lra. }
    assert (RI : forall k, (k < p)%nat -> 0 < rinv w k) by (intros k Hk; unfold rinv; apply Rdiv_lt_0_compat; [lra|auto]).
    rewrite G. pose proof (wsq_nonneg p (rinv w) (fun k => z k - x k) (fun k Hk => Rlt_le _ _ (RI k Hk))). split; [lra|]. intros L i Hi.
    assert (Z : wsq p (rinv w) (fun k => z k - x k) = 0) by lra. pose proof (wsq_0 p _ _ RI Z i Hi). cbv beta in *. lra.
  Qed.
  Lemma back_kernel y : solves n n M y (fun _ => 0) -> forall k, (k < p)%nat -> rsum n (fun i => y i * A i k) = 0.
  Proof.
    intros H k Hk.
    assert (Q : wsq p w (fun k => rsum n (fun i => A i k * y i)) = 0).
    { assert (E : rsum n (fun i => y i * mv n M y i) = 0) by (apply rsum_0; intros i Hi; rewrite H by auto; ring).
      rewrite <- E. rewrite (rsum_ext n (fun i => y i * mv n M y i) (fun i => rsum p (fun k => (A i k * y i) * back y k))).
      - rewrite rsum_swap. apply rsum_ext. intros k' Hk'. rewrite rsum_scal_r. unfold back. ring.
      - intros i Hi. rewrite back_mv by auto. unfold mv. rewrite <- rsum_scal. apply rsum_ext. intros; ring. }
    rewrite (rsum_ext n _ (fun i => A i k * y i)) by (intros; ring). exact (wsq_0 p w _ W Q k Hk).
  Qed.
  Lemma back_nonsingular : nonsingular n M <-> rows_indep n p A.
  Proof.
    split.
    - intros H y HY i Hi. apply (H y); auto. intros j Hj. rewrite back_mv by auto. unfold mv. apply rsum_0. intros k Hk. unfold back.
      rewrite (rsum_ext n _ (fun i => y i * A i k)) by (intros; ring). rewrite HY by auto. ring.
    - intros H y HY i Hi. apply (H y); auto. apply back_kernel; auto.
  Qed.
End LeastNorm.
