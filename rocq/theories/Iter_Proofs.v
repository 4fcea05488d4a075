(** Proofs for C113: the method of Gauss and Seidel. *)
From Coq Require Import Reals Lra Lia Psatz List.
From Verif Require Import Prelude Prelude_Proofs Scalar RealLib Fmat Fmat_Proofs LE_Model LE_Spec LE_Proofs Iter_Model Iter_Spec.
From Verif Require Import Hess2_Proofs.
Local Open Scope R_scope.

(** the equation that row j of a sweep solves: the elements before j are new, those behind it old *)
Definition gs_eq (n : nat) (A : nat -> nat -> R) (b : nat -> R) (p : nat -> nat) (old new : nat -> R) (j : nat) : Prop :=
  new j = (b (p j) - rsum n (fun k => if (k <? j)%nat then A (p j) k * new k else if (k =? j)%nat then 0 else A (p j) k * old k)) / A (p j) j.

Lemma sub_loop (n : nat) (f : nat -> R -> res R) (g : nat -> R) x : (forall k y, (k < n)%nat -> f k y = Ok (y - g k)) -> for_ 0 n f x = Ok (x - rsum n g).
Proof.
  intros H. destruct (for_inv (fun k y => y = x - rsum k g) 0 n f x) as (y & E & ->); auto; try lia; [cbn; lra|].
  intros k y Hk ->. rewrite H by lia. eexists. split; [reflexivity|]. cbn. lra.
Qed.

Section GS.
  Variables (tol : R) (n : nat) (a : fmat R) (b : fvec R) (idx : list nat).
  Hypothesis A1 : nr a = n.
  Hypothesis A2 : nc a = n.
  Hypothesis B1 : vlen b = n.
  Hypothesis P : perm n idx.
  Local Notation p := (pos idx).

  Lemma gs_row_ok j v c : (j < n)%nat -> vlen v = n ->
    gs_row tol a b idx j (v, c) =
      (let x := (vel b (p j) - rsum n (fun k => if (k =? j)%nat then 0 else el a (p j) k * vel v k)) / el a (p j) j in
       Ok (FV n (fun k => if (k =? j)%nat then x else vel v k), if is_tol tol (x - vel v j) then S c else c)).
  Proof.
    intros Hj V. unfold gs_row. rewrite (perm_get n) by auto. cbn [bind]. pose proof (perm_lt n idx j P Hj) as Hp.
    rewrite vget_ok by lia. cbn [bind]. rewrite V.
    erewrite (sub_loop n _ (fun k => if (k =? j)%nat then 0 else el a (p j) k * vel v k)).
    2:{ intros k y Hk. destruct (Nat.eqb_spec k j); cbn [negb]; [now rewrite Rminus_0_r|]. rewrite mget_ok, vget_ok by lia. reflexivity. }
    cbn [bind]. rewrite mget_ok, vget_ok by lia. cbn [bind]. rewrite vset_ok by lia. cbn [bind]. rewrite V. reflexivity.
  Qed.

  Lemma gs_sweep_ok v : vlen v = n -> exists new c, gs_sweep tol a b idx v = Ok (FV n new, c) /\
    (forall j, (j < n)%nat -> gs_eq n (el a) (vel b) p (vel v) new j) /\
    (c <= n)%nat /\ (c = n <-> forall j, (j < n)%nat -> Rabs (new j - vel v j) <= tol).
  Proof.
    intros V. unfold gs_sweep. rewrite B1.
    destruct (for_inv (fun j st => vlen (fst st) = n /\ (forall k, ~ (k < j)%nat -> vel (fst st) k = vel v k) /\
      (forall i, (i < j)%nat -> gs_eq n (el a) (vel b) p (vel v) (vel (fst st)) i) /\
      (snd st <= j)%nat /\ (snd st = j <-> forall i, (i < j)%nat -> Rabs (vel (fst st) i - vel v i) <= tol)) 0 n (gs_row tol a b idx) (v, 0%nat)) as ([w c] & E & W & _ & G & C1 & C2).
    - lia.
    - cbn [fst snd]. repeat split; auto; intros; lia.
    - intros j [w c] Hj (W & K & G & C1 & C2). cbn [fst snd] in *. rewrite gs_row_ok by (auto; lia). cbn zeta.
      match goal with |- context [is_tol tol (?z - _)] => set (x := z) end.
      eexists. split; [reflexivity|]. cbn [fst snd vlen vel]. split; [reflexivity|]. split; [|split; [|split]].
      + intros k Hk. destruct (Nat.eqb_spec k j); [lia|]. apply K. lia.
      + intros i Hi. destruct (Nat.eq_dec i j) as [->|N].
        * unfold gs_eq. rewrite Nat.eqb_refl. unfold x. f_equal. f_equal. apply rsum_ext. intros k Hk.
          destruct (Nat.eqb_spec k j) as [->|Nk]; [now rewrite Nat.ltb_irrefl|]. destruct (Nat.ltb_spec k j); auto. rewrite K by lia. reflexivity.
        * assert (Hi' : (i < j)%nat) by lia. specialize (G i Hi'). unfold gs_eq in *. destruct (Nat.eqb_spec i j); [lia|]. rewrite G at 1. f_equal. f_equal. apply rsum_ext. intros k Hk.
          destruct (Nat.ltb_spec k i); auto. destruct (Nat.eqb_spec k j); [lia|auto].
      + destruct (is_tol tol (x - vel w j)); lia.
      + rewrite (K j) by lia. rewrite is_tol_R. destruct (Rleb_spec (Rabs (x - vel v j)) tol) as [L|L].
        * split.
          -- intros E i Hi. destruct (Nat.eqb_spec i j) as [->|]; auto. apply C2; lia.
          -- intros F. f_equal. apply C2. intros i Hi. specialize (F i ltac:(lia)). destruct (Nat.eqb_spec i j); [lia|auto].
        * split; [lia|]. intros F. exfalso. specialize (F j ltac:(lia)). rewrite Nat.eqb_refl in F. auto.
    - cbn [fst snd] in *. exists (vel w), c. rewrite E. destruct w as [w1 w2]. cbn in W. subst w1. cbn [vel] in *. auto.
  Qed.

  (** ** the residual after a sweep *)
  Lemma gs_residual old new j : (j < n)%nat -> gs_eq n (el a) (vel b) p old new j -> el a (p j) j <> 0 ->
    (forall k, (k < n)%nat -> Rabs (new k - old k) <= tol) -> 0 <= tol ->
    Rabs (vel b (p j) - mv n (el a) new (p j)) <= tol * rsum n (fun k => if (j <? k)%nat then Rabs (el a (p j) k) else 0).
  Proof.
    intros Hj G D C Ht. unfold gs_eq in G.
    assert (E : vel b (p j) - mv n (el a) new (p j) = rsum n (fun k => if (j <? k)%nat then el a (p j) k * (old k - new k) else 0)).
    { assert (Q : el a (p j) j * new j = vel b (p j) - rsum n (fun k => if (k <? j)%nat then el a (p j) k * new k else if (k =? j)%nat then 0 else el a (p j) k * old k)).
      { rewrite G at 1. field. exact D. }
      unfold mv. rewrite (rsum_ext n (fun c => el a (p j) c * new c) (fun k => (if (k =? j)%nat then el a (p j) j * new j else 0) + (if (k =? j)%nat then 0 else el a (p j) k * new k))).
      2:{ intros k Hk. destruct (Nat.eqb_spec k j) as [->|]; lra. }
      rewrite rsum_add. rewrite (rsum_delta n j (fun k => if (k =? j)%nat then el a (p j) j * new j else 0)); [|auto|intros i Hi N; apply Nat.eqb_neq in N; now rewrite N].
      rewrite Nat.eqb_refl, Q. replace (vel b (p j) - (vel b (p j) - _ + _)) with (rsum n (fun k => if (k <? j)%nat then el a (p j) k * new k else if (k =? j)%nat then 0 else el a (p j) k * old k) - rsum n (fun k => if (k =? j)%nat then 0 else el a (p j) k * new k)) by ring.
      rewrite <- rsum_sub. apply rsum_ext. intros k Hk. destruct (Nat.ltb_spec k j), (Nat.eqb_spec k j), (Nat.ltb_spec j k); try lia; ring. }
    rewrite E. eapply Rle_trans; [apply rsum_abs|]. rewrite <- rsum_scal. apply rsum_le. intros k Hk. destruct (Nat.ltb_spec j k).
    - rewrite Rabs_mult, (Rabs_minus_sym (old k)). pose proof (C k Hk). pose proof (Rabs_pos (el a (p j) k)). nra.
    - rewrite Rabs_R0. lra.
  Qed.
End GS.

(** ** the order of the rows *)
Lemma gs_order_ok n (a : fmat R) : nr a = n -> nc a = n -> exists idx, gs_order a n = Ok idx /\ perm n idx /\
  (forall j k, (j <= k < n)%nat -> Rabs (el a (pos idx k) j) <= Rabs (el a (pos idx j) j)).
Proof.
  intros A1 A2. unfold gs_order.
  destruct (for_inv (fun i idx => perm n idx /\ forall j k, (j < i)%nat -> (j <= k < n)%nat -> Rabs (el a (pos idx k) j) <= Rabs (el a (pos idx j) j))
    0 n (fun i idx => zMatPivoting a idx i i) (List.seq 0 n)) as (idx & E & P & H).
  - lia.
  - split; [apply perm_seq|]. intros; lia.
  - intros i idx Hi (P & H). destruct (zMatPivoting_ok a n idx i i) as (idx' & pi & E & P' & Hpi & S & M); auto; try lia.
    exists idx'. split; auto. split; auto. intros j k Hj Hk. destruct (Nat.eq_dec j i) as [->|N]; [apply M; lia|].
    assert (Sj : pos idx' j = pos idx j). { rewrite (S j). destruct (Nat.eqb_spec j i); [lia|]. destruct (Nat.eqb_spec j pi); [lia|auto]. }
    rewrite Sj. destruct (Nat.eq_dec k i) as [->|Nk].
    + rewrite (S i), Nat.eqb_refl. apply H; lia.
    + rewrite (S k). destruct (Nat.eqb_spec k i); [lia|]. destruct (Nat.eqb_spec k pi); apply H; lia.
  - exists idx. split; auto. split; auto. intros j k Hk. apply H; lia.
Qed.

(** with a dominant diagonal the rows keep their order *)
Lemma gs_order_id n (a : fmat R) : nr a = n -> nc a = n -> (forall j k, (j < n)%nat -> (k < n)%nat -> j <> k -> Rabs (el a j k) < Rabs (el a k k)) ->
  exists idx, gs_order a n = Ok idx /\ perm n idx /\ forall j, (j < n)%nat -> pos idx j = j.
Proof.
  intros A1 A2 D. destruct (gs_order_ok n a A1 A2) as (idx & E & P & M). exists idx. split; auto. split; auto.
  enough (forall m j, (j < m)%nat -> (m <= n)%nat -> pos idx j = j) by (intros j Hj; apply (H n); auto).
  induction m as [|m IH]; intros j Hj Hm; [lia|]. destruct (Nat.eq_dec j m) as [->|N]; [|apply IH; lia].
  destruct (perm_onto n idx m P) as (k & Hk & Ek); [lia|]. destruct (Nat.lt_ge_cases k m) as [L|L].
  { rewrite IH in Ek by lia. lia. }
  specialize (M m k ltac:(lia)). rewrite Ek in M. destruct (Nat.eq_dec (pos idx m) m) as [|N]; auto. exfalso.
  pose proof (perm_lt n idx m P ltac:(lia)). specialize (D (pos idx m) m ltac:(lia) ltac:(lia) N). lra.
Qed.

(** ** the error shrinks *)
Section Contract.
  Variables (q : R) (n : nat) (A : nat -> nat -> R) (b x : nat -> R).
  Hypothesis Hq : 0 <= q < 1.
  Hypothesis D : col_dominant q n A.
  Hypothesis X : solves n n A x b.
  Definition lo (k : nat) : R := rsum n (fun j => if (k <? j)%nat then Rabs (A j k) else 0).
  Definition up (k : nat) : R := rsum n (fun j => if (j <? k)%nat then Rabs (A j k) else 0).
  Definition wt (k : nat) : R := Rabs (A k k) - lo k.
  Definition wdist (u v : nat -> R) : R := rsum n (fun k => wt k * Rabs (u k - v k)).

  Lemma lo_nonneg k : 0 <= lo k. Proof. apply rsum_nonneg. intros j _. destruct (k <? j)%nat; [apply Rabs_pos|lra]. Qed.
  Lemma up_nonneg k : 0 <= up k. Proof. apply rsum_nonneg. intros j _. destruct (j <? k)%nat; [apply Rabs_pos|lra]. Qed.
  Lemma lo_up k : (k < n)%nat -> lo k + up k <= q * Rabs (A k k).
  Proof.
    intros Hk. destruct (D k Hk) as [_ H]. unfold lo, up. rewrite <- rsum_add. eapply Rle_trans; [|exact H]. apply rsum_le. intros j Hj.
    destruct (Nat.ltb_spec k j), (Nat.ltb_spec j k), (Nat.eqb_spec j k); try lia; lra.
  Qed.
  Lemma wt_lo k : (k < n)%nat -> (1 - q) * Rabs (A k k) <= wt k.
  Proof. intros Hk. pose proof (lo_up k Hk). pose proof (up_nonneg k). unfold wt. lra. Qed.
  Lemma wt_hi k : wt k <= Rabs (A k k).
  Proof. pose proof (lo_nonneg k). unfold wt. lra. Qed.
  Lemma wt_pos k : (k < n)%nat -> 0 < wt k.
  Proof. intros Hk. pose proof (wt_lo k Hk). destruct (D k Hk) as [N _]. pose proof (Rabs_pos_lt _ N). nra. Qed.
  Lemma up_wt k : (k < n)%nat -> up k <= q * wt k.
  Proof. intros Hk. pose proof (lo_up k Hk). pose proof (lo_nonneg k). unfold wt. nra. Qed.

  Lemma wdist_nonneg u v : 0 <= wdist u v.
  Proof. apply rsum_nonneg. intros k Hk. pose proof (wt_pos k Hk). pose proof (Rabs_pos (u k - v k)). nra. Qed.
  Lemma wdist_lo u v : (1 - q) * diag_dist n A u v <= wdist u v.
  Proof. unfold diag_dist, wdist. rewrite <- rsum_scal. apply rsum_le. intros k Hk. pose proof (wt_lo k Hk). pose proof (Rabs_pos (u k - v k)). nra. Qed.
  Lemma wdist_hi u v : wdist u v <= diag_dist n A u v.
  Proof. unfold diag_dist, wdist. apply rsum_le. intros k Hk. pose proof (wt_hi k). pose proof (Rabs_pos (u k - v k)). nra. Qed.
  Lemma wdist_tri u v w : wdist u w <= wdist u v + wdist v w.
  Proof.
    unfold wdist. rewrite <- rsum_add. apply rsum_le. intros k Hk. pose proof (wt_pos k Hk). pose proof (Rabs_triang (u k - v k) (v k - w k)) as Tr.
    replace (u k - v k + (v k - w k)) with (u k - w k) in Tr by ring. nra.
  Qed.

  Lemma gs_contract old new : (forall j, (j < n)%nat -> gs_eq n A b (fun j => j) old new j) -> wdist new x <= q * wdist old x.
  Proof.
    intros G. set (e' := fun k => Rabs (new k - x k)). set (e := fun k => Rabs (old k - x k)).
    set (g := fun j k => if (k <? j)%nat then Rabs (A j k) * e' k else if (k =? j)%nat then 0 else Rabs (A j k) * e k).
    assert (R1 : forall j, (j < n)%nat -> Rabs (A j j) * e' j <= rsum n (g j)).
    { intros j Hj. specialize (G j Hj). unfold gs_eq in G. destruct (D j Hj) as [N _].
      assert (Q : A j j * (new j - x j) = - rsum n (fun k => if (k <? j)%nat then A j k * (new k - x k) else if (k =? j)%nat then 0 else A j k * (old k - x k))).
      { assert (Q1 : A j j * new j = b j - rsum n (fun k => if (k <? j)%nat then A j k * new k else if (k =? j)%nat then 0 else A j k * old k)) by (rewrite G at 1; field; exact N).
        rewrite Rmult_minus_distr_l, Q1. rewrite <- (X j Hj). unfold mv.
        rewrite (rsum_ext n (fun c => A j c * x c) (fun k => (if (k =? j)%nat then A j j * x j else 0) + (if (k =? j)%nat then 0 else A j k * x k))).
        2:{ intros k Hk. destruct (Nat.eqb_spec k j) as [->|]; lra. }
        rewrite rsum_add. rewrite (rsum_delta n j (fun k => if (k =? j)%nat then A j j * x j else 0)); [|auto|intros i Hi Ni; apply Nat.eqb_neq in Ni; now rewrite Ni].
        rewrite Nat.eqb_refl. match goal with |- ?c + ?s - ?t - ?c = _ => replace (c + s - t - c) with (s - t) by ring end.
        rewrite <- rsum_sub, <- rsum_opp. apply rsum_ext. intros k Hk. destruct (Nat.ltb_spec k j), (Nat.eqb_spec k j); try lia; ring. }
      unfold e'. rewrite <- Rabs_mult, Q, Rabs_Ropp. eapply Rle_trans; [apply rsum_abs|]. apply rsum_le. intros k Hk. unfold g, e', e.
      destruct (k <? j)%nat; [rewrite Rabs_mult; lra|]. destruct (k =? j)%nat; [rewrite Rabs_R0; lra|rewrite Rabs_mult; lra]. }
    assert (R2 : rsum n (fun j => Rabs (A j j) * e' j) <= rsum n (fun k => lo k * e' k + up k * e k)).
    { eapply Rle_trans; [apply rsum_le; exact R1|]. rewrite rsum_swap. apply Req_le. apply rsum_ext. intros k Hk. unfold lo, up. rewrite <- !rsum_scal_r, <- rsum_add.
      apply rsum_ext. intros j Hj. unfold g. destruct (Nat.ltb_spec k j), (Nat.ltb_spec j k), (Nat.eqb_spec k j); try lia; ring. }
    rewrite rsum_add in R2.
    assert (R3 : wdist new x <= rsum n (fun k => up k * e k)).
    { unfold wdist. rewrite (rsum_ext n _ (fun k => Rabs (A k k) * e' k - lo k * e' k)); [rewrite rsum_sub; lra|]. intros k _. unfold wt, e'. ring. }
    eapply Rle_trans; [exact R3|]. unfold wdist. rewrite <- rsum_scal. apply rsum_le. intros k Hk. pose proof (up_wt k Hk). unfold e. pose proof (Rabs_pos (old k - x k)). nra.
  Qed.

  (** a sweep that changes little is near the solution *)
  Lemma gs_near tol old new : (forall j, (j < n)%nat -> gs_eq n A b (fun j => j) old new j) -> (forall j, (j < n)%nat -> Rabs (new j - old j) <= tol) ->
    wdist new x <= q * tol / (1 - q) * rsum n (fun k => Rabs (A k k)).
  Proof.
    intros G C. pose proof (gs_contract old new G) as K. pose proof (wdist_tri old new x) as Tr.
    assert (S : wdist old new <= tol * rsum n (fun k => Rabs (A k k))).
    { eapply Rle_trans; [apply wdist_hi|]. unfold diag_dist. rewrite <- rsum_scal. apply rsum_le. intros k Hk. specialize (C k Hk). rewrite Rabs_minus_sym in C. pose proof (Rabs_pos (A k k)). nra. }
    apply (Rmult_le_reg_l (1 - q)); [lra|]. replace ((1 - q) * (q * tol / (1 - q) * rsum n (fun k => Rabs (A k k)))) with (q * (tol * rsum n (fun k => Rabs (A k k)))) by (field; lra). nra.
  Qed.
  Lemma wdist_elem u v k : (k < n)%nat -> wt k * Rabs (u k - v k) <= wdist u v.
  Proof.
    intros Hk. unfold wdist. rewrite (rsum_split n k) by auto.
    assert (0 <= rsum k (fun k => wt k * Rabs (u k - v k))). { apply rsum_nonneg. intros i Hi. pose proof (wt_pos i ltac:(lia)). pose proof (Rabs_pos (u i - v i)). nra. }
    assert (0 <= rsum (n - S k) (fun i => wt (S k + i) * Rabs (u (S k + i)%nat - v (S k + i)%nat))).
    { apply rsum_nonneg. intros i Hi. pose proof (wt_pos (S k + i) ltac:(lia)). pose proof (Rabs_pos (u (S k + i)%nat - v (S k + i)%nat)). nra. }
    lra.
  Qed.
  (** near the solution a sweep changes little *)
  Lemma gs_settles tol : 0 < tol -> exists eps, 0 < eps /\ forall old new, (forall j, (j < n)%nat -> gs_eq n A b (fun j => j) old new j) -> wdist old x <= eps ->
    forall j, (j < n)%nat -> Rabs (new j - old j) <= tol.
  Proof.
    intros Ht.
    assert (M : exists m, 0 < m /\ forall k, (k < n)%nat -> m <= wt k).
    { assert (forall l, (l <= n)%nat -> exists m, 0 < m /\ forall k, (k < l)%nat -> m <= wt k) as F; [|apply (F n); auto].
      induction l as [|l IH]; intros Hl; [exists 1; split; [lra|intros; lia]|]. destruct IH as (m & Hm & H); [lia|].
      exists (Rmin m (wt l)). split; [apply Rmin_glb_lt; auto; apply wt_pos; lia|]. intros k Hk. destruct (Nat.eq_dec k l) as [->|]; [apply Rmin_r|].
      eapply Rle_trans; [apply Rmin_l|]. apply H. lia. }
    destruct M as (m & Hm & H). exists (m * tol / 2). split; [nra|]. intros old new G E j Hj.
    pose proof (gs_contract old new G) as K. pose proof (wdist_nonneg old x). pose proof (wdist_elem new x j Hj) as K1. pose proof (wdist_elem old x j Hj) as K2. specialize (H j Hj).
    pose proof (Rabs_triang (new j - x j) (x j - old j)) as Tr. replace (new j - x j + (x j - old j)) with (new j - old j) in Tr by ring. rewrite (Rabs_minus_sym (x j)) in Tr.
    pose proof (Rabs_pos (new j - x j)). pose proof (Rabs_pos (old j - x j)).
    assert (wdist new x <= m * tol / 2) by nra.
    assert (m * Rabs (new j - x j) <= m * tol / 2) by nra. assert (m * Rabs (old j - x j) <= m * tol / 2) by nra.
    assert (Rabs (new j - x j) <= tol / 2) by nra. assert (Rabs (old j - x j) <= tol / 2) by nra. lra.
  Qed.
End Contract.
