(** Triangular and tridiagonal solvers. *)
From Verif Require Import Prelude Prelude_Proofs Scalar RealLib Fmat Fmat_Proofs LE_Model LE_Proofs LE2_Proofs LE3_Proofs.
Local Open Scope R_scope.

Lemma solveL_ok n (l : fmat R) (b ans : fvec R) idx : perm n idx -> (n <= nr l)%nat -> (n <= nc l)%nat -> (n <= vlen b)%nat -> (n <= vlen ans)%nat ->
  exists y, zLESolveL l b ans idx = Ok y /\ vlen y = vlen ans /\
   ((forall i, (i < n)%nat -> el l (pos idx i) i <> 0) ->
    forall i, (i < n)%nat -> rsum (S i) (fun j => el l (pos idx i) j * vel y j) = vel b (pos idx i)).
Proof.
  intros P L1 L2 B A. unfold zLESolveL. rewrite (proj1 P).
  match goal with |- context [for_ ?lo ?hi ?f ?s00] =>
   destruct (for_inv (fun k y => vlen y = vlen ans /\ ((forall i, (i < n)%nat -> el l (pos idx i) i <> 0) ->
    forall i, (i < k)%nat -> rsum (S i) (fun j => el l (pos idx i) j * vel y j) = vel b (pos idx i))) lo hi f s00) as (y & E & H1 & H2) end.
  - lia.
  - split; auto. intros; lia.
  - intros k y Hk (H1 & H2). rewrite (perm_get n) by (auto; lia). cbn [bind]. pose proof (perm_lt n idx k P ltac:(lia)).
    rewrite vget_ok by lia. cbn [bind].
    rewrite (for_sub (fun j => el l (pos idx k) j) (fun j => vel y j)).
    2:{ intros j x Hj. rewrite mget_ok, vget_ok by lia. reflexivity. }
    cbn [bind]. rewrite mget_ok by lia. cbn [bind]. rewrite vset_ok by lia. eexists. split; [reflexivity|]. cbn [vlen vel]. split; auto.
    intros NZ i Hi. rs.
    assert (Q : forall d i', (d <= k)%nat -> rsum d (fun j => el l (pos idx i') j * vel y j) =
      rsum d (fun j => el l (pos idx i') j * (if (j =? k)%nat then (vel b (pos idx k) - rsum k (fun t => el l (pos idx k) t * vel y t)) / el l (pos idx k) k else vel y j))).
    { intros d i' Hd. apply rsum_ext. intros j Hj. nbts. }
    destruct (Nat.eq_dec i k) as [->|].
    + cbn [rsum]. rewrite <- Q by lia. rewrite Nat.eqb_refl. specialize (NZ k ltac:(lia)). field. auto.
    + rewrite <- Q by lia. apply H2; auto. lia.
  - exists y. split; auto.
Qed.

Lemma solveU_ok n (u : fmat R) (b ans : fvec R) : vlen b = n -> (n <= nr u)%nat -> (n <= nc u)%nat -> (n <= vlen ans)%nat ->
  exists x, zLESolveU u b ans = Ok x /\ vlen x = vlen ans /\
   forall i, (i < n)%nat -> vel x i + rsum (n - S i) (fun t => el u i (S i + t)%nat * vel x (S i + t)%nat) = vel b i.
Proof.
  intros B L1 L2 A. unfold zLESolveU. rewrite B.
  match goal with |- context [for_down ?nn ?f ?s00] =>
   destruct (for_down_inv (fun k x => vlen x = vlen ans /\ forall i, (k <= i < n)%nat ->
      vel x i + rsum (n - S i) (fun t => el u i (S i + t)%nat * vel x (S i + t)%nat) = vel b i) nn f s00) as (x & E & H1 & H2) end.
  - split; auto. intros; lia.
  - intros k x Hk (H1 & H2). rewrite vget_ok by lia. cbn [bind].
    rewrite (for_downto_sub (fun j => el u k j) (fun j => vel x j)); [|lia|].
    2:{ intros j y Hj. rewrite mget_ok, vget_ok by lia. reflexivity. }
    cbn [bind]. rewrite vset_ok by lia. eexists. split; [reflexivity|]. cbn [vlen vel]. split; auto. intros i Hi.
    set (z := vel b k - _).
    assert (Q : rsum (n - S i) (fun t => el u i (S i + t)%nat * (if (S i + t =? k)%nat then z else vel x (S i + t)%nat)) = rsum (n - S i) (fun t => el u i (S i + t)%nat * vel x (S i + t)%nat)).
    { apply rsum_ext. intros t Ht. nbts. }
    rewrite Q. destruct (Nat.eqb_spec i k) as [->|]; [unfold z; lra|]. apply H2. lia.
  - exists x. split; auto. split; auto. intros; apply H2; lia.
Qed.

(** ** tridiagonal *)
Section Tridiag.
Variables (a b c d : nat -> R).
(** the reduced diagonal and right-hand side *)
Fixpoint tb (k : nat) : R := match k with O => b 0 | S j => b (S j) - c j / tb j * a (S j) end.
Fixpoint td (k : nat) : R := match k with O => d 0 | S j => d (S j) - td j / tb j * a (S j) end.
Lemma tridiag_back n x : (forall k, (k < n)%nat -> tb k <> 0) -> (forall k, (S k < n)%nat -> x k = (td k - c k * x (S k)) / tb k) ->
  (forall k, S k = n -> x k = td k / tb k) ->
  forall k, (k < n)%nat -> (if (k =? 0)%nat then 0 else a k * x (k - 1)%nat) + b k * x k + (if (S k =? n)%nat then 0 else c k * x (S k)) = d k.
Proof.
  intros NZ X XL k Hk.
  assert (Y : forall k, (k < n)%nat -> tb k * x k + (if (S k =? n)%nat then 0 else c k * x (S k)) = td k).
  { intros j Hj. destruct (Nat.eqb_spec (S j) n) as [E|N].
    - rewrite XL by auto. field. auto.
    - rewrite (X j) by lia. field. auto. }
  pose proof (Y k Hk) as E. destruct k as [|j]; [cbn in E |- *; lra|]. change (S j =? 0)%nat with false.
  rewrite Nat.sub_succ, Nat.sub_0_r. cbn [tb td] in E.
  pose proof (Y j ltac:(lia)) as E'. replace (S j =? n)%nat with false in E' by nbts.
  pose proof (NZ j ltac:(lia)) as N.
  assert (td j / tb j = x j + c j / tb j * x (S j)) as Hx by (rewrite <- E'; field; auto).
  rewrite Hx in E. clear Hx E' Y X XL. revert E. generalize (c j / tb j). intros q E. lra.
Qed.
Lemma tridiag_dominant n : (forall k, (k < n)%nat -> (if (k =? 0)%nat then 0 else Rabs (a k)) + (if (S k =? n)%nat then 0 else Rabs (c k)) < Rabs (b k)) ->
  forall k, (k < n)%nat -> (if (S k =? n)%nat then 0 else Rabs (c k)) < Rabs (tb k).
Proof.
  intros D k. induction k as [|k IH]; intros Hk; specialize (D _ Hk).
  - cbn in *. lra.
  - specialize (IH ltac:(lia)). replace (S k =? n)%nat with false in IH by nbts. change (S k =? 0)%nat with false in D. cbn [tb].
    assert (Rabs (c k / tb k * a (S k)) <= Rabs (a (S k))).
    { rewrite Rabs_mult. unfold Rdiv. rewrite Rabs_mult. pose proof (Rabs_pos (c k)). rewrite Rabs_inv.
      assert (Rabs (c k) * / Rabs (tb k) <= 1).
      { apply Rmult_le_reg_r with (Rabs (tb k)); [lra|]. rewrite Rmult_assoc, Rinv_l by lra. lra. }
      pose proof (Rabs_pos (a (S k))). rewrite <- (Rmult_1_l (Rabs (a (S k)))) at 2. apply Rmult_le_compat_r; auto. }
    pose proof (Rabs_triang_inv (b (S k)) (c k / tb k * a (S k))). lra.
Qed.
End Tridiag.

Lemma tridiagDST_ok n (a b c d ans : fvec R) : (0 < n)%nat -> vlen a = n -> vlen b = n -> vlen c = n -> vlen d = n -> vlen ans = n ->
  let tb := tb (vel a) (vel b) (vel c) in let td := td (vel a) (vel b) (vel c) (vel d) in
  exists o, zLETridiagSolveDST a b c d ans = Ok o /\
   match o with
   | Some x => vlen x = n /\ (forall k, (S k < n)%nat -> tb k <> 0) /\ (forall k, (S k < n)%nat -> vel x k = (td k - vel c k * vel x (S k)) / tb k) /\
               (forall k, S k = n -> vel x k = td k / tb k)
   | None => exists k, (S k < n)%nat /\ tb k = 0
   end.
Proof.
  intros Hn A B C D X tb0 td0. unfold zLETridiagSolveDST. rewrite A.
  match goal with |- context [forb ?lo ?hi ?f ?s00] => destruct (forb_inv (fun k st => let '(a', b', d') := st in
     vlen a' = n /\ vlen b' = n /\ vlen d' = n /\ (forall i, (i < n)%nat -> vel b' i = if (i <? k)%nat then tb0 i else vel b i) /\
     (forall i, (i < n)%nat -> vel d' i = if (i <? k)%nat then td0 i else vel d i) /\
     (forall i, (k <= i)%nat -> vel a' i = vel a i) /\ (forall i, (S i < k)%nat -> tb0 i <> 0))
     (fun _ => exists k, (S k < n)%nat /\ tb0 k = 0) lo hi f s00) as (o & EO & HO) end.
  - lia.
  - conjs; auto; intros; try lia; destruct i; auto.
  - intros k [[a' b'] d'] Hk (D1 & D2 & D3 & I1 & I2 & I3 & I4). rewrite vget_ok by lia. cbn [bind]. rs.
    destruct k as [|k]; [lia|]. rewrite Nat.sub_succ, Nat.sub_0_r in *. rewrite I1 by lia. replace (k <? S k)%nat with true by nbts.
    destruct (Reqb_spec (tb0 k) 0) as [Z|NZ].
    + eexists; split; [reflexivity|]. cbn. exists k. split; auto; lia.
    + rewrite !vget_ok by lia. cbn [bind]. rewrite vmod_ok, vset_ok by lia. cbn [bind]. rewrite vmod_ok, vset_ok by lia. cbn [bind]. rewrite vset_ok by lia. cbn [bind].
      eexists; split; [reflexivity|]. cbn [vlen vel]. conjs; auto.
      * intros i Hi. destruct (Nat.eqb_spec i (S k)) as [->|].
        -- replace (S k <? S (S k))%nat with true by nbts. rewrite I1 by lia. replace (S k <? S k)%nat with false by nbts. rewrite I3 by lia. reflexivity.
        -- rewrite I1 by lia. nbts.
      * intros i Hi. destruct (Nat.eqb_spec i (S k)) as [->|].
        -- replace (S k <? S (S k))%nat with true by nbts. rewrite !I2 by lia. replace (S k <? S k)%nat with false by nbts. replace (k <? S k)%nat with true by nbts. rewrite I3 by lia. reflexivity.
        -- rewrite I2 by lia. nbts.
      * intros i Hi. nbts. apply I3. lia.
      * intros i Hi. destruct (Nat.eq_dec i k) as [->|]; auto. apply I4. lia.
  - rewrite EO. cbn [bind]. destruct o as [[[a' b'] d']|[]].
    + destruct HO as (D1 & D2 & D3 & I1 & I2 & I3 & I4). rewrite !vget_ok by lia. cbn [bind]. rewrite vset_ok by lia. cbn [bind]. rewrite I1, I2 by lia.
      replace (n - 1 <? n)%nat with true by nbts. rs.
      match goal with |- context [for_down ?nn ?f ?s00] =>
       destruct (for_down_inv (fun k x => vlen x = n /\ (forall i, (k <= i)%nat -> (S i < n)%nat -> vel x i = (td0 i - vel c i * vel x (S i)) / tb0 i) /\
         forall k, S k = n -> vel x k = td0 k / tb0 k) nn f s00) as (x & E & H1 & H2 & H3) end.
      * cbn [vlen vel]. conjs; auto. { intros; lia. } intros k Hk. replace k with (n - 1)%nat by lia. rewrite Nat.eqb_refl. auto.
      * intros k x Hk (H1 & H2 & H3). rewrite !vget_ok by lia. cbn [bind]. rewrite vset_ok by lia. eexists; split; [reflexivity|]. cbn [vlen vel].
        rewrite I1, I2 by lia. replace (k <? n)%nat with true by nbts. conjs; auto.
        -- intros i Hi Hi'. replace (S i =? k)%nat with false by nbts. destruct (Nat.eqb_spec i k) as [->|]; [reflexivity|]. apply H2; lia.
        -- intros i Hi. replace (i =? k)%nat with false by nbts. auto.
      * rewrite E. cbn [rmap]. eexists; split; [reflexivity|]. split; [auto|]. split; [intros k Hk; apply I4; lia|]. split; [intros k Hk; apply H2; lia|auto].
    + eexists; split; [reflexivity|]. auto.
Qed.
