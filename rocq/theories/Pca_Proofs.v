(** The columns of the Cholesky factor at and beyond the rank; the loop over the scores. *)
From Coq Require Import Reals Lra Lia Psatz.
From Verif Require Import Prelude Prelude_Proofs Scalar RealLib Fmat Fmat_Proofs LE_Model LE_Proofs LE2_Proofs LE3_Proofs LE5_Proofs LE_Spec LE6_Proofs
  IP_Model Vop Qp_Proofs Stat_Model Stat_Proofs Eig_Model Pca_Model.
Local Open Scope R_scope.
Local Notation V m idx a b := (el m (pos idx a) (pos idx b)).

Section Cols.
Variables (tol : R) (n : nat) (M : nat -> nat -> R).
Hypothesis Ht : 0 <= tol.
Hypothesis MS : forall r c, (r < n)%nat -> (c < n)%nat -> M r c = M c r.
(** what is kept of the steps that found a tiny diagonal *)
Definition cz i (m : fmat R) (idx : list nat) (rank : nat) : Prop :=
  forall t, (rank <= t < i)%nat -> Rabs (V m idx t t) <= tol /\ forall a, (t < a < n)%nat -> V m idx a t = 0.

Lemma cz_body i m idx rank E m' idx' rank' : (i < n)%nat -> cinv tol n M i m idx rank E -> cz i m idx rank ->
  chol_body tol n i (m, idx, rank) = Ok (inl (m', idx', rank')) -> cz (S i) m' idx' rank'.
Proof.
  intros Hi I0 CZ. destruct (ci_d _ _ _ _ _ _ _ _ I0) as (M1 & M2). pose proof (ci_p _ _ _ _ _ _ _ _ I0) as P0.
  unfold chol_body. destruct (zMatPivotingDiag_ok m n idx i) as (idx1 & pi & EP & P & Hpi & Sw & Mx); auto; try lia.
  rewrite EP. cbn [bind].
  assert (CZ1 : cz i m idx1 rank).
  { intros t Hlt. destruct (CZ t Hlt) as (C1 & C2). rewrite (swapped_lt idx idx1 i pi t) by (auto; lia). split; auto.
    intros a Ha. destruct (le_lt_dec i a).
    - destruct (swapped_ge n idx idx1 i pi a) as (a' & Ha' & ->); auto; try lia. apply C2. lia.
    - rewrite (swapped_lt idx idx1 i pi a) by (auto; lia). apply C2. lia. }
  apply (cinv_swap tol n M MS i m idx idx1 pi) in I0; auto. clear EP Sw Hpi P0 CZ idx pi. rename idx1 into idx.
  pose proof I0 as [_ _ Ir Is _ _ _ Ig _]. rewrite (perm_get n) by auto. cbn [bind]. pose proof (perm_lt n idx i P Hi) as Hp. rewrite mget_ok by lia. cbn [bind].
  set (d := V m idx i i) in *. cbv zeta. rewrite is_tol_R.
  assert (ST : forall m0 k, nr m0 = n -> nc m0 = n -> exists m', (forall (F : fmat R -> res ((fmat R * list nat * nat) + unit)), bind (for_ (S i) n (fun j m => q <- get idx j ;; m <- mmod m (pos idx i) q (fun x => x * k) ;; mmod m q (pos idx i) (fun x => x * k)) m0)
      (fun m => bind (for_ (S i) n (fun j m => for_ (S i) n (fun k m =>
               qj <- get idx j ;; qk <- get idx k ;;
               x <- mget m qj (pos idx i) ;; y <- mget m (pos idx i) qk ;; mmod m qj qk (fun z => z - x * y)) m) m) F) = F m') /\ nr m' = n /\ nc m' = n /\
      forall a b, (a < n)%nat -> (b < n)%nat -> V m' idx a b = if ((i <? a) && (i <? b))%nat then V m0 idx a b - (V m0 idx a i * k) * (V m0 idx i b * k)
        else if ((a =? i) && (i <? b) || (b =? i) && (i <? a))%nat then V m0 idx a b * k else V m0 idx a b).
  { intros m0 k N1 N2. destruct (chol_scale n i idx P Hi m0 k) as (m1 & E1 & A1 & A2 & A3); auto.
    destruct (chol_update n i idx P Hi m1) as (m2 & E2 & B1 & B2 & B3); auto.
    exists m2. split; [|conjs; auto].
    - intros F. rs. rewrite E1. cbn [bind]. rewrite E2. reflexivity.
    - intros a b Ha Hb. rewrite B3, !A3 by auto. nbp. }
  destruct (Rleb_spec (Rabs d) tol) as [Z|NZ].
  - destruct (ST m 0) as (m1 & EF & D1 & D2 & D3); auto. rs. rewrite EF. clear EF ST. intros Q. inversion Q; subst m' idx' rank'. clear Q.
    intros t Hlt. destruct (Nat.eq_dec t i) as [->|N].
    + rewrite D3 by lia. replace (_ && _)%bool with false by nbp. replace (_ || _)%bool with false by nbp. split; [exact Z|].
      intros a Ha. rewrite D3 by lia. replace ((i <? a) && (i <? i))%nat with false by nbp. replace (_ || _)%bool with true by nbp. ring.
    + destruct (CZ1 t ltac:(lia)) as (C1 & C2). split.
      * rewrite D3 by lia. replace (_ && _)%bool with false by nbp. replace (_ || _)%bool with false by nbp. exact C1.
      * intros a Ha. rewrite D3 by lia. replace ((i <? a) && (i <? t))%nat with false by nbp. replace (_ || _)%bool with false by nbp. apply C2. lia.
  - destruct (Rltb_spec d 0) as [Neg|Pos]; [discriminate|].
    assert (RE : (rank < i)%nat -> False). { intros H. specialize (Ig H i ltac:(lia)). fold d in Ig. lra. }
    destruct (mset_pos n i idx P Hi m i i (R_sqrt.sqrt d)) as (m0 & E0 & F1 & F2 & F3); auto. rewrite E0. cbn [bind].
    destruct (ST m0 (1 / R_sqrt.sqrt d)) as (m1 & EF & D1 & D2 & D3); auto. rs. rewrite EF. intros Q. inversion Q; subst. intros t Hlt. lia.
Qed.
End Cols.

(** the factor of the decomposition of a positive semidefinite matrix, without the columns beyond the rank *)
Lemma chol_cols tol n (m l : fmat R) idx : 0 <= tol -> perm n idx -> nr m = n -> nc m = n -> nr l = n -> nc l = n ->
  (forall r c, (r < n)%nat -> (c < n)%nat -> el m r c = el m c r) -> (forall x, 0 <= qf n (el m) x) -> tol <= 1 ->
  exists l' idx' rank, zMatDecompCholeskyDST tol m l idx = Ok (Some (l', idx', rank)) /\ (rank <= n)%nat /\ nr l' = n /\ nc l' = n /\
    forall r c, (r < n)%nat -> (c < n)%nat -> Rabs (el m r c - rsum rank (fun t => el l' r t * el l' c t)) <= tol + tol * tol.
Proof.
  intros Ht P M1 M2 L1 L2 Sy Ps T1. unfold zMatDecompCholeskyDST. rewrite (proj1 P).
  match goal with |- context [forb ?lo ?hi ?f ?s00] => destruct (forb_inv (fun k st => let '(m', idx', rank') := st in exists E, cinv tol n (el m) k m' idx' rank' E /\ cz tol n k m' idx' rank')
     (fun _ => False) lo hi f s00) as (o & EO & HO) end.
  - lia.
  - exists (fun _ _ => 0). split; [|intros t Hlt; lia]. constructor; auto; try lia.
    + intros a b Ha Hb. apply Sy; eapply perm_lt; eauto.
    + intros a b Ha Hb. cbn. lra.
    + intros HP. split; auto.
      * intros x Hx. auto.
      * intros. rewrite Rabs_R0. auto.
  - intros k [[m' idx'] rank'] Hk (E & I & Z). destruct (chol_body_ok tol n (el m) Ht Sy k m' idx' rank' E) as (o & EB & H); auto; try lia.
    exists o. split; [exact EB|]. destruct o as [[[m2 idx2] rank2]|u].
    + destruct H as (E' & I'). exists E'. split; auto. eapply (cz_body tol n (el m) Sy); eauto. lia.
    + apply H. exact Ps.
  - rewrite EO. cbn [bind]. destruct o as [[[m' idx'] rank']|[]]; [|contradiction].
    destruct HO as (E & [Ip Id Ir Is IM IE IEr Ig Ips] & CZ). destruct (chol_out n idx' m' l) as (l' & El & D1 & D2 & D3); auto; try apply Id. rs. rewrite El. cbn [bind].
    exists l', idx', rank'. conjs; auto. intros r c Hr Hc. destruct (Ips Ps) as (_ & EB). specialize (EB T1 r c Hr Hc).
    destruct (perm_onto n idx' r Ip Hr) as (a & Ha & Ea). destruct (perm_onto n idx' c Ip Hc) as (b & Hb & Eb).
    assert (EM : el m r c = rsum n (fun t => el l' r t * el l' c t) + E r c).
    { subst r c. rewrite IM by auto. replace ((n <=? a) && (n <=? b))%nat with false by nbp. rewrite Rplus_0_l. f_equal. apply rsum_ext. intros t Hlt. rewrite !D3 by auto. reflexivity. }
    assert (TL : forall t, (rank' <= t < n)%nat -> forall a, (a < n)%nat -> el l' (pos idx' a) t = if (t =? a)%nat then V m' idx' t t else 0).
    { intros t Hlt a' Ha'. rewrite D3 by auto. destruct (CZ t ltac:(lia)) as (_ & C2). nbp; subst; auto. apply C2. lia. }
    assert (RS : rsum n (fun t => el l' r t * el l' c t) - rsum rank' (fun t => el l' r t * el l' c t) = if ((a =? b) && (rank' <=? a))%nat then V m' idx' a a * V m' idx' a a else 0).
    { assert (G : forall k, (rank' + k <= n)%nat -> rsum (rank' + k) (fun t => el l' r t * el l' c t) - rsum rank' (fun t => el l' r t * el l' c t)
         = if ((a =? b) && (rank' <=? a) && (a <? rank' + k))%nat then V m' idx' a a * V m' idx' a a else 0).
      { induction k as [|k IH]; intros Hk.
        - rewrite Nat.add_0_r. replace (_ && _)%bool with false by nbp. lra.
        - rewrite Nat.add_succ_r. cbn [rsum]. specialize (IH ltac:(lia)). rewrite <- Ea, <- Eb in *. rewrite !(TL (rank' + k)%nat) by lia.
          revert IH. nbp; intros IH; subst; try lra; try lia. }
      specialize (G (n - rank')%nat ltac:(lia)). replace (rank' + (n - rank'))%nat with n in G by lia. rewrite G. nbp. }
    replace (el m r c - rsum rank' (fun t => el l' r t * el l' c t)) with (E r c + (rsum n (fun t => el l' r t * el l' c t) - rsum rank' (fun t => el l' r t * el l' c t))) by lra.
    rewrite RS. eapply Rle_trans; [apply Rabs_triang|]. apply Rplus_le_compat; auto.
    destruct (Nat.eqb_spec a b), (Nat.leb_spec rank' a); cbn [andb]; try (rewrite Rabs_R0; nra).
    destruct (CZ a ltac:(lia)) as (C1 & _). rewrite Rabs_mult. pose proof (Rabs_pos (V m' idx' a a)). nra.
Qed.
