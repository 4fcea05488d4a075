(** LU decomposition. *)
From Verif Require Import Prelude Prelude_Proofs Scalar RealLib Fmat Fmat_Proofs LE_Model LE_Proofs LE2_Proofs LE3_Proofs.
Local Open Scope R_scope.

(** a loop that overwrites the column [c] of the rows listed from position [lo] on *)
Lemma pcol_loop {T} n idx (l : fmat T) c lo f F : perm n idx -> (lo <= n)%nat -> (n <= nr l)%nat -> (c < nc l)%nat ->
  (forall i l', (lo <= i < n)%nat -> nr l' = nr l -> nc l' = nc l ->
     (forall a t, (a < n)%nat -> (a < lo \/ i <= a \/ t <> c)%nat -> el l' (pos idx a) t = el l (pos idx a) t) -> f i l' = mset l' (pos idx i) c (F i)) ->
  exists l', for_ lo n f l = Ok l' /\ nr l' = nr l /\ nc l' = nc l /\
   forall a t, (a < n)%nat -> el l' (pos idx a) t = if (lo <=? a)%nat && (t =? c)%nat then F a else el l (pos idx a) t.
Proof.
  intros P L H C Hf.
  destruct (for_inv (fun k l' => nr l' = nr l /\ nc l' = nc l /\
    forall a t, (a < n)%nat -> el l' (pos idx a) t = if (lo <=? a)%nat && (a <? k)%nat && (t =? c)%nat then F a else el l (pos idx a) t) lo n f l) as (l' & E & D1 & D2 & D3); auto.
  - conjs; auto. intros. nbts.
  - intros k s Hk (A & B & D). pose proof (perm_lt n idx k P ltac:(lia)). rewrite Hf; auto.
    + rewrite mset_ok by lia. eexists; split; [reflexivity|]. cbn [nr nc el]. conjs; auto. intros a t Ha. rewrite D by auto.
      destruct (Nat.eqb_spec (pos idx a) (pos idx k)) as [E|N].
      * apply (perm_inj n) in E; auto; try lia. subst. nbts.
      * destruct (Nat.eq_dec a k) as [->|]; [congruence|]. nbts.
    + intros a t Ha Hx. rewrite D by auto. nbts.
  - exists l'. conjs; auto. intros a t Ha. rewrite D3 by auto. nbts.
Qed.

Section LU.
Variable tol : R.
Hypothesis Ht : 0 <= tol.
Variables (Rn Cn : nat).
Implicit Types (m l u : fmat R).
Definition ludims m l u idx := perm Rn idx /\ nr m = Rn /\ nc m = Cn /\ nr l = Rn /\ nc l = Rn /\ nr u = Rn /\ nc u = Cn.

Record lupivot r c m l u idx m' l' u' : Prop := {
  lp_l : forall a t, (a < Rn)%nat -> el l' (pos idx a) t =
     if (t =? c)%nat && (r <? a)%nat then el m (pos idx a) c else if (t =? r)%nat && (a =? r)%nat then el m (pos idx r) c else el l (pos idx a) t;
  lp_u : forall s k, el u' s k = if (s =? r)%nat && (c <=? k)%nat && (k <? Cn)%nat then el m (pos idx r) k / el m (pos idx r) c else el u s k;
  lp_m : forall a k, (a < Rn)%nat -> el m' (pos idx a) k =
     if (r <? a)%nat && (c <? k)%nat && (k <? Cn)%nat then el m (pos idx a) k - el m (pos idx a) c * (el m (pos idx r) k / el m (pos idx r) c) else el m (pos idx a) k }.

Lemma lu_step_ok r c m l u idx : ludims m l u idx -> (r < Rn)%nat -> (c < Cn)%nat -> (c < Rn)%nat -> (r <= c)%nat ->
  exists idx' pi, (r <= pi < Rn)%nat /\ swapped idx idx' r pi /\
   ((lu_step tol Rn Cn c (m, l, u, idx, r) = Ok (m, l, u, idx', r) /\ ludims m l u idx' /\ forall a, (r <= a < Rn)%nat -> Rabs (el m (pos idx' a) c) <= tol) \/
    (exists m' l' u', lu_step tol Rn Cn c (m, l, u, idx, r) = Ok (m', l', u', idx', S r) /\ ludims m' l' u' idx' /\
       tol < Rabs (el m (pos idx' r) c) /\ lupivot r c m l u idx' m' l' u')).
Proof.
  intros (P & M1 & M2 & L1 & L2 & U1 & U2) Hr Hc HcR Hrc. unfold lu_step. replace (negb (r <? Rn)%nat) with false by nbts.
  destruct (zMatPivoting_ok m Rn idx r c) as (idx' & pi & E & P' & Hpi & Sw & Mx); auto; try lia.
  rewrite E. cbn [bind]. exists idx', pi. split; auto. split; auto.
  rewrite (perm_get Rn) by auto. cbn [bind]. pose proof (perm_lt Rn idx' r P' Hr) as Hp. rewrite mget_ok by lia. cbn [bind].
  set (p := pos idx' r) in *. rewrite is_tol_R. destruct (Rleb_spec (Rabs (el m p c)) tol) as [Z|NZ].
  - left. split; auto. split; [unfold ludims; auto 10|]. intros a Ha. specialize (Mx a Ha). lra.
  - right. assert (N0 : el m p c <> 0) by (intros Z; rewrite Z, Rabs_R0 in NZ; lra).
    rewrite mset_ok by lia. cbn [bind]. rewrite mset_ok by lia. cbn [bind nr nc el].
    match goal with |- context [for_ ?lo ?hi ?f ?s00] =>
      destruct (pcol_loop (T := R) Rn idx' s00 c lo f (fun a => el m (pos idx' a) c)) as (l' & El & D1 & D2 & D3) end; auto; cbn [nr nc] in *; try lia.
    { intros i l' Hi _ _ _. rewrite (perm_get Rn) by (auto; lia). cbn [bind]. pose proof (perm_lt Rn idx' i P' ltac:(lia)). rewrite mget_ok by lia. reflexivity. }
    rewrite L1 in El |- *. rewrite El. cbn [bind].
    match goal with |- context [for_ ?lo ?hi ?f (FM (nr u) (nc u) ?e)] =>
      destruct (row_loop (FM (nr u) (nc u) e) r lo hi f (fun k => el m p k / el m p c)) as (u' & Eu & V1 & V2 & V3) end; cbn [nr nc] in *; try lia.
    { intros j u' Hj _ _ _. rewrite mget_ok by lia. reflexivity. }
    rewrite Eu. cbn [bind].
    assert (LP : forall a t, (a < Rn)%nat -> el l' (pos idx' a) t =
       if (t =? c)%nat && (r <? a)%nat then el m (pos idx' a) c else if (t =? r)%nat && (a =? r)%nat then el m p c else el l (pos idx' a) t).
    { intros a t Ha. rewrite D3 by auto. cbn [el]. destruct (Nat.eqb_spec (pos idx' a) p) as [E1|N1].
      - apply (perm_inj Rn) in E1; auto. subst. nbts.
      - destruct (Nat.eq_dec a r) as [->|]; [exfalso; auto|]. nbts. }
    assert (UP : forall s k, el u' s k = if (s =? r)%nat && (c <=? k)%nat && (k <? Cn)%nat then el m p k / el m p c else el u s k).
    { intros s k. rewrite V3. cbn [el]. rewrite U2. nbts. rs. field. auto. }
    match goal with |- context [for_ ?lo ?hi ?f m] =>
      destruct (for_inv (fun kk m' => nr m' = Rn /\ nc m' = Cn /\ forall a k, (a < Rn)%nat -> el m' (pos idx' a) k =
         if (r <? a)%nat && (c <? k)%nat && (k <? kk)%nat then el m (pos idx' a) k - el m (pos idx' a) c * (el m p k / el m p c) else el m (pos idx' a) k) lo hi f m) as (m' & Em & W1 & W2 & W3) end; try lia.
    { conjs; auto. intros. nbts. }
    { intros j m' Hj (W1 & W2 & W3).
      match goal with |- context [for_ ?lo ?hi ?f m'] =>
       destruct (pcol_loop (T := R) Rn idx' m' j lo f (fun a => el m (pos idx' a) j - el m (pos idx' a) c * (el m p j / el m p c))) as (m'' & Em & X1 & X2 & X3) end; auto; try lia.
      { intros i m'' Hi X1 X2 X3. rewrite (perm_get Rn) by (auto; lia). cbn [bind]. pose proof (perm_lt Rn idx' i P' ltac:(lia)).
        rewrite !mget_ok by lia. cbn [bind]. rewrite mmod_ok by lia. rewrite LP, UP by lia. rewrite X3 by lia. rewrite W3 by lia.
        replace (c =? c)%nat with true by nbts. replace (r <? i)%nat with true by nbts. replace (r =? r)%nat with true by nbts.
        replace (c <=? j)%nat with true by nbts. replace (j <? Cn)%nat with true by nbts. replace (c <? j)%nat with true by nbts. replace (j <? j)%nat with false by nbts.
        reflexivity. }
      exists m''. split; auto. conjs; try lia. intros a k Ha. rewrite X3, W3 by auto. nbts. }
    rewrite Em. cbn [bind]. exists m', l', u'. split; [reflexivity|]. split; [|split; [lra|]].
    + unfold ludims. conjs; auto; lia.
    + constructor; auto.
Qed.

(** the state after some columns; [k0] columns were processed, [r] rows are done.
    In the regular case pivots were found in the columns 0..r-1, and every later column
    so far had only negligible entries left *)
Record luinv (M : nat -> nat -> R) r c m l u idx : Prop := {
  lu_r : (r <= c)%nat /\ (r <= Rn)%nat;
  lu_M : forall a k, (a < Rn)%nat -> (k < Cn)%nat ->
     M (pos idx a) k = (if (r <=? a)%nat && (r <=? k)%nat then el m (pos idx a) k else 0) + rsum r (fun t => el l (pos idx a) t * el u t k);
  lu_l : forall a t, (a < Rn)%nat -> (a < t \/ r <= t)%nat -> el l (pos idx a) t = 0;
  lu_u1 : forall t, (t < r)%nat -> el u t t = 1;
  lu_u0 : forall t k, (k < t \/ r <= t)%nat -> el u t k = 0;
  lu_z : (r < c)%nat -> forall a k, (r <= a < Rn)%nat -> (r <= k < c)%nat -> Rabs (el m (pos idx a) k) <= tol;
  lu_p : forall t, (t < r)%nat -> tol < Rabs (el l (pos idx t) t) }.

Lemma luinv_swap M r c m l u idx idx' pi : perm Rn idx' -> (r <= pi < Rn)%nat -> swapped idx idx' r pi -> luinv M r c m l u idx -> luinv M r c m l u idx'.
Proof.
  intros P' Hpi Sw [Ir IM Il Iu1 Iu0 Iz Ip].
  assert (GE : forall j, (j < Rn)%nat -> exists j', (j' < Rn)%nat /\ pos idx' j = pos idx j' /\ ((r <=? j) = (r <=? j'))%nat /\ ((j < r)%nat -> j' = j) /\ ((r <= j)%nat -> (r <= j')%nat)).
  { intros j Hj. destruct (le_lt_dec r j).
    - destruct (swapped_ge Rn idx idx' r pi j) as (j' & Hj' & ->); auto. exists j'. conjs; try lia; nbts.
    - exists j. rewrite (swapped_lt idx idx' r pi) by (auto; lia). conjs; auto; lia. }
  constructor; auto.
  - intros a k Ha Hk. destruct (GE a Ha) as (a' & Ha' & -> & -> & _). apply IM; auto.
  - intros a t Ha Hat. destruct (GE a Ha) as (a' & Ha' & -> & _ & G1 & G2). apply Il; auto. destruct (le_lt_dec r a); [|rewrite G1 by auto; auto].
    destruct Hat; [|auto]. right. lia.
  - intros Hrc a k Ha Hk. destruct (GE a) as (a' & Ha' & -> & _ & G1 & G2); [lia|]. apply Iz; auto. lia.
  - intros t Hr. rewrite (swapped_lt idx idx' r pi) by (auto; lia). auto.
Qed.

Lemma luinv_pivot M r m l u idx m' l' u' : perm Rn idx -> (r < Rn)%nat -> (r < Cn)%nat -> luinv M r r m l u idx -> tol < Rabs (el m (pos idx r) r) ->
  lupivot r r m l u idx m' l' u' -> luinv M (S r) (S r) m' l' u' idx.
Proof.
  intros P Hr HrC [Ir IM Il Iu1 Iu0 Iz Ip] NZ [Pl Pu Pm].
  assert (N0 : el m (pos idx r) r <> 0) by (intros Z; rewrite Z, Rabs_R0 in NZ; lra).
  constructor; auto; try lia.
  - intros a k Ha Hk. rewrite IM by auto. cbn [rsum].
    assert (rsum r (fun t => el l' (pos idx a) t * el u' t k) = rsum r (fun t => el l (pos idx a) t * el u t k)) as ->.
    { apply rsum_ext. intros t Hlt. rewrite Pl, Pu by auto. nbts. }
    rewrite Pl, Pu, Pm by auto. replace (r =? r)%nat with true by nbts. replace (k <? Cn)%nat with true by nbts. cbn [andb]. rewrite !Bool.andb_true_r.
    destruct (lt_eq_lt_dec a r) as [[G|G]|G].
    + replace (r <=? a)%nat with false by nbts. replace (S r <=? a)%nat with false by nbts. replace (r <? a)%nat with false by nbts. replace (a =? r)%nat with false by nbts.
      cbn [andb]. rewrite (Il a r) by lia. lra.
    + subst a. replace (r <=? r)%nat with true by nbts. replace (S r <=? r)%nat with false by nbts. replace (r <? r)%nat with false by nbts. replace (r =? r)%nat with true by nbts.
      cbn [andb]. destruct (Nat.leb_spec r k).
      * field. auto.
      * rewrite Iu0 by lia. lra.
    + replace (r <=? a)%nat with true by nbts. replace (S r <=? a)%nat with true by nbts. replace (r <? a)%nat with true by nbts. replace (a =? r)%nat with false by nbts.
      cbn [andb]. destruct (lt_eq_lt_dec k r) as [[K|K]|K].
      * replace (r <=? k)%nat with false by nbts. replace (S r <=? k)%nat with false by nbts. rewrite Iu0 by lia. lra.
      * subst k. replace (r <=? r)%nat with true by nbts. replace (S r <=? r)%nat with false by nbts. field. auto.
      * replace (r <=? k)%nat with true by nbts. replace (S r <=? k)%nat with true by nbts. replace (r <? k)%nat with true by nbts. lra.
  - intros a t Ha Hat. rewrite Pl by auto. nbts; apply Il; auto; lia.
  - intros t Hlt. rewrite Pu. destruct (Nat.eq_dec t r) as [->|]; [|replace (t =? r)%nat with false by nbts; apply Iu1; lia].
    replace (r =? r)%nat with true by nbts. replace (r <=? r)%nat with true by nbts. replace (r <? Cn)%nat with true by nbts. cbn [andb]. field. auto.
  - intros t k Hkt. rewrite Pu. nbts; apply Iu0; lia.
  - intros t Hlt. rewrite Pl by lia. destruct (Nat.eq_dec t r) as [->|].
    + nbts.
    + nbts. apply Ip. lia.
Qed.

(** once a pivot is found right of the diagonal the diagonal of U has a hole, for good *)
Definition dependent (M : nat -> nat -> R) : Prop :=
  exists i x, (i < Cn)%nat /\ x i <> 0 /\ forall a, (a < Rn)%nat -> rsum Cn (fun k => M a k * x k) = 0.
Definition hole u r : Prop := exists t, (t < r)%nat /\ el u t t <> 1.
Local Notation lustate := (fmat R * fmat R * fmat R * list nat * nat)%type.
Definition luP M c (st : lustate) : Prop := let '(m, l, u, idx, r) := st in
  ludims m l u idx /\ (r <= c)%nat /\ (r <= Rn)%nat /\ (forall t k, (k < t \/ r <= t)%nat -> el u t k = 0) /\ (luinv M r (if (r <? Rn)%nat then c else r) m l u idx \/ hole u r /\ (tol = 0 -> dependent M)).
Lemma luinv_dependent M r c m l u idx : perm Rn idx -> (r < c)%nat -> (c <= Cn)%nat -> luinv M r c m l u idx -> tol = 0 -> dependent M.
Proof.
  intros P Hrc Hc [Ir IM Il Iu1 Iu0 Iz Ip] T. destruct (ut_kernel Cn M M (el u) r) as (x & X1 & X2 & X3); [lia|auto|intros; apply Iu0; lia|].
  exists r, x. split; [lia|]. split; [lra|]. intros q Hq. destruct (perm_onto Rn idx q) as (a & Ha & <-); auto.
  transitivity (rsum r (fun t => el l (pos idx a) t * rowdot Cn (el u t) x)).
  - transitivity (rsum Cn (fun k => rsum r (fun t => el l (pos idx a) t * (el u t k * x k)))).
    + apply rsum_ext. intros k Hk. rewrite IM by auto.
      assert ((if (r <=? a)%nat && (r <=? k)%nat then el m (pos idx a) k else 0) * x k = 0) as Z.
      { destruct (Nat.leb_spec r a); cbn [andb]; [|lra]. destruct (Nat.leb_spec r k); [|lra]. destruct (Nat.eq_dec k r) as [->|]; [|rewrite X2 by lia; lra].
        specialize (Iz Hrc a r ltac:(lia) ltac:(lia)). rewrite T in Iz. assert (el m (pos idx a) r = 0) as ->; [|lra].
        destruct (Req_dec (el m (pos idx a) r) 0); auto. pose proof (Rabs_pos_lt (el m (pos idx a) r)). lra. }
      rewrite Rmult_plus_distr_r, Z, Rplus_0_l, <- rsum_scal_r. apply rsum_ext. intros. ring.
    + rewrite rsum_swap. apply rsum_ext. intros t Htr. unfold rowdot. rewrite <- rsum_scal. reflexivity.
  - apply rsum_0. intros t Htr. rewrite X3 by auto. lra.
Qed.

Lemma lu_step_inv M c st : (c < Cn)%nat -> (Cn <= Rn)%nat -> luP M c st -> exists st', lu_step tol Rn Cn c st = Ok st' /\ luP M (S c) st'.
Proof.
  destruct st as [[[[m l] u] idx] r]. intros Hc HCR (D & Hrc & HrR & U0 & H).
  destruct (Nat.ltb_spec r Rn) as [Hr|Hr].
  2:{ unfold lu_step. replace (negb (r <? Rn)%nat) with true by nbts. eexists; split; [reflexivity|]. unfold luP. conjs; auto; try lia.
      all: try (replace (r <? Rn)%nat with false by nbts; auto). }
  destruct (lu_step_ok r c m l u idx) as (idx' & pi & Hpi & Sw & [(E & D' & Z)|(m' & l' & u' & E & D' & NZ & LP)]); auto; try lia; rewrite E.
  - eexists; split; [reflexivity|]. unfold luP. conjs; auto; try lia. replace (r <? Rn)%nat with true by nbts. destruct H as [I|Hh]; auto. left.
    apply luinv_swap with (idx' := idx') (pi := pi) in I; auto; [|apply D']. destruct I as [Ir IM Il Iu1 Iu0 Iz Ip]. constructor; auto; try lia.
    intros _ a k Ha Hk. destruct (Nat.eq_dec k c) as [->|]; auto. apply Iz; lia.
  - eexists; split; [reflexivity|]. unfold luP. pose proof LP as [Pl Pu Pm].
    assert (U0' : forall t k, (k < t \/ S r <= t)%nat -> el u' t k = 0) by (intros t k Hkt; rewrite Pu; nbts; apply U0; lia).
    conjs; auto; try lia.
    destruct (Nat.eq_dec r c) as [->|N].
    + destruct H as [I|((t & Hlt & Hh) & Dp)].
      * left. apply luinv_swap with (idx' := idx') (pi := pi) in I; auto; [|apply D']. destruct (S c <? Rn)%nat; eapply luinv_pivot; eauto; apply D'.
      * right. split; auto. exists t. split; auto. rewrite Pu. nbts.
    + right. split. 2:{ destruct H as [I|(_ & Dp)]; auto. replace (r <? Rn)%nat with true in I by nbts. apply (luinv_dependent M r c m l u idx); auto; try lia. apply D. }
      exists r. split; auto. rewrite Pu. replace (c <=? r)%nat with false by nbts. replace (r =? r)%nat with true by nbts. cbn [andb].
      rewrite U0 by lia. lra.
Qed.
End LU.

Lemma luDST_ok tol Rn Cn (m l u : fmat R) idx : 0 <= tol -> perm Rn idx -> nr m = Rn -> nc m = Cn -> nr l = Rn -> nc l = Rn -> nr u = Rn -> nc u = Cn -> (Cn <= Rn)%nat ->
  exists m' l' u' idx' r, zMatDecompLUDST tol m l u idx = Ok (l', u', idx', r) /\ luP tol Rn Cn (el m) Cn (m', l', u', idx', r).
Proof.
  intros Ht P M1 M2 L1 L2 U1 U2 HCR. unfold zMatDecompLUDST. rewrite M1, M2, L1, L2, U1, U2.
  match goal with |- context [for_ ?lo ?hi ?f ?s00] => destruct (for_inv (luP tol Rn Cn (el m)) lo hi f s00) as ([[[[m' l'] u'] idx'] r'] & E & H) end.
  - lia.
  - unfold luP. conjs; auto; try lia. { unfold ludims, zmat; conjs; auto. } left.
    assert (luinv tol Rn Cn (el m) 0 0 m (zmat Rn Rn) (zmat Rn Cn) idx) as I; [|destruct (0 <? Rn)%nat; auto].
    constructor; auto; try lia. intros a k _ _. cbn. lra.
  - intros k st Hk. apply lu_step_inv; auto; lia.
  - rewrite E. cbn [bind]. eauto 10.
Qed.
