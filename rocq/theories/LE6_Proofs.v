(** Cholesky decomposition. *)
From Verif Require Import Prelude Prelude_Proofs Scalar RealLib Fmat Fmat_Proofs LE_Model LE_Proofs LE2_Proofs LE3_Proofs LE5_Proofs LE_Spec.
Local Open Scope R_scope.

Lemma qf_ext n A B x y : (forall r c, (r < n)%nat -> (c < n)%nat -> x r * A r c * x c = y r * B r c * y c) -> qf n A x = qf n B y.
Proof. intros H. unfold qf. apply rsum_ext. intros r Hr. apply rsum_ext. intros c Hc. auto. Qed.
Lemma qf_rank1 n A u v x : qf n (fun r c => A r c - u r * v c) x = qf n A x - rsum n (fun r => x r * u r) * rsum n (fun c => v c * x c).
Proof.
  unfold qf. rewrite <- rsum_scal_r, <- rsum_sub. apply rsum_ext. intros r Hr. rewrite <- rsum_scal, <- rsum_sub. apply rsum_ext. intros; ring.
Qed.
Definition bump (x : nat -> R) p y := fun r => if (r =? p)%nat then y else x r.
Lemma rsum_bump n (f : nat -> R) p : (p < n)%nat -> rsum n f = rsum n (bump f p 0) + f p.
Proof.
  intros Hp. assert (rsum n (fun i => f i - bump f p 0 i) = f p).
  { rewrite (rsum_delta n p) by (auto; intros k Hk N; unfold bump; rewrite (proj2 (Nat.eqb_neq _ _)) by auto; lra).
    unfold bump. rewrite Nat.eqb_refl. lra. }
  rewrite rsum_sub in H. lra.
Qed.
Lemma qf_bump n A x p y : (p < n)%nat -> x p = 0 ->
  qf n A (bump x p y) = qf n A x + y * rsum n (fun c => A p c * x c) + y * rsum n (fun r => x r * A r p) + y * y * A p p.
Proof.
  intros Hp X0. unfold qf.
  assert (R1 : forall r, (r < n)%nat -> rsum n (fun c => bump x p y r * A r c * bump x p y c) = bump x p y r * rsum n (fun c => A r c * x c) + bump x p y r * A r p * y).
  { intros r Hr. rewrite (rsum_bump n _ p) by auto. f_equal.
    - rewrite <- rsum_scal. apply rsum_ext. intros c Hc. unfold bump. destruct (Nat.eqb_spec c p) as [->|]; [rewrite X0; ring|ring].
    - unfold bump. rewrite Nat.eqb_refl. auto. }
  rewrite (rsum_ext _ _ _ R1). rewrite rsum_add. rewrite (rsum_bump n _ p), (rsum_bump n (fun i => bump x p y i * A i p * y) p) by auto.
  assert (rsum n (bump (fun i => bump x p y i * rsum n (fun c => A i c * x c)) p 0) = rsum n (fun r => rsum n (fun c => x r * A r c * x c))) as ->.
  { apply rsum_ext. intros r Hr. unfold bump. destruct (Nat.eqb_spec r p) as [->|].
    - rewrite rsum_0; auto. intros. rewrite X0. ring.
    - rewrite <- rsum_scal. apply rsum_ext. intros; ring. }
  assert (rsum n (bump (fun i => bump x p y i * A i p * y) p 0) = y * rsum n (fun r => x r * A r p)) as ->.
  { rewrite <- rsum_scal. apply rsum_ext. intros r Hr. unfold bump. destruct (Nat.eqb_spec r p) as [->|]; [rewrite X0; ring|ring]. }
  unfold bump. rewrite Nat.eqb_refl. ring.
Qed.
Definition zerof : nat -> R := fun _ => 0.
Lemma qf_zero n A : qf n A zerof = 0.
Proof. unfold qf, zerof. apply rsum_0. intros. apply rsum_0. intros. ring. Qed.

Section Loops.
Variables (n i : nat) (idx : list nat).
Hypothesis P : perm n idx.
Hypothesis Hi : (i < n)%nat.
Implicit Types (m : fmat R).
Local Notation p := (pos idx i).
Lemma mset_pos m a b x : (a < n)%nat -> (b < n)%nat -> nr m = n -> nc m = n -> exists m', mset m (pos idx a) (pos idx b) x = Ok m' /\ nr m' = n /\ nc m' = n /\
  forall a' b', (a' < n)%nat -> (b' < n)%nat -> el m' (pos idx a') (pos idx b') = if (a' =? a)%nat && (b' =? b)%nat then x else el m (pos idx a') (pos idx b').
Proof.
  intros Ha Hb M1 M2. pose proof (perm_lt n idx a P Ha). pose proof (perm_lt n idx b P Hb). rewrite mset_ok by lia. eexists; split; [reflexivity|].
  cbn [nr nc el]. conjs; auto. intros a' b' Ha' Hb'.
  replace (pos idx a' =? pos idx a)%nat with (a' =? a)%nat.
  2:{ destruct (Nat.eqb_spec a' a) as [->|N]; [now rewrite Nat.eqb_refl|]. symmetry. apply Nat.eqb_neq. intros E. apply N. eapply perm_inj; eauto. }
  replace (pos idx b' =? pos idx b)%nat with (b' =? b)%nat; auto.
  destruct (Nat.eqb_spec b' b) as [->|N]; [now rewrite Nat.eqb_refl|]. symmetry. apply Nat.eqb_neq. intros E. apply N. eapply perm_inj; eauto.
Qed.
Lemma chol_scale m k : nr m = n -> nc m = n ->
  exists m', for_ (S i) n (fun j m => q <- get idx j ;; m <- mmod m p q (fun x => x * k) ;; mmod m q p (fun x => x * k)) m = Ok m' /\ nr m' = n /\ nc m' = n /\
   forall a b, (a < n)%nat -> (b < n)%nat -> el m' (pos idx a) (pos idx b) =
     if ((a =? i) && (i <? b) || (b =? i) && (i <? a))%nat then el m (pos idx a) (pos idx b) * k else el m (pos idx a) (pos idx b).
Proof.
  intros M1 M2. match goal with |- context [for_ ?lo ?hi ?f m] =>
   destruct (for_inv (fun t m' => nr m' = n /\ nc m' = n /\ forall a b, (a < n)%nat -> (b < n)%nat -> el m' (pos idx a) (pos idx b) =
     if ((a =? i) && (i <? b) && (b <? t) || (b =? i) && (i <? a) && (a <? t))%nat then el m (pos idx a) (pos idx b) * k else el m (pos idx a) (pos idx b)) lo hi f m) as (m' & E & D1 & D2 & D3) end.
  - lia.
  - conjs; auto. intros. nbp.
  - intros j m' Hj (D1 & D2 & D3). rewrite (perm_get n) by (auto; lia). cbn [bind].
    pose proof (perm_lt n idx i P Hi). pose proof (perm_lt n idx j P ltac:(lia)). rewrite mmod_ok by lia.
    destruct (mset_pos m' i j (el m' p (pos idx j) * k)) as (m1 & E1 & F1 & F2 & F3); auto; try lia. rewrite E1. cbn [bind]. rewrite mmod_ok by lia.
    destruct (mset_pos m1 j i (el m1 (pos idx j) p * k)) as (m2 & E2 & G1 & G2 & G3); auto; try lia. exists m2. split; auto. conjs; auto.
    intros a b Ha Hb. rewrite G3, !F3 by (auto; lia). rewrite !D3 by (auto; lia). nbp.
  - exists m'. split; auto. conjs; auto. intros a b Ha Hb. rewrite D3 by auto. nbp.
Qed.
Lemma chol_update m : nr m = n -> nc m = n ->
  exists m', for_ (S i) n (fun j m => for_ (S i) n (fun k m =>
               qj <- get idx j ;; qk <- get idx k ;;
               x <- mget m qj p ;; y <- mget m p qk ;; mmod m qj qk (fun z => z - x * y)) m) m = Ok m' /\ nr m' = n /\ nc m' = n /\
   forall a b, (a < n)%nat -> (b < n)%nat -> el m' (pos idx a) (pos idx b) =
     if ((i <? a) && (i <? b))%nat then el m (pos idx a) (pos idx b) - el m (pos idx a) p * el m p (pos idx b) else el m (pos idx a) (pos idx b).
Proof.
  intros M1 M2. match goal with |- context [for_ ?lo ?hi ?f m] =>
   destruct (for_inv (fun t m' => nr m' = n /\ nc m' = n /\ forall a b, (a < n)%nat -> (b < n)%nat -> el m' (pos idx a) (pos idx b) =
     if ((i <? a) && (a <? t) && (i <? b))%nat then el m (pos idx a) (pos idx b) - el m (pos idx a) p * el m p (pos idx b) else el m (pos idx a) (pos idx b)) lo hi f m) as (m' & E & D1 & D2 & D3) end.
  - lia.
  - conjs; auto. intros. nbp.
  - intros j m1 Hj (D1 & D2 & D3).
    match goal with |- context [for_ ?lo ?hi ?f m1] =>
     destruct (for_inv (fun t m' => nr m' = n /\ nc m' = n /\ forall a b, (a < n)%nat -> (b < n)%nat -> el m' (pos idx a) (pos idx b) =
     if ((a =? j) && (i <? b) && (b <? t))%nat then el m (pos idx a) (pos idx b) - el m (pos idx a) p * el m p (pos idx b) else el m1 (pos idx a) (pos idx b)) lo hi f m1) as (m' & E & F1 & F2 & F3) end.
    + lia.
    + conjs; auto. intros. nbp.
    + intros k m2 Hk (F1 & F2 & F3). rewrite !(perm_get n) by (auto; lia). cbn [bind].
      pose proof (perm_lt n idx i P Hi). pose proof (perm_lt n idx j P ltac:(lia)). pose proof (perm_lt n idx k P ltac:(lia)).
      rewrite !mget_ok by lia. cbn [bind]. rewrite mmod_ok by lia.
      match goal with |- context [mset m2 _ _ ?z] => destruct (mset_pos m2 j k z) as (m3 & E3 & G1 & G2 & G3) end; auto; try lia.
      exists m3. split; auto. conjs; auto. intros a b Ha Hb. rewrite G3 by auto. rewrite !F3 by (auto; lia). rewrite !D3 by (auto; lia). rs. nbp.
    + exists m'. split; auto. conjs; auto. intros a b Ha Hb. rewrite F3, D3 by auto. nbp.
  - exists m'. split; auto. conjs; auto. intros a b Ha Hb. rewrite D3 by auto. nbp.
Qed.
End Loops.

Section Chol.
Variables (tol : R) (n : nat) (M : nat -> nat -> R).
Hypothesis Ht : 0 <= tol.
Hypothesis MS : forall r c, (r < n)%nat -> (c < n)%nat -> M r c = M c r.
Implicit Types (m : fmat R).
Local Notation V m idx a b := (el m (pos idx a) (pos idx b)).
Definition Lf m idx a t := if (t <=? a)%nat then V m idx a t else 0.
(** positive semidefinite on the rows not done yet *)
Definition psdi i m idx : Prop := forall x, (forall t, (t < i)%nat -> x (pos idx t) = 0) -> 0 <= qf n (el m) x.
Record cinv i m idx rank (E : nat -> nat -> R) : Prop := {
  ci_p : perm n idx; ci_d : nr m = n /\ nc m = n; ci_r : (rank <= i)%nat;
  ci_s : forall a b, (a < n)%nat -> (b < n)%nat -> V m idx a b = V m idx b a;
  ci_M : forall a b, (a < n)%nat -> (b < n)%nat ->
     M (pos idx a) (pos idx b) = (if ((i <=? a) && (i <=? b))%nat then V m idx a b else 0) + rsum i (fun t => Lf m idx a t * Lf m idx b t) + E (pos idx a) (pos idx b);
  ci_E0 : forall a b, (i <= a < n)%nat -> (i <= b < n)%nat -> E (pos idx a) (pos idx b) = 0;
  ci_Er : rank = i -> forall r c, E r c = 0;
  ci_dg : (rank < i)%nat -> forall a, (i <= a < n)%nat -> Rabs (V m idx a a) <= tol;
  ci_ps : (forall x, 0 <= qf n M x) -> psdi i m idx /\ (tol <= 1 -> forall r c, (r < n)%nat -> (c < n)%nat -> Rabs (E r c) <= tol) }.

Lemma cinv_swap i m idx idx' pi rank E : perm n idx' -> (i <= pi < n)%nat -> swapped idx idx' i pi -> cinv i m idx rank E -> cinv i m idx' rank E.
Proof.
  intros P' Hpi Sw [Ip Id Ir Is IM IE IEr Ig Ips].
  assert (GE : forall j, (j < n)%nat -> exists j', (j' < n)%nat /\ pos idx' j = pos idx j' /\ ((i <=? j) = (i <=? j'))%nat /\ ((j < i)%nat -> j' = j) /\ ((i <= j)%nat -> (i <= j')%nat)).
  { intros j Hj. destruct (le_lt_dec i j).
    - destruct (swapped_ge n idx idx' i pi j) as (j' & Hj' & ->); auto. exists j'. conjs; try lia; nbp.
    - exists j. rewrite (swapped_lt idx idx' i pi) by (auto; lia). conjs; auto; lia. }
  assert (LT : forall t, (t < i)%nat -> pos idx' t = pos idx t) by (intros; apply (swapped_lt idx idx' i pi); auto; lia).
  constructor; auto.
  - intros a b Ha Hb. destruct (GE a Ha) as (a' & Ha' & -> & _). destruct (GE b Hb) as (b' & Hb' & -> & _). auto.
  - intros a b Ha Hb. destruct (GE a Ha) as (a' & Ha' & Ea & -> & A1 & A2). destruct (GE b Hb) as (b' & Hb' & Eb & -> & B1 & B2). rewrite Ea, Eb. rewrite IM by auto.
    f_equal. f_equal. apply rsum_ext. intros t Hlt. unfold Lf. rewrite Ea, Eb, LT by auto.
    replace (t <=? a)%nat with (t <=? a')%nat by (destruct (le_lt_dec i a); [specialize (A2 ltac:(auto)); nbp|rewrite A1 by auto; auto]).
    replace (t <=? b)%nat with (t <=? b')%nat by (destruct (le_lt_dec i b); [specialize (B2 ltac:(auto)); nbp|rewrite B1 by auto; auto]). auto.
  - intros a b Ha Hb. destruct (GE a) as (a' & Ha' & -> & _ & _ & A2); [lia|]. destruct (GE b) as (b' & Hb' & -> & _ & _ & B2); [lia|]. apply IE; lia.
  - intros Hr a Ha. destruct (GE a) as (a' & Ha' & -> & _ & _ & A2); [lia|]. apply Ig; auto; lia.
  - intros Hp. destruct (Ips Hp) as (Q1 & Q2). split; auto. intros x Hx. apply Q1. intros t Hlt. rewrite <- LT by auto. auto.
Qed.

Definition chol_body i (st : fmat R * list nat * nat) : res ((fmat R * list nat * nat) + unit) :=
      let '(m, idx, rank) := st in
      idx <- zMatPivotingDiag m idx i ;;
      p <- get idx i ;;
      d <- mget m p p ;;
      let step := fun m (k : R) (rank : nat) =>
        m <- for_ (S i) n (fun j m => q <- get idx j ;; m <- mmod m p q (fun x => x * k) ;; mmod m q p (fun x => x * k)) m ;;
        m <- for_ (S i) n (fun j m => for_ (S i) n (fun k m =>
               qj <- get idx j ;; qk <- get idx k ;;
               x <- mget m qj p ;; y <- mget m p qk ;; mmod m qj qk (fun z => z - x * y)) m) m ;;
        Ok (inl (m, idx, rank)) in
      if is_tol tol d then step m 0 rank
      else if Rltb d 0 then Ok (inr tt)
      else m <- mset m p p (R_sqrt.sqrt d) ;; step m (1 / R_sqrt.sqrt d) (S rank).

Lemma psdi_diag i m idx a : perm n idx -> psdi i m idx -> (i <= a < n)%nat -> 0 <= V m idx a a.
Proof.
  intros P H Ha. specialize (H (bump zerof (pos idx a) 1)). pose proof (perm_lt n idx a P ltac:(lia)).
  rewrite qf_bump in H by (auto; unfold zerof; auto). rewrite qf_zero, !rsum_0 in H by (intros; unfold zerof; ring).
  replace (V m idx a a) with (0 + 1 * 0 + 1 * 0 + 1 * 1 * V m idx a a) by ring. apply H. intros t Hlt. unfold bump, zerof.
  destruct (Nat.eqb_spec (pos idx t) (pos idx a)) as [E|]; auto. apply (perm_inj n) in E; auto; lia.
Qed.
Lemma psdi_off i m idx a b : perm n idx -> psdi i m idx -> (i <= a < n)%nat -> (i <= b < n)%nat -> a <> b -> V m idx a b = V m idx b a ->
  Rabs (V m idx a b) <= (V m idx a a + V m idx b b) / 2.
Proof.
  intros P H Ha Hb N Sy. pose proof (perm_lt n idx a P ltac:(lia)). pose proof (perm_lt n idx b P ltac:(lia)).
  assert (N' : pos idx a <> pos idx b) by (intros E; apply N; eapply perm_inj; eauto; lia).
  assert (forall y, 0 <= V m idx b b + y * V m idx a b + y * V m idx b a + y * y * V m idx a a) as G.
  { intros y. specialize (H (bump (bump zerof (pos idx b) 1) (pos idx a) y)).
    assert (Z : bump zerof (pos idx b) 1 (pos idx a) = 0) by (unfold bump; rewrite (proj2 (Nat.eqb_neq _ _)) by auto; auto).
    rewrite qf_bump in H by auto. rewrite qf_bump in H by (auto; unfold zerof; auto).
    rewrite qf_zero in H. rewrite (rsum_0 n (fun c => el m (pos idx b) c * zerof c)), (rsum_0 n (fun r => zerof r * el m r (pos idx b))) in H by (intros; unfold zerof; ring).
    rewrite (rsum_delta n (pos idx b)) in H; auto.
    2:{ intros k Hk Nk. unfold bump. rewrite (proj2 (Nat.eqb_neq _ _)) by auto. unfold zerof. ring. }
    rewrite (rsum_delta n (pos idx b)) in H; auto.
    2:{ intros k Hk Nk. unfold bump. rewrite (proj2 (Nat.eqb_neq _ _)) by auto. unfold zerof. ring. }
    replace (bump zerof (pos idx b) 1 (pos idx b)) with 1 in H by (unfold bump; now rewrite Nat.eqb_refl).
    apply Rle_trans with (1 := H ltac:(intros t Hlt; unfold bump, zerof;
      destruct (Nat.eqb_spec (pos idx t) (pos idx a)) as [E|]; [apply (perm_inj n) in E; auto; lia|];
      destruct (Nat.eqb_spec (pos idx t) (pos idx b)) as [E|]; [apply (perm_inj n) in E; auto; lia|]; auto)). lra. }
  pose proof (G 1). pose proof (G (-1)). apply Rabs_le. lra.
Qed.

Lemma chol_body_ok i m idx rank E : (i < n)%nat -> cinv i m idx rank E ->
  exists o, chol_body i (m, idx, rank) = Ok o /\
   match o with inl (m', idx', rank') => exists E', cinv (S i) m' idx' rank' E' | inr _ => ~ (forall x, 0 <= qf n M x) end.
Proof.
  intros Hi I0. destruct (ci_d _ _ _ _ _ I0) as (M1 & M2). pose proof (ci_p _ _ _ _ _ I0) as P0.
  unfold chol_body. destruct (zMatPivotingDiag_ok m n idx i) as (idx' & pi & EP & P & Hpi & Sw & Mx); auto; try lia.
  rewrite EP. cbn [bind]. apply (cinv_swap i m idx idx' pi) in I0; auto. clear EP Sw Hpi P0 idx pi. rename idx' into idx.
  pose proof I0 as [_ _ Ir Is IM IE IEr Ig Ips]. rewrite (perm_get n) by auto. cbn [bind]. pose proof (perm_lt n idx i P Hi) as Hp. rewrite mget_ok by lia. cbn [bind].
  set (d := V m idx i i) in *. cbv zeta. rewrite is_tol_R.
  (* the common tail *)
  assert (ST : forall m0 k, nr m0 = n -> nc m0 = n -> exists m', (forall (F : fmat R -> res ((fmat R * list nat * nat) + unit)), bind (for_ (S i) n (fun j m => q <- get idx j ;; m <- mmod m (pos idx i) q (fun x => x * k) ;; mmod m q (pos idx i) (fun x => x * k)) m0)
      (fun m => bind (for_ (S i) n (fun j m => for_ (S i) n (fun k m =>
               qj <- get idx j ;; qk <- get idx k ;;
               x <- mget m qj (pos idx i) ;; y <- mget m (pos idx i) qk ;; mmod m qj qk (fun z => z - x * y)) m) m) F) = F m') /\ nr m' = n /\ nc m' = n /\
      forall a b, (a < n)%nat -> (b < n)%nat -> V m' idx a b = if ((i <? a) && (i <? b))%nat then V m0 idx a b - (V m0 idx a i * k) * (V m0 idx i b * k)
        else if ((a =? i) && (i <? b) || (b =? i) && (i <? a))%nat then V m0 idx a b * k else V m0 idx a b).
  { intros m0 k N1 N2. destruct (chol_scale n i idx P Hi m0 k) as (m1 & E1 & A1 & A2 & A3); auto.
    destruct (chol_update n i idx P Hi m1) as (m2 & E2 & B1 & B2 & B3); auto.
    exists m2. split; [|conjs; auto].
    - intros F. rs. rewrite E1. cbn [bind]. rewrite E2. reflexivity.
    - intros a b Ha Hb. rewrite B3, !A3 by auto. nbp. }
  destruct (Rleb_spec (Rabs d) tol) as [Z|NZ].
  - destruct (ST m 0) as (m' & EF & D1 & D2 & D3); auto. rs. rewrite EF. clear EF ST. eexists; split; [reflexivity|]. cbn.
    assert (DG : forall a, (i <= a < n)%nat -> Rabs (V m idx a a) <= tol) by (intros a Ha; specialize (Mx a Ha); fold d in Mx; lra).
    exists (fun r c => if (done idx i r) || (done idx i c) then E r c else if (r =? pos idx i)%nat then if (c =? pos idx i)%nat then d - d * d else el m r c
                       else if (c =? pos idx i)%nat then el m r c else E r c).
    assert (DN : forall a, (a < n)%nat -> done idx i (pos idx a) = (a <? i)%nat) by (intros; eapply done_spec; eauto; lia).
    assert (PE : forall a, (a < n)%nat -> (pos idx a =? pos idx i)%nat = (a =? i)%nat).
    { intros a Ha. destruct (Nat.eqb_spec a i) as [->|N]; [apply Nat.eqb_refl|]. apply Nat.eqb_neq. intros E'. apply N. eapply perm_inj; eauto. }
    assert (LF : forall a t, (a < n)%nat -> (t < i)%nat -> Lf m' idx a t = Lf m idx a t).
    { intros a t Ha Hlt. unfold Lf. rewrite D3 by lia. nbp. }
    constructor; auto; try lia.
    + intros a b Ha Hb. rewrite !D3 by auto. pose proof (Is a b Ha Hb). nbp; lra.
    + intros a b Ha Hb. rewrite IM by auto. cbn [rsum].
      assert (rsum i (fun t => Lf m' idx a t * Lf m' idx b t) = rsum i (fun t => Lf m idx a t * Lf m idx b t)) as ->.
      { apply rsum_ext. intros t Hlt. now rewrite !LF by auto. }
      rewrite !DN, !PE by auto. unfold Lf. rewrite !D3 by auto. fold d.
      destruct (lt_eq_lt_dec a i) as [[A|A]|A], (lt_eq_lt_dec b i) as [[B|B]|B]; try subst a; try subst b; nbp; try lra.
      * rewrite (IE i i) by lia. fold d. lra.
      * rewrite (IE i b) by lia. lra.
      * rewrite (IE a i) by lia. lra.
    + intros a b Ha Hb. rewrite !DN, !PE by lia. nbp. apply IE; lia.
    + intros _ a Ha. rewrite D3 by lia. replace ((i <? a) && (i <? a))%nat with true by nbp. replace (_ - _) with (V m idx a a) by ring. apply DG. lia.
    + intros HP. destruct (Ips HP) as (Q1 & Q2). split.
      * intros x Hx. rewrite (qf_ext n (el m') (el m) x x).
        -- apply Q1. intros t Hlt. apply Hx. lia.
        -- intros r c Hr Hc. destruct (perm_onto n idx r P Hr) as (a & Ha & <-). destruct (perm_onto n idx c P Hc) as (b & Hb & <-).
           destruct (le_lt_dec a i); [rewrite (Hx a) by lia; ring|]. destruct (le_lt_dec b i); [rewrite (Hx b) by lia; ring|].
           rewrite D3 by auto. replace ((i <? a) && (i <? b))%nat with true by nbp. ring.
      * intros T1 r c Hr Hc. destruct (perm_onto n idx r P Hr) as (a & Ha & <-). destruct (perm_onto n idx c P Hc) as (b & Hb & <-).
        rewrite !DN, !PE by auto.
        assert (forall a b, (i <= a < n)%nat -> (i <= b < n)%nat -> a <> b -> Rabs (V m idx a b) <= tol) as OFF.
        { intros a' b' Ha' Hb' N. apply Rle_trans with (1 := psdi_off i m idx a' b' P Q1 Ha' Hb' N (Is a' b' ltac:(lia) ltac:(lia))).
          pose proof (DG a' Ha'). pose proof (DG b' Hb'). pose proof (Rle_abs (V m idx a' a')). pose proof (Rle_abs (V m idx b' b')). lra. }
        nbp; cbn [orb]; try (apply Q2; auto; lia); try (apply OFF; lia).
        pose proof (psdi_diag i m idx i P Q1 ltac:(lia)) as Pd. fold d in Pd. rewrite Rabs_pos_eq in Z by auto.
        rewrite Rabs_pos_eq; [nra|]. assert (d <= 1) by lra. nra.
  - destruct (Rltb_spec d 0) as [Neg|Pos].
    + eexists; split; [reflexivity|]. cbn. intros HP. destruct (Ips HP) as (Q1 & _). pose proof (psdi_diag i m idx i P Q1 ltac:(lia)) as Pd. fold d in Pd. lra.
    + assert (D0 : 0 < d). { destruct (Req_dec d 0) as [->|]; [rewrite Rabs_R0 in NZ; lra|lra]. }
      assert (RE : (rank < i)%nat -> False). { intros H. specialize (Ig H i ltac:(lia)). fold d in Ig. lra. }
      assert (rank = i) by lia. subst rank. specialize (IEr eq_refl).
      destruct (mset_pos n i idx P Hi m i i (R_sqrt.sqrt d)) as (m0 & E0 & F1 & F2 & F3); auto. rewrite E0. cbn [bind].
      destruct (ST m0 (1 / R_sqrt.sqrt d)) as (m' & EF & D1 & D2 & D3); auto. rs. rewrite EF. clear EF ST. eexists; split; [reflexivity|]. cbn.
      assert (SQ : R_sqrt.sqrt d * R_sqrt.sqrt d = d) by (apply sqrt_sqrt; lra). assert (S0 : 0 < R_sqrt.sqrt d) by (apply sqrt_lt_R0; auto).
      set (s := R_sqrt.sqrt d) in *.
      assert (D4 : forall a b, (a < n)%nat -> (b < n)%nat -> V m' idx a b = if ((i <? a) && (i <? b))%nat then V m idx a b - V m idx a i * V m idx i b / d
         else if ((a =? i) && (i <? b) || (b =? i) && (i <? a))%nat then V m idx a b / s else if ((a =? i) && (b =? i))%nat then s else V m idx a b).
      { intros a b Ha Hb. rewrite D3, !F3 by auto. replace ((a =? i) && (i =? i))%nat with (a =? i)%nat by nbp. replace ((i =? i) && (b =? i))%nat with (b =? i)%nat by nbp.
        nbp; first [rewrite <- SQ; field; lra | field; lra]. }
      clear D3. assert (LF : forall a t, (a < n)%nat -> (t < i)%nat -> Lf m' idx a t = Lf m idx a t).
      { intros a t Ha Hlt. unfold Lf. rewrite D4 by lia. nbp. }
      exists E. constructor; auto; try lia.
      * intros a b Ha Hb. rewrite !D4 by auto. pose proof (Is a b Ha Hb). pose proof (Is a i Ha Hi). pose proof (Is i b Hi Hb). nbp; first [rewrite H, H0, H1; lra | rewrite H; lra].
      * intros a b Ha Hb. rewrite IM by auto. cbn [rsum]. rewrite IEr.
        assert (rsum i (fun t => Lf m' idx a t * Lf m' idx b t) = rsum i (fun t => Lf m idx a t * Lf m idx b t)) as ->.
        { apply rsum_ext. intros t Hlt. now rewrite !LF by auto. }
        generalize (rsum i (fun t => Lf m idx a t * Lf m idx b t)). intros SS. unfold Lf. rewrite !D4 by auto. pose proof (Is i b Hi Hb) as Sb.
        assert (DD : forall u v, u / s * (v / s) = u * v / d) by (intros; rewrite <- SQ; field; lra).
        destruct (lt_eq_lt_dec a i) as [[A|A]|A], (lt_eq_lt_dec b i) as [[B|B]|B]; try subst a; try subst b; nbp; try lra.
        all: first [ fold d; rewrite SQ; lra | rewrite DD, <- Sb; lra | replace (V m idx a i / s * s) with (V m idx a i) by (field; lra); lra
                   | rewrite <- Sb; replace (s * (V m idx i b / s)) with (V m idx i b) by (field; lra); lra ].
      * intros HP. destruct (Ips HP) as (Q1 & Q2). split; auto. intros x Hx.
        assert (X0 : x (pos idx i) = 0) by (apply Hx; lia).
        set (y := - rsum n (fun c => el m (pos idx i) c * x c) / d).
        assert (SY : rsum n (fun r => x r * el m r (pos idx i)) = rsum n (fun c => el m (pos idx i) c * x c)).
        { apply rsum_ext. intros r Hr. destruct (perm_onto n idx r P Hr) as (a & Ha & <-). rewrite (Is a i) by auto. ring. }
        replace (qf n (el m') x) with (qf n (el m) (bump x (pos idx i) y)).
        { apply Q1. intros t Hlt. unfold bump. destruct (Nat.eqb_spec (pos idx t) (pos idx i)) as [E'|]; [|apply Hx; lia]. apply (perm_inj n) in E'; auto; lia. }
        rewrite qf_bump by auto. rewrite SY. fold d.
        rewrite (qf_ext n (el m') (fun r c => el m r c - (el m r (pos idx i)) * (el m (pos idx i) c / d)) x x).
        -- rewrite qf_rank1, SY. replace (rsum n (fun c => el m (pos idx i) c / d * x c)) with (rsum n (fun c => el m (pos idx i) c * x c) / d).
           2:{ unfold Rdiv. rewrite <- rsum_scal_r. apply rsum_ext. intros; ring. }
           unfold y. field. lra.
        -- intros r c Hr Hc. destruct (perm_onto n idx r P Hr) as (a & Ha & <-). destruct (perm_onto n idx c P Hc) as (b & Hb & <-).
           destruct (le_lt_dec a i); [rewrite (Hx a) by lia; ring|]. destruct (le_lt_dec b i); [rewrite (Hx b) by lia; ring|].
           rewrite D4 by auto. replace ((i <? a) && (i <? b))%nat with true by nbp. field. lra.
Qed.
End Chol.

Lemma chol_out n idx (m l : fmat R) : perm n idx -> nr m = n -> nc m = n -> nr l = n -> nc l = n ->
  exists l', for_ 0 n (fun i l => for_ 0 (S i) (fun j l =>
               qi <- get idx i ;; qj <- get idx j ;; x <- mget m qi qj ;; mset l qi j x) l) (zmat (nr l) (nc l)) = Ok l' /\ nr l' = n /\ nc l' = n /\
   forall a t, (a < n)%nat -> el l' (pos idx a) t = if (t <=? a)%nat then el m (pos idx a) (pos idx t) else 0.
Proof.
  intros P M1 M2 L1 L2. match goal with |- context [for_ ?lo ?hi ?f ?s00] =>
   destruct (for_inv (fun k l' => nr l' = n /\ nc l' = n /\ forall a t, (a < n)%nat -> el l' (pos idx a) t = if (t <=? a)%nat && (a <? k)%nat then el m (pos idx a) (pos idx t) else 0) lo hi f s00) as (l' & E & D1 & D2 & D3) end.
  - lia.
  - cbn. conjs; auto. intros; nbp.
  - intros i l1 Hi (D1 & D2 & D3). pose proof (perm_lt n idx i P ltac:(lia)).
    match goal with |- context [for_ ?lo ?hi ?f l1] => destruct (row_loop l1 (pos idx i) lo hi f (fun j => el m (pos idx i) (pos idx j))) as (l2 & E2 & F1 & F2 & F3) end; try lia.
    { intros j l2 Hj _ _ _. rewrite !(perm_get n) by (auto; lia). cbn [bind]. pose proof (perm_lt n idx j P ltac:(lia)). rewrite mget_ok by lia. reflexivity. }
    exists l2. split; auto. conjs; try lia. intros a t Ha. rewrite F3, D3 by auto.
    destruct (Nat.eqb_spec (pos idx a) (pos idx i)) as [E'|N].
    + apply (perm_inj n) in E'; auto; try lia. subst a. nbp.
    + destruct (Nat.eq_dec a i) as [->|]; [congruence|]. nbp.
  - exists l'. split; auto. conjs; auto. intros a t Ha. rewrite D3 by auto. nbp.
Qed.

Theorem chol_ok tol n (m l : fmat R) idx : 0 <= tol -> perm n idx -> nr m = n -> nc m = n -> nr l = n -> nc l = n ->
  (forall r c, (r < n)%nat -> (c < n)%nat -> el m r c = el m c r) ->
  exists o, zMatDecompCholeskyDST tol m l idx = Ok o /\
   match o with
   | None => ~ (forall x, 0 <= qf n (el m) x)
   | Some (l', idx', rank) => perm n idx' /\ (rank <= n)%nat /\ nr l' = n /\ nc l' = n /\
      (forall a t, (a < n)%nat -> (a < t)%nat -> el l' (pos idx' a) t = 0) /\
      exists E, (forall r c, (r < n)%nat -> (c < n)%nat -> el m r c = rsum n (fun t => el l' r t * el l' c t) + E r c) /\
        (rank = n -> forall r c, E r c = 0) /\
        ((forall x, 0 <= qf n (el m) x) -> tol <= 1 -> forall r c, (r < n)%nat -> (c < n)%nat -> Rabs (E r c) <= tol)
   end.
Proof.
  intros Ht P M1 M2 L1 L2 Sy. unfold zMatDecompCholeskyDST. rewrite (proj1 P).
  match goal with |- context [forb ?lo ?hi ?f ?s00] => destruct (forb_inv (fun k st => let '(m', idx', rank') := st in exists E, cinv tol n (el m) k m' idx' rank' E)
     (fun _ => ~ (forall x, 0 <= qf n (el m) x)) lo hi f s00) as (o & EO & HO) end.
  - lia.
  - exists (fun _ _ => 0). constructor; auto; try lia.
    + intros a b Ha Hb. apply Sy; eapply perm_lt; eauto.
    + intros a b Ha Hb. cbn. lra.
    + intros HP. split; auto.
      * intros x Hx. auto.
      * intros. rewrite Rabs_R0. auto.
  - intros k [[m' idx'] rank'] Hk (E & I). apply (chol_body_ok tol n (el m) Ht Sy k m' idx' rank' E); auto. lia.
  - rewrite EO. cbn [bind]. destruct o as [[[m' idx'] rank']|[]].
    + destruct HO as (E & [Ip Id Ir Is IM IE IEr Ig Ips]). destruct (chol_out n idx' m' l) as (l' & El & D1 & D2 & D3); auto; try apply Id. rs. rewrite El. cbn [bind].
      eexists; split; [reflexivity|]. cbn. conjs; auto.
      * intros a t Ha Hat. rewrite D3 by auto. nbp.
      * exists E. conjs; auto.
        -- intros r c Hr Hc. destruct (perm_onto n idx' r Ip Hr) as (a & Ha & <-). destruct (perm_onto n idx' c Ip Hc) as (b & Hb & <-).
           rewrite IM by auto. replace ((n <=? a) && (n <=? b))%nat with false by nbp. rewrite Rplus_0_l. f_equal. apply rsum_ext. intros t Hlt. rewrite !D3 by auto. reflexivity.
        -- intros HP. destruct (Ips HP); auto.
    + eexists; split; [reflexivity|]. auto.
Qed.
