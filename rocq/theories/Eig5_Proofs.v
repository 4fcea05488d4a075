(** More vectors than dimensions; the singular value decomposition. *)
From Coq Require Import Reals Lra Lia Psatz.
From Verif Require Import Prelude Prelude_Proofs Scalar RealLib Fmat Fmat_Proofs LE_Model IP_Model Vop Qp_Spec Qp_Proofs
  Stat_Model Stat_Proofs Eig_Model Eig_Spec Eig_Proofs Eig2_Proofs Eig3_Proofs Eig4_Proofs.
Local Open Scope R_scope.

Lemma some_or_none M (f : nat -> R) : (forall a, (a < M)%nat -> f a = 0) \/ exists a, (a < M)%nat /\ f a <> 0.
Proof.
  induction M as [|M [IH|(a & Ha & E)]]; [left; intros; lia| |right; exists a; split; [lia|auto]].
  destruct (Req_dec (f M) 0) as [E|E]; [left|right; exists M; split; auto].
  intros a Ha. destruct (Nat.eq_dec a M) as [->|]; auto. apply IH. lia.
Qed.
Lemma largest M (f : nat -> R) : exists b, (b < S M)%nat /\ forall a, (a < S M)%nat -> f a <= f b.
Proof.
  induction M as [|M (b & Hb & IH)]; [exists O; split; [lia|]; intros a Ha; replace a with O by lia; lra|].
  destruct (Rle_dec (f (S M)) (f b)) as [L|L].
  - exists b. split; [lia|]. intros a Ha. destruct (Nat.eq_dec a (S M)) as [->|]; auto. apply IH. lia.
  - exists (S M). split; [lia|]. intros a Ha. destruct (Nat.eq_dec a (S M)) as [->|]; [lra|]. specialize (IH a ltac:(lia)). lra.
Qed.
Lemma tau_tau a b k : tau a b (tau a b k) = k.
Proof.
  unfold tau. destruct (Nat.eqb_spec k a); [subst|destruct (Nat.eqb_spec k b); [subst|]]; nbp.
Qed.
Lemma rsum_pick n b f : (b < n)%nat -> rsum n f = f b + rsum n (fun a => if (a =? b)%nat then 0 else f a).
Proof.
  intros H. rewrite (rsum_ext n f (fun a => (if (a =? b)%nat then f a else 0) + (if (a =? b)%nat then 0 else f a))) by (intros; destruct (_ =? _)%nat; ring).
  rewrite rsum_add. f_equal. rewrite (rsum_delta n b); auto; [rewrite Nat.eqb_refl; reflexivity|]. intros i _ N. nbp.
Qed.
(** N+1 vectors of dimension N are dependent *)
Lemma dependent N : forall y : nat -> nat -> R, exists c, (exists a, (a < S N)%nat /\ c a <> 0) /\
  forall k, (k < N)%nat -> rsum (S N) (fun a => c a * y a k) = 0.
Proof.
  induction N as [|N IH]; intros y.
  - exists (fun _ => 1). split; [exists O; split; [lia|lra]|intros; lia].
  - destruct (some_or_none (S (S N)) (fun a => y a N)) as [Z|(q & Hq & P)].
    + destruct (IH y) as (c & (a & Ha & Ca) & H). exists (fun a => if (a <? S N)%nat then c a else 0). split.
      * exists a. split; [lia|]. nbp.
      * intros k Hk. change (rsum (S (S N)) ?f) with (rsum (S N) f + f (S N)). cbv beta. rewrite Nat.ltb_irrefl.
        rewrite (rsum_ext (S N) _ (fun a => c a * y a k)) by (intros; nbp).
        destruct (Nat.eq_dec k N) as [->|]; [|rewrite H by lia; ring].
        rewrite rsum_0; [ring|]. intros i Hi. rewrite Z by lia. ring.
    + set (y' := fun a => y (tau q (S N) a)). set (pv := y q N) in *.
      destruct (IH (fun a k => y' a k - (y' a N / pv) * y q k)) as (c & (a & Ha & Ca) & H).
      set (d := fun a => if (a <? S N)%nat then c a else - rsum (S N) (fun a => c a * (y' a N / pv))).
      exists (fun a => d (tau q (S N) a)). split.
      * exists (tau q (S N) a). split; [apply tau_lt; lia|]. rewrite tau_tau. unfold d. nbp.
      * intros k Hk.
        rewrite (rsum_ext (S (S N)) _ (fun a => (fun a => d a * y' a k) (tau q (S N) a)))
          by (intros b Hb; unfold y'; rewrite tau_tau; reflexivity).
        rewrite (rsum_tau q (S N) (S (S N)) (fun a => d a * y' a k)) by lia.
        change (rsum (S (S N)) ?f) with (rsum (S N) f + f (S N)). cbv beta.
        assert (D1 : d (S N) = - rsum (S N) (fun a => c a * (y' a N / pv))) by (unfold d; rewrite Nat.ltb_irrefl; reflexivity).
        assert (Y1 : y' (S N) = y q) by (unfold y', tau; rewrite Nat.eqb_refl; destruct (Nat.eqb_spec (S N) q); subst; reflexivity).
        rewrite D1, Y1, (rsum_ext (S N) _ (fun a => c a * y' a k)) by (intros; unfold d; nbp).
        destruct (Nat.eq_dec k N) as [->|].
        -- fold pv. rewrite <- Ropp_mult_distr_l, <- rsum_scal_r. rewrite <- (Rplus_opp_r (rsum (S N) (fun a => c a * y' a N))).
           f_equal. f_equal. apply rsum_ext. intros. field. exact P.
        -- rewrite <- (H k) by lia. rewrite <- Ropp_mult_distr_l, <- rsum_scal_r.
           fold (Rminus (rsum (S N) (fun a => c a * y' a k)) (rsum (S N) (fun i => c i * (y' i N / pv) * y q k))).
           rewrite <- rsum_sub. apply rsum_ext. intros; ring.
Qed.
(** among p+1 vectors of dimension p, nearly orthogonal to each other, one is nearly zero *)
Lemma gram_small p Y tol : 0 <= tol ->
  (forall a b, (a < S p)%nat -> (b < S p)%nat -> a <> b -> Rabs (rdot p Y a b) <= tol) ->
  exists b, (b < S p)%nat /\ rdot p Y b b <= INR p * tol.
Proof.
  intros Ht H. destruct (dependent p Y) as (c & (a0 & Ha0 & Ca) & D).
  destruct (largest p (fun a => Rabs (c a))) as (b & Hb & L). exists b. split; [auto|].
  assert (CP : 0 < Rabs (c b)) by (apply Rlt_le_trans with (Rabs (c a0)); [apply Rabs_pos_lt; auto|apply L; auto]).
  assert (S0 : rsum (S p) (fun a => c a * rdot p Y a b) = 0).
  { unfold rdot. rewrite (rsum_ext (S p) _ (fun a => rsum p (fun k => c a * Y a k * Y b k))).
    - rewrite rsum_swap. apply rsum_0. intros k Hk. rewrite rsum_scal_r, D by auto. ring.
    - intros a Ha. rewrite <- rsum_scal. apply rsum_ext. intros; ring. }
  set (X := Rabs (c b) * tol).
  assert (A : rsum (S p) (fun a => if (a =? b)%nat then 0 else Rabs (c a * rdot p Y a b)) <= INR p * X).
  { apply Rle_trans with (rsum (S p) (fun a => if (a =? b)%nat then 0 else X)).
    - apply rsum_le. intros a Ha. destruct (Nat.eqb_spec a b); [lra|]. rewrite Rabs_mult. apply Rmult_le_compat; try apply Rabs_pos; auto.
    - pose proof (rsum_pick (S p) b (fun _ => X) Hb) as Q. rewrite rsum_const, S_INR in Q. lra. }
  rewrite (rsum_pick (S p) b) in S0 by auto. cbv beta in S0.
  assert (B : - rsum (S p) (fun a => if (a =? b)%nat then 0 else Rabs (c a * rdot p Y a b)) <=
              rsum (S p) (fun a => if (a =? b)%nat then 0 else c a * rdot p Y a b) <=
              rsum (S p) (fun a => if (a =? b)%nat then 0 else Rabs (c a * rdot p Y a b))).
  { rewrite <- rsum_opp. split; apply rsum_le; intros a Ha; destruct (a =? b)%nat; try lra;
      pose proof (Rle_abs (c a * rdot p Y a b)); pose proof (Rle_abs (- (c a * rdot p Y a b))); rewrite Rabs_Ropp in *; lra. }
  assert (G : Rabs (c b * rdot p Y b b) <= INR p * X) by (apply Rabs_le; lra).
  rewrite Rabs_mult in G. unfold X in G.
  assert (GP : 0 <= rdot p Y b b) by (apply rsum_nonneg; intros; nra).
  rewrite (Rabs_right (rdot p Y b b)) in G by lra. apply Rmult_le_reg_l with (Rabs (c b)); [auto|]. lra.
Qed.

Section SVD.
  Variables (n p : nat) (m : fmat R).
  Hypotheses (Rm : nr m = n) (Cm : nc m = p).
  Variables (tol svdtol : R).
  Hypotheses (Ht : 0 <= tol) (Hs : 0 <= svdtol).
  Notation G := (fun U a b => rdot p (pr n m U) a b).

  Lemma svd_ok maxit u sv v : (2 <= n)%nat -> nr u = n -> nc u = n -> vlen sv = n -> (Nat.min n p <= nr v)%nat -> nc v = p ->
    exists r u' sv' v', zMatSVD tol maxit svdtol m u sv v = Ok (r, u', sv', v') /\
      (r <= Nat.min n p)%nat /\ nr u' = n /\ nc u' = n /\ orthogonal n (el u') /\ vlen sv' = n /\
      (forall k, (k < r)%nat -> 0 < vel sv' k /\ svdtol < vel sv' k ^ 2) /\
      (forall k l, (k < l)%nat -> (l < r)%nat -> vel sv' l <= vel sv' k) /\
      (forall k, (r <= k < n)%nat -> vel sv' k = 0) /\
      ((0 < r)%nat -> nr v' = r /\ nc v' = p) /\ (r = O -> v' = v) /\
      (forall a k, (a < r)%nat -> (k < p)%nat -> vel sv' a * el v' a k = pr n m (el u') a k) /\
      (forall a, (a < r)%nat -> rdot p (el v') a a = 1) /\
      (rsum n (fun i => rsum p (fun k => (el m i k - rsum r (fun a => el u' i a * (vel sv' a * el v' a k))) ^ 2))
       = rsum (n - r) (fun a => G (el u') (r + a)%nat (r + a)%nat)) /\
      (forall l, (r <= l < n)%nat -> (r < Nat.min n p)%nat -> G (el u') l l <= svdtol) /\
      ((exists e V, zMatSymEigJacobi tol maxit (mul_mat_matT m m) sv u = Ok (Some (e, V, false))) ->
        (forall a b, (a < r)%nat -> (b < r)%nat -> a <> b -> Rabs (rdot p (el v') a b) <= tol / (vel sv' a * vel sv' b)) /\
        (forall l, (r <= l < n)%nat -> r = p -> G (el u') l l <= INR p * tol)).
  Proof.
    intros Hn U1 U2 LS V1 V2. unfold zMatSVD.
    set (c := mul_mat_matT m m).
    assert (CE : forall i j, el c i j = rsum p (fun k => el m i k * el m j k)).
    { intros. unfold c, mul_mat_matT. cbn [el]. rewrite ksum_R, Cm. reflexivity. }
    destruct (jacobi_ok n tol maxit c u sv) as (e & V & w & D & E & J1 & J2 & J3 & J4 & J5 & J6 & J7 & _ & _ & J10 & _); auto.
    { intros i j Hi Hj. rewrite !CE. apply rsum_ext. intros; ring. }
    rewrite E. cbn [bind].
    assert (GR : forall a b, (a < n)%nat -> (b < n)%nat -> G (el V) a b = D a b).
    { intros a b Ha Hb. apply (gram n p m (el V) D a b); auto. intros r q Hr Hq. rewrite <- J6 by auto.
      unfold mmul. apply rsum_ext. intros; rewrite CE; reflexivity. }
    set (P := fun x => w = false -> Rabs x <= tol).
    destruct (sort_ok n p m Rm Cm svdtol P e V) as (sv' & u' & r & ES & S1 & S2 & S3 & S4 & S5 & S6 & S7 & S8 & S9).
    { unfold sinv. conjs; auto. - intros; lia. - intros k Hk. rewrite J7, GR by lia. reflexivity. }
    { intros a b Ha Hb Nab W. rewrite GR by auto. auto. }
    rewrite ES. cbn [bind].
    assert (SPL : forall f, rsum n f = rsum r f + rsum (n - r) (fun a => f (r + a)%nat)) by (intros f; rewrite <- rsum_app; f_equal; lia).
    assert (Tail : rsum n (fun i => rsum p (fun k => (el m i k - rsum r (fun a => el u' i a * pr n m (el u') a k)) ^ 2))
       = rsum (n - r) (fun a => G (el u') (r + a)%nat (r + a)%nat)).
    { rewrite (rsum_swap n p). unfold rdot. rewrite (rsum_swap (n - r) p). apply rsum_ext. intros k Hk.
      set (y := fun a => if (a <? r)%nat then 0 else pr n m (el u') a k).
      rewrite (rsum_ext n _ (fun i => rsum n (fun a => el u' i a * y a) ^ 2)).
      - destruct S5 as (OC & _). rewrite (isom n n (el u') y OC).
        rewrite SPL. rewrite (rsum_0 r); [|intros i Hi; unfold y; nbp; ring].
        rewrite Rplus_0_l. apply rsum_ext. intros i Hi. unfold y. nbp. ring.
      - intros i Hi. f_equal.
        assert (FULL : el m i k = rsum n (fun a => el u' i a * pr n m (el u') a k)).
        { destruct S5 as (_ & OR). unfold pr. rewrite (rsum_ext n _ (fun a => rsum n (fun s => el m s k * (el u' i a * el u' s a)))) by (intros; rewrite <- rsum_scal; apply rsum_ext; intros; ring).
          rewrite rsum_swap. rewrite (rsum_ext n _ (fun s => el m s k * delta i s)); [rewrite (delta_sum n i (fun s => el m s k)) by auto; reflexivity|].
          intros s Hs'. rewrite rsum_scal. f_equal. apply OR; auto. }
        rewrite FULL. rewrite (SPL (fun a => el u' i a * pr n m (el u') a k)), (SPL (fun a => el u' i a * y a)).
        rewrite (rsum_0 r (fun i0 => el u' i i0 * y i0)) by (intros a Ha; unfold y; nbp; ring).
        rewrite (rsum_ext (n - r) (fun a => el u' i (r + a)%nat * y (r + a)%nat) (fun a => el u' i (r + a)%nat * pr n m (el u') (r + a)%nat k)) by (intros a Ha; unfold y; nbp).
        ring. }
    assert (SP : forall k, (k < r)%nat -> 0 < vel sv' k /\ vel sv' k ^ 2 = G (el u') k k).
    { intros k Hk. destruct (S6 k Hk) as (K1 & K2 & _). rewrite K1. split; [apply sqrt_lt_R0; lra|]. rewrite <- Rsqr_pow2. apply Rsqr_sqrt. lra. }
    assert (DESC : forall k l, (k < l)%nat -> (l < r)%nat -> vel sv' l <= vel sv' k).
    { intros k l Hk Hl. destruct (S6 k ltac:(lia)) as (K1 & K2 & K3). destruct (S6 l Hl) as (L1 & _). rewrite K1, L1. apply sqrt_le_1_alt. apply K3; lia. }
    assert (WF : (exists e0 V0, Ok (Some (e, V, w)) = @Ok (option (fvec R * fmat R * bool)) (Some (e0, V0, false))) -> w = false)
      by (intros (? & ? & Q); injection Q; auto).
    assert (REST : w = false -> forall l, (r <= l < n)%nat -> r = p -> G (el u') l l <= INR p * tol).
    { intros W l Hl ->.
      destruct (gram_small p (fun a => pr n m (el u') (tau p l a)) tol Ht) as (b & Hb & B).
      - intros a b Ha Hb Nab. apply (S9 (tau p l a) (tau p l b)); auto.
        + apply tau_lt; lia. + apply tau_lt; lia. + intros Q. apply tau_inj in Q. auto.
      - change (G (el u') (tau p l b) (tau p l b) <= INR p * tol) in B.
        destruct (Nat.eq_dec b p) as [->|Nb].
        + assert (TP : tau p l p = l) by (unfold tau; rewrite Nat.eqb_refl; reflexivity). rewrite TP in B. exact B.
        + assert (TP : tau p l b = b) by (unfold tau; nbp). rewrite TP in B.
          destruct (S6 b ltac:(lia)) as (_ & _ & K3). specialize (K3 l ltac:(lia) ltac:(lia)). cbv beta in B, K3 |- *. lra. }
    destruct (Nat.eqb_spec r 0) as [R0|R0].
    - exists r, u', sv', v. split; [reflexivity|]. rewrite R0 in *. conjs; auto; try (intros; lia).
      intros W. specialize (WF W). split; [intros; lia|auto].
    - replace (negb ((r <=? nc u') && (nr m <=? nr u') && (r <=? nr v) && (nc v =? nc m))%nat) with false.
      2:{ rewrite !(proj2 (Nat.leb_le _ _)) by lia. rewrite (proj2 (Nat.eqb_eq _ _)) by lia. reflexivity. }
      set (w0 := mul_matT_mat (FM (nr u') r (el u')) m).
      assert (W0 : nr w0 = r /\ nc w0 = p /\ forall a k, el w0 a k = pr n m (el u') a k).
      { unfold w0, mul_matT_mat. cbn [nr nc el]. conjs; auto. intros a k. rewrite ksum_R, S3. unfold pr. apply rsum_ext. intros; reflexivity. }
      destruct W0 as (W1 & W2 & W3). clearbody w0.
      match goal with |- context [for_ 0 r ?g w0] =>
        destruct (for_inv (fun k v' => nr v' = r /\ nc v' = p /\ forall a b, el v' a b = if (a <? k)%nat && (b <? p)%nat then el w0 a b * (1 / vel sv' a) else el w0 a b) 0 r g w0) as (v' & EV & X1 & X2 & X3) end.
      { lia. } { conjs; auto. }
      { intros k v1 Hk (X1 & X2 & X3). rewrite vget_ok by lia. cbn [bind]. rewrite Cm.
        destruct (row_loop v1 k 0 p (fun j v => mmod v k j (fun x => (x * (1 / vel sv' k))%S)) (fun j => el v1 k j * (1 / vel sv' k))) as (v2 & E2 & Y1 & Y2 & Y3); try lia.
        - intros j v'' Hj Z1 Z2 Z3. rewrite mmod_ok by lia. rewrite Z3 by lia. reflexivity.
        - exists v2. split; [exact E2|]. conjs; try lia. intros a b. rewrite Y3, !X3. nbp. }
      rewrite EV. cbn [bind]. exists r, u', sv', v'. split; [reflexivity|].
      assert (VE : forall a k, (a < r)%nat -> (k < p)%nat -> vel sv' a * el v' a k = pr n m (el u') a k).
      { intros a k Ha Hk. rewrite X3, W3. replace (_ && _)%bool with true by (symmetry; nbp). destruct (SP a Ha). field. lra. }
      assert (VD : forall a b, (a < r)%nat -> (b < r)%nat -> G (el u') a b = (vel sv' a * vel sv' b) * rdot p (el v') a b).
      { intros a b Ha Hb. unfold rdot. rewrite <- rsum_scal. apply rsum_ext. intros k Hk. rewrite <- !VE by auto. ring. }
      conjs; auto; try (intros; lia).
      + intros k Hk. destruct (SP k Hk) as (K1 & ->). split; auto. apply S6. auto.
      + intros a Ha. destruct (SP a Ha) as (K1 & K2). pose proof (VD a a Ha Ha) as Q. cbv beta in K2, Q. rewrite <- K2 in Q.
        apply Rmult_eq_reg_l with (vel sv' a * vel sv' a); [|nra]. lra.
      + rewrite <- Tail. apply rsum_ext. intros i Hi. apply rsum_ext. intros k Hk. f_equal. f_equal. apply rsum_ext. intros a Ha. rewrite VE by auto. reflexivity.
      + intros W. specialize (WF W). split; [|auto]. intros a b Ha Hb Nab.
        destruct (SP a Ha) as (K1 & _). destruct (SP b Hb) as (K2 & _).
        assert (PP : 0 < vel sv' a * vel sv' b) by (apply Rmult_lt_0_compat; auto).
        pose proof (S9 a b ltac:(lia) ltac:(lia) Nab WF) as Q. rewrite VD in Q by auto. rewrite Rabs_mult, (Rabs_right (_ * _)) in Q by lra.
        apply Rmult_le_reg_l with (vel sv' a * vel sv' b); [auto|]. unfold Rdiv. rewrite (Rmult_comm tol), <- Rmult_assoc, Rinv_r, Rmult_1_l by lra. exact Q.
  Qed.
End SVD.
