(** Positive definite matrices, for C107: triangular factors, and ln det S - ln det C <= tr (C^-1 S) - n. *)
From Coq Require Import Reals Lra Lia List.
From Verif Require Import Prelude RealLib LE_Spec Det_Proofs LE6_Proofs Gmm_Spec.
Local Open Scope R_scope.


Lemma rsum_if n k c : (k < n)%nat -> rsum n (fun i => if (i =? k)%nat then c else 0) = c.
Proof. intros Hk. rewrite (rsum_delta n k) by (auto; intros i Hi N; destruct (Nat.eqb_spec i k); auto; lia). rewrite Nat.eqb_refl. auto. Qed.
(** ** L B for a lower triangular L *)
Lemma det_comb n A i m (c : nat -> R) (f : nat -> nat -> R) : (i < n)%nat ->
  det n (setrow A i (fun x => rsum m (fun k => c k * f k x))) = rsum m (fun k => c k * det n (setrow A i (f k))).
Proof.
  intros Hi. induction m.
  - cbn [rsum]. rewrite (det_ext n _ (setrow A i (fun x => 0 * f 0%nat x + 0 * f 0%nat x))); [rewrite det_linear by auto; ring|]. intros r x Hr Hx. unfold setrow. destruct (r =? i)%nat; ring.
  - cbn [rsum]. rewrite (det_ext n _ (setrow A i (fun x => 1 * (rsum m (fun k => c k * f k x)) + c m * f m x))).
    + rewrite det_linear, IHm by auto. ring.
    + intros r x Hr Hx. unfold setrow. destruct (r =? i)%nat; ring.
Qed.
Definition lower (n : nat) (L : nat -> nat -> R) : Prop := forall r c, (r < c)%nat -> (c < n)%nat -> L r c = 0.
Lemma rsum_tail n k f : (k <= n)%nat -> (forall i, (k <= i < n)%nat -> f i = 0) -> rsum n f = rsum k f.
Proof. intros Hk H. replace n with (k + (n - k))%nat by lia. rewrite rsum_app. rewrite (rsum_0 (n - k)); [ring|]. intros i Hi. apply H. lia. Qed.
Lemma det_lower_mul n L B : lower n L -> det n (mm n L B) = dprod n (fun i => L i i) * det n B.
Proof.
  intros HL.
  assert (G : forall j, (j <= n)%nat -> det n (fun r => if (r <? n - j)%nat then B r else mm n L B r) = dprod j (fun i => L (n - S i)%nat (n - S i)%nat) * det n B).
  { induction j; intros Hj.
    - cbn [dprod]. rewrite Rmult_1_l. apply det_ext. intros r c Hr Hc. destruct (Nat.ltb_spec r (n - 0)); auto; lia.
    - set (p := (n - S j)%nat). set (A := fun r => if (r <? n - j)%nat then B r else mm n L B r).
      rewrite (det_ext n _ (setrow A p (fun x => rsum (S p) (fun k => L p k * B k x)))).
      + rewrite det_comb by lia. cbn [rsum]. rewrite rsum_0.
        * cbn [dprod]. fold p. rewrite (det_ext n (setrow A p (B p)) A); [unfold A at 1; rewrite IHj by lia; ring|].
          intros r c Hr Hc. unfold setrow. destruct (Nat.eqb_spec r p) as [->|]; auto. unfold A. destruct (Nat.ltb_spec p (n - j)); auto; lia.
        * intros k Hk. rewrite (det_equal_rows n _ k p); [ring|lia|lia|]. intros c Hc. rewrite setrow_eq. unfold setrow. destruct (Nat.eqb_spec k p); [lia|]. unfold A. destruct (Nat.ltb_spec k (n - j)); auto; lia.
      + intros r c Hr Hc. unfold setrow. destruct (Nat.eqb_spec r p) as [->|N].
        * destruct (Nat.ltb_spec p p); [lia|]. unfold mm. apply rsum_tail; [lia|]. intros i Hi. rewrite HL by lia. ring.
        * unfold A. destruct (Nat.ltb_spec r p), (Nat.ltb_spec r (n - j)); auto; lia. }
  specialize (G n (le_n n)). rewrite (det_ext n _ (mm n L B)) in G.
  - rewrite G. f_equal. clear. assert (H : forall m, (m <= n)%nat -> forall f, dprod m (fun i => f (m - S i)%nat) = dprod m f).
    { intros m _. induction m; intros f; auto. rewrite dprod_S_l. change (dprod (S m) f) with (dprod m f * f m). rewrite <- (IHm f). replace (S m - 1)%nat with m by lia. rewrite Rmult_comm. f_equal. }
    apply (H n (le_n n) (fun i => L i i)).
  - intros r c Hr Hc. destruct (Nat.ltb_spec r (n - n)); auto; lia.
Qed.
Definition tr (A : nat -> nat -> R) : nat -> nat -> R := fun r c => A c r.
Lemma det_llt n L A : lower n L -> (forall r c, (r < n)%nat -> (c < n)%nat -> A r c = mm n L (tr L) r c) -> det n A = dprod n (fun i => L i i) ^ 2.
Proof.
  intros HL HA. rewrite (det_ext n A (mm n L (tr L))) by auto. rewrite det_lower_mul by auto. rewrite det_upper; [unfold tr; ring|]. intros r c Hr Hc. unfold tr. apply HL; lia.
Qed.

(** ** Cholesky's factor *)
Lemma qf_S n A x : qf (S n) A x = A 0%nat 0%nat * x 0%nat ^ 2 + x 0%nat * rsum n (fun c => A 0%nat (S c) * x (S c)) + x 0%nat * rsum n (fun r => A (S r) 0%nat * x (S r))
  + qf n (fun r c => A (S r) (S c)) (fun i => x (S i)).
Proof.
  unfold qf. rewrite rsum_S_l. rewrite (rsum_ext n (fun i => rsum (S n) (fun c => x (S i) * A (S i) c * x c)) (fun i => x 0%nat * (A (S i) 0%nat * x (S i)) + rsum n (fun c => x (S i) * A (S i) (S c) * x (S c)))).
  2:{ intros i Hi. rewrite rsum_S_l. ring. }
  rewrite rsum_add, rsum_scal, rsum_S_l. rewrite (rsum_ext n (fun i => x 0%nat * A 0%nat (S i) * x (S i)) (fun c => x 0%nat * (A 0%nat (S c) * x (S c)))) by (intros; ring). rewrite rsum_scal. ring.
Qed.
Lemma cholesky n : forall A, symmetric n A -> pd n A ->
  exists L, lower n L /\ (forall i, (i < n)%nat -> 0 < L i i) /\ forall r c, (r < n)%nat -> (c < n)%nat -> A r c = mm n L (tr L) r c.
Proof.
  induction n; intros A SA PA.
  { exists (fun _ _ => 0). split; [intros r c _ H; lia|]. split; intros; lia. }
  set (a := A 0%nat 0%nat).
  assert (Ha : 0 < a).
  { specialize (PA (fun i => if (i =? 0)%nat then 1 else 0)). rewrite qf_S in PA. rewrite (rsum_0 n) in PA by (intros; cbn; ring). rewrite (rsum_0 n) in PA by (intros; cbn; ring).
    replace (qf n _ _) with 0 in PA; [|symmetry; unfold qf; apply rsum_0; intros; apply rsum_0; intros; cbn; ring]. cbn [Nat.eqb] in PA. fold a in PA.
    assert (0 < a * 1 ^ 2 + 1 * 0 + 1 * 0 + 0); [|lra]. apply PA. exists 0%nat. split; [lia|cbn; lra]. }
  set (B := fun r c => A (S r) (S c) - A (S r) 0%nat * A (S c) 0%nat / a).
  destruct (IHn B) as (L & LL & LP & LE).
  - intros r c Hr Hc. unfold B. rewrite (SA (S r) (S c)) by lia. field. lra.
  - intros x (i & Hi & Nx). set (s := rsum n (fun r => A (S r) 0%nat * x r)).
    specialize (PA (fun k => match k with O => - s / a | S k => x k end)). rewrite qf_S in PA. fold s in PA. fold a in PA.
    rewrite (rsum_ext n (fun c => A 0%nat (S c) * x c) (fun r => A (S r) 0%nat * x r)) in PA by (intros k Hk; rewrite (SA 0%nat (S k)) by lia; auto). fold s in PA.
    replace (qf n B x) with (qf n (fun r c => A (S r) (S c)) x - s * s / a).
    + assert (P : 0 < a * (- s / a) ^ 2 + - s / a * s + - s / a * s + qf n (fun r c => A (S r) (S c)) (fun i => x i)) by (apply PA; exists (S i); split; [lia|auto]).
      replace (a * (- s / a) ^ 2 + - s / a * s + - s / a * s) with (- (s * s / a)) in P by (field; lra). change (qf n (fun r c => A (S r) (S c)) (fun i => x i)) with (qf n (fun r c => A (S r) (S c)) x) in P. lra.
    + unfold B. rewrite (qf_ext n (fun r c => A (S r) (S c) - A (S r) 0%nat * A (S c) 0%nat / a) (fun r c => A (S r) (S c) - A (S r) 0%nat * (A (S c) 0%nat / a)) x x) by (intros; field; lra).
      rewrite qf_rank1. f_equal. rewrite (rsum_ext n (fun r => x r * A (S r) 0%nat) (fun r => A (S r) 0%nat * x r)) by (intros; ring). fold s.
      rewrite (rsum_ext n (fun c => A (S c) 0%nat / a * x c) (fun c => / a * (A (S c) 0%nat * x c))) by (intros; field; lra). rewrite rsum_scal. fold s. field. lra.
  - pose proof (sqrt_lt_R0 a Ha) as Hs. assert (SS : sqrt a * sqrt a = a) by (apply sqrt_sqrt; lra).
    exists (fun r c => match r, c with O, O => sqrt a | O, S _ => 0 | S r, O => A (S r) 0%nat / sqrt a | S r, S c => L r c end). split; [|split].
    + intros r c Hr Hc. destruct r, c; try lia; auto. apply LL; lia.
    + intros [|i] Hi; auto. apply LP. lia.
    + intros r c Hr Hc. unfold mm, tr. rewrite rsum_S_l. destruct r as [|r], c as [|c].
      * rewrite rsum_0 by (intros; ring). fold a. lra.
      * rewrite rsum_0 by (intros; ring). rewrite (SA 0%nat (S c)) by lia. field. lra.
      * rewrite rsum_0 by (intros; ring). field. lra.
      * specialize (LE r c). unfold mm, tr in LE. rewrite <- LE by lia. unfold B. replace (A (S r) 0%nat / sqrt a * (A (S c) 0%nat / sqrt a)) with (A (S r) 0%nat * A (S c) 0%nat / (sqrt a * sqrt a)) by (field; lra). rewrite SS. field. lra.
Qed.
Lemma dprod_pos n f : (forall i, (i < n)%nat -> 0 < f i) -> 0 < dprod n f.
Proof. induction n; intros H; cbn; [lra|]. apply Rmult_lt_0_compat; [apply IHn; intros; apply H; lia|apply H; lia]. Qed.
Lemma ln_dprod n f : (forall i, (i < n)%nat -> 0 < f i) -> ln (dprod n f) = rsum n (fun i => ln (f i)).
Proof. induction n; intros H; cbn; [apply ln_1|]. rewrite ln_mult; [rewrite IHn; auto| |]; [apply dprod_pos|]; auto. Qed.

(** ** C^T y = e_k *)
Lemma trisolve n C k : lower n C -> (forall i, (i < n)%nat -> 0 < C i i) -> (k < n)%nat ->
  exists y, (forall j, (k < j)%nat -> y j = 0) /\ y k = / C k k /\ forall l, (l < n)%nat -> rsum n (fun j => C j l * y j) = if (l =? k)%nat then 1 else 0.
Proof.
  intros HL HP Hk.
  assert (G : forall m, (m <= k)%nat -> exists y, (forall j, (k < j)%nat \/ (j < k - m)%nat -> y j = 0) /\ y k = / C k k /\ forall l, (k - m <= l < n)%nat -> rsum n (fun j => C j l * y j) = if (l =? k)%nat then 1 else 0).
  { induction m; intros Hm.
    - exists (fun j => if (j =? k)%nat then / C k k else 0). rewrite Nat.eqb_refl. split; [|split; auto].
      + intros j Hj. destruct (Nat.eqb_spec j k); auto; lia.
      + intros l Hl. rewrite (rsum_ext n _ (fun j => if (j =? k)%nat then C k l * / C k k else 0)) by (intros j Hj; destruct (Nat.eqb_spec j k) as [->|]; ring). rewrite rsum_if by auto.
        destruct (Nat.eqb_spec l k) as [->|]; [specialize (HP k Hk); field; lra|]. rewrite HL by lia. ring.
    - destruct IHm as (y & Y0 & YK & YE); [lia|]. set (p := (k - S m)%nat). set (s := rsum n (fun j => C j p * y j)).
      exists (fun j => if (j =? p)%nat then - s / C p p else y j). assert (Hp : 0 < C p p) by (apply HP; lia). split; [|split].
      + intros j Hj. destruct (Nat.eqb_spec j p); [lia|]. apply Y0. lia.
      + destruct (Nat.eqb_spec k p); [lia|auto].
      + intros l Hl. rewrite (rsum_ext n _ (fun j => C j l * y j + (if (j =? p)%nat then C p l * (- s / C p p) else 0))).
        2:{ intros j Hj. destruct (Nat.eqb_spec j p) as [->|]; [|ring]. rewrite (Y0 p) by lia. ring. }
        rewrite rsum_add, rsum_if by lia. destruct (Nat.eq_dec l p) as [->|N].
        * fold s. destruct (Nat.eqb_spec p k); [lia|]. field. lra.
        * rewrite HL by lia. rewrite Rmult_0_l, Rplus_0_r. apply YE. lia. }
  destruct (G k (le_n k)) as (y & Y0 & YK & YE). exists y. split; [intros; apply Y0; lia|]. split; auto. intros l Hl. apply YE. lia.
Qed.

(** ** Cauchy's inequality for a positive semidefinite matrix *)
Definition bf n (A : nat -> nat -> R) (x y : nat -> R) : R := rsum n (fun r => x r * mv n A y r).
Lemma qf_bf n A x : qf n A x = bf n A x x.
Proof. unfold qf, bf, mv. apply rsum_ext. intros. rewrite <- rsum_scal. apply rsum_ext. intros. ring. Qed.
Lemma mv_add n A x y t r : mv n A (fun i => x i + t * y i) r = mv n A x r + t * mv n A y r.
Proof. unfold mv. rewrite <- rsum_scal, <- rsum_add. apply rsum_ext. intros. ring. Qed.
Lemma bf_sym n A x y : symmetric n A -> bf n A x y = bf n A y x.
Proof.
  intros SA. unfold bf, mv. rewrite (rsum_ext n _ (fun r => rsum n (fun c => x r * (A r c * y c)))) by (intros; rewrite <- rsum_scal; auto).
  rewrite rsum_swap. apply rsum_ext. intros r Hr. rewrite <- rsum_scal. apply rsum_ext. intros c Hc. rewrite SA by auto. ring.
Qed.
Lemma bf_quad n A x y t : symmetric n A -> qf n A (fun i => x i + t * y i) = qf n A x + 2 * t * bf n A x y + t ^ 2 * qf n A y.
Proof.
  intros SA. rewrite !qf_bf. unfold bf at 1. rewrite (rsum_ext n _ (fun r => (x r * mv n A x r + t * (x r * mv n A y r)) + (t * (y r * mv n A x r) + t ^ 2 * (y r * mv n A y r)))) by (intros; rewrite mv_add; ring).
  rewrite !rsum_add, !rsum_scal. fold (bf n A x x) (bf n A x y) (bf n A y x) (bf n A y y). rewrite (bf_sym n A y x) by auto. ring.
Qed.
Lemma bf_cauchy n A x y : symmetric n A -> psd n A -> bf n A x y ^ 2 <= qf n A x * qf n A y.
Proof.
  intros SA PA. set (a := qf n A y). set (b := bf n A x y). set (c := qf n A x).
  assert (Q : forall t, 0 <= c + 2 * t * b + t ^ 2 * a) by (intros t; unfold a, b, c; rewrite <- bf_quad by auto; apply PA).
  assert (Ha : 0 <= a) by apply PA. assert (Hc : 0 <= c) by apply PA.
  destruct (Rle_lt_or_eq_dec 0 a Ha) as [La|Ea].
  - specialize (Q (- b / a)). replace (c + 2 * (- b / a) * b + (- b / a) ^ 2 * a) with ((c * a - b ^ 2) / a) in Q by (field; lra).
    assert (0 <= c * a - b ^ 2); [|lra]. replace (c * a - b ^ 2) with (a * ((c * a - b ^ 2) / a)) by (field; lra). apply Rmult_le_pos; lra.
  - rewrite <- Ea in *. destruct (Req_dec b 0) as [->|Nb]; [lra|]. specialize (Q (- (c + 1) / (2 * b))). replace (2 * (- (c + 1) / (2 * b)) * b) with (- (c + 1)) in Q by (field; auto). lra.
Qed.
Lemma pd_psd n A : pd n A -> psd n A.
Proof.
  intros P x. destruct (Req_EM_T (rsum n (fun i => x i ^ 2)) 0) as [E|N].
  - rewrite (qf_ext n A A x (fun _ => 0)). + unfold qf. rewrite rsum_0; [lra|]. intros. apply rsum_0. intros. ring.
    + intros r c Hr Hc. assert (X : x r ^ 2 = 0) by (apply (rsum_nonneg_0 n (fun i => x i ^ 2)); auto; intros; nra). assert (x r = 0) by nra. rewrite H. ring.
  - apply Rlt_le, P. assert (F : (exists i, (i < n)%nat /\ x i <> 0) \/ forall i, (i < n)%nat -> x i = 0).
    { clear. induction n; [right; intros; lia|]. destruct IHn as [(i & Hi & H)|H]; [left; exists i; split; [lia|auto]|]. destruct (Req_EM_T (x n) 0); [right|left; exists n; split; [lia|auto]].
      intros i Hi. destruct (Nat.eq_dec i n) as [->|]; auto. apply H. lia. }
    destruct F as [F|F]; auto. exfalso. apply N, rsum_0. intros i Hi. rewrite F by auto. ring.
Qed.

(** ** the trace and the determinants *)
Definition trace2 n (A B : nat -> nat -> R) : R := rsum n (fun a => rsum n (fun b => A a b * B b a)).
Lemma ln_le_sub1 x : 0 < x -> ln x <= x - 1.
Proof. intros H. pose proof (exp_ineq1_le (ln x)). rewrite exp_ln in *; lra. Qed.
Lemma inv_sol n C P l r : inverse n C P -> (r < n)%nat -> mv n C (mv n P l) r = l r.
Proof.
  intros HI Hr. unfold mv. rewrite (rsum_ext n _ (fun k => rsum n (fun c => C r k * P k c * l c))) by (intros; rewrite <- rsum_scal; apply rsum_ext; intros; ring). rewrite rsum_swap.
  rewrite (rsum_ext n _ (fun c => if (c =? r)%nat then l r else 0)); [apply rsum_if; auto|]. intros c Hc. rewrite rsum_scal_r. specialize (HI r c Hr Hc). unfold mm in HI. rewrite HI. rewrite Nat.eqb_sym. destruct (Nat.eqb_spec c r) as [->|]; ring.
Qed.
Theorem trace_det n C P S : symmetric n C -> pd n C -> inverse n C P -> symmetric n S -> pd n S ->
  0 < det n C /\ 0 < det n S /\ ln (det n S) - ln (det n C) <= trace2 n P S - INR n.
Proof.
  intros SC PC HI SS PS. destruct (cholesky n C SC PC) as (K & KL & KP & KE). destruct (cholesky n S SS PS) as (L & LL & LP & LE).
  rewrite (det_llt n K C), (det_llt n L S) by auto. pose proof (dprod_pos n _ KP) as DK. pose proof (dprod_pos n _ LP) as DL.
  split; [nra|]. split; [nra|]. rewrite <- !Rsqr_pow2. unfold Rsqr. rewrite !ln_mult by auto. rewrite !ln_dprod by auto.
  assert (TE : trace2 n P S = rsum n (fun k => qf n P (fun a => L a k))).
  { unfold trace2. transitivity (rsum n (fun a => rsum n (fun b => rsum n (fun k => L a k * P a b * L b k)))).
    - apply rsum_ext. intros a Ha. apply rsum_ext. intros b Hb. rewrite LE by auto. unfold mm, tr. rewrite <- rsum_scal. apply rsum_ext. intros. ring.
    - rewrite (rsum_ext n _ (fun a => rsum n (fun k => rsum n (fun b => L a k * P a b * L b k)))) by (intros; apply rsum_swap). rewrite rsum_swap. apply rsum_ext. intros k Hk. unfold qf. reflexivity. }
  assert (B : forall k, (k < n)%nat -> (L k k / K k k) ^ 2 <= qf n P (fun a => L a k)).
  { intros k Hk. destruct (trisolve n K k KL KP Hk) as (y & Y0 & YK & YE). set (l := fun a => L a k). set (w := mv n P l).
    assert (W : forall r, (r < n)%nat -> mv n C w r = l r) by (intros; apply inv_sol; auto).
    assert (Q1 : qf n C w = qf n P l). { rewrite !qf_bf. unfold bf. apply rsum_ext. intros r Hr. rewrite W by auto. unfold w. ring. }
    assert (Q2 : qf n C y = 1).
    { transitivity (rsum n (fun t => rsum n (fun j => K j t * y j) ^ 2)).
      - unfold qf. transitivity (rsum n (fun r => rsum n (fun t => rsum n (fun c => (K r t * y r) * (K c t * y c))))).
        + apply rsum_ext. intros r Hr. rewrite rsum_swap. apply rsum_ext. intros c Hc. rewrite KE by auto. unfold mm, tr. rewrite Rmult_assoc, <- rsum_scal_r, <- rsum_scal. apply rsum_ext. intros. ring.
        + rewrite rsum_swap. apply rsum_ext. intros t Ht. cbn [pow]. rewrite Rmult_1_r, <- rsum_scal_r. apply rsum_ext. intros r Hr. rewrite rsum_scal. auto.
      - rewrite (rsum_ext n _ (fun t => if (t =? k)%nat then 1 else 0)); [apply rsum_if; auto|]. intros t Ht. rewrite YE by auto. destruct (t =? k)%nat; ring. }
    assert (Q3 : bf n C y w = L k k / K k k).
    { unfold bf. rewrite (rsum_ext n _ (fun r => if (r =? k)%nat then L k k / K k k else 0)); [apply rsum_if; auto|]. intros r Hr. rewrite W by auto. unfold l. destruct (Nat.eqb_spec r k) as [->|N].
      - rewrite YK. field. specialize (KP k Hk). lra.
      - destruct (Nat.lt_ge_cases r k); [rewrite LL by auto; ring|rewrite Y0 by lia; ring]. }
    rewrite <- Q3, <- Q1. pose proof (bf_cauchy n C y w SC (pd_psd n C PC)) as CS. rewrite Q2 in CS. lra. }
  rewrite TE. assert (LE2 : rsum n (fun k => 2 * (ln (L k k) - ln (K k k)) + 1) <= rsum n (fun k => qf n P (fun a => L a k))).
  { apply rsum_le. intros k Hk. eapply Rle_trans; [|apply B; auto]. specialize (LP k Hk). specialize (KP k Hk). assert (0 < L k k / K k k) by (apply Rdiv_lt_0_compat; auto).
    assert (0 < (L k k / K k k) ^ 2) by nra. pose proof (ln_le_sub1 _ H0) as LN. rewrite <- Rsqr_pow2 in *. unfold Rsqr in LN at 1. rewrite ln_mult in LN by auto. unfold Rdiv in LN at 1 2. rewrite ln_mult, ln_Rinv in LN by (auto; apply Rinv_0_lt_compat; auto). lra. }
  rewrite rsum_add, rsum_scal, rsum_sub, rsum_const in LE2. lra.
Qed.
