(** Proofs for C114: the method of Hotelling. *)
From Coq Require Import Reals Lra Lia Psatz List.
From Verif Require Import Prelude Prelude_Proofs Scalar RealLib Fmat Fmat_Proofs LE_Model LE_Spec IP_Model Vop Gen_Model Qp_Proofs Iter_Model Iter_Spec.
From Verif Require LE_Props.
Local Open Scope R_scope.

Definition sq (n : nat) (v : nat -> R) : R := rsum n (fun i => v i * v i).
Lemma sq_nonneg n v : 0 <= sq n v. Proof. apply rsum_nonneg. intros; nra. Qed.
Lemma sq_ext n v w : (forall i, (i < n)%nat -> v i = w i) -> sq n v = sq n w.
Proof. intros H. apply rsum_ext. intros i Hi. now rewrite H. Qed.
Lemma cs n f g : rsum n (fun i => f i * g i) ^ 2 <= sq n f * sq n g.
Proof.
  set (Sm := rsum n (fun i => f i * g i)).
  assert (Q : forall t, 0 <= sq n f + 2 * t * Sm + t * t * sq n g).
  { intros t. replace (sq n f + 2 * t * Sm + t * t * sq n g) with (sq n (fun i => f i + t * g i)); [apply sq_nonneg|].
    unfold sq, Sm. rewrite <- !rsum_scal, <- !rsum_add. apply rsum_ext. intros; ring. }
  pose proof (sq_nonneg n g) as G. destruct (Req_dec (sq n g) 0) as [Z|Z].
  - assert (Sm = 0) as ->; [|rewrite Z; lra]. apply rsum_0. intros i Hi. pose proof (rsum_nonneg_0 n (fun i => g i * g i)) as H.
    assert (g i * g i = 0) by (apply H; auto; intros; nra). assert (g i = 0) by nra. rewrite H1. ring.
  - assert (0 < sq n g) by lra. specialize (Q (- Sm / sq n g)).
    replace (sq n f + 2 * (- Sm / sq n g) * Sm + - Sm / sq n g * (- Sm / sq n g) * sq n g) with (sq n f - Sm ^ 2 / sq n g) in Q by (field; lra).
    apply (Rmult_le_compat_r (sq n g)) in Q; [|lra]. replace ((sq n f - Sm ^ 2 / sq n g) * sq n g) with (sq n f * sq n g - Sm ^ 2) in Q by (field; lra). lra.
Qed.

Lemma mv_ext n A B x r : (forall c, (c < n)%nat -> A r c = B r c) -> mv n A x r = mv n B x r.
Proof. intros H. apply rsum_ext. intros c Hc. now rewrite H. Qed.
Lemma mm_mv n A B x r : mv n (mm n A B) x r = mv n A (mv n B x) r.
Proof.
  unfold mv, mm. rewrite (rsum_ext n _ (fun c => rsum n (fun k => A r k * (B k c * x c)))).
  - rewrite rsum_swap. apply rsum_ext. intros k Hk. now rewrite rsum_scal.
  - intros c Hc. rewrite <- rsum_scal_r. apply rsum_ext. intros; ring.
Qed.
Lemma mm_assoc n A B C i j : mm n A (mm n B C) i j = mm n (mm n A B) C i j.
Proof.
  unfold mm. rewrite (rsum_ext n (fun k => A i k * rsum n (fun k0 => B k k0 * C k0 j)) (fun k => rsum n (fun l => A i k * B k l * C l j))).
  - rewrite rsum_swap. apply rsum_ext. intros l Hl. now rewrite <- rsum_scal_r.
  - intros k Hk. rewrite <- rsum_scal. apply rsum_ext. intros; ring.
Qed.
Definition dl (i j : nat) : R := if (i =? j)%nat then 1 else 0.
Lemma dl_l n i f : (i < n)%nat -> rsum n (fun k => dl i k * f k) = f i.
Proof.
  intros Hi. rewrite (rsum_delta n i); auto; unfold dl; [rewrite Nat.eqb_refl; ring|]. intros k Hk N. destruct (Nat.eqb_spec i k); [lia|ring].
Qed.
Lemma dl_r n j f : (j < n)%nat -> rsum n (fun k => f k * dl k j) = f j.
Proof.
  intros Hi. rewrite (rsum_delta n j); auto; unfold dl; [rewrite Nat.eqb_refl; ring|]. intros k Hk N. destruct (Nat.eqb_spec k j); [lia|ring].
Qed.

Section Hot.
  Variables (n : nat) (m : fmat R).
  Hypothesis M1 : nr m = n.
  Hypothesis M2 : nc m = n.
  Local Notation M := (el m).
  Local Notation res_ X := (residual n M X).

  Lemma hot_next_el X i j : nr X = n -> nc X = n -> el (hot_next m X) i j = 2 * el X i j - mm n (el X) (mm n M (el X)) i j.
  Proof.
    intros X1 X2. unfold hot_next, mulmm. cbn [el nr nc]. rewrite X2, M2, ksum_R. unfold mm. change (@smul R RealS) with Rmult. change (@ssub R RealS) with Rminus.
    rewrite (rsum_ext n _ (fun k => el X i k * rsum n (fun k0 => M k k0 * el X k0 j))); [change (@sofZ R RealS 2) with 2; ring|]. intros k Hk. now rewrite ksum_R.
  Qed.
  Lemma hot_size X : nr (hot_next m X) = nr X /\ nc (hot_next m X) = nc X. Proof. split; reflexivity. Qed.

  Lemma res_next X i j : nr X = n -> nc X = n -> (i < n)%nat -> (j < n)%nat ->
    res_ (el (hot_next m X)) i j = mm n (res_ (el X)) (res_ (el X)) i j.
  Proof.
    intros X1 X2 Hi Hj. set (E := mm n M (el X)).
    assert (R0 : forall a b, res_ (el X) a b = dl a b - E a b) by reflexivity.
    unfold residual at 1. fold (dl i j).
    assert (Q : rsum n (fun k => M i k * el (hot_next m X) k j) = 2 * E i j - mm n E E i j).
    { rewrite (rsum_ext n _ (fun k => 2 * (M i k * el X k j) - M i k * mm n (el X) E k j)).
      - rewrite rsum_sub, rsum_scal. f_equal. exact (mm_assoc n M (el X) E i j).
      - intros k Hk. rewrite hot_next_el by auto. fold E. ring. }
    rewrite Q. unfold mm at 2. rewrite (rsum_ext n _ (fun k => (dl i k * dl k j - dl i k * E k j) - (E i k * dl k j - E i k * E k j))) by (intros k Hk; rewrite !R0; ring).
    rewrite !rsum_sub. rewrite (dl_l n i (fun k => dl k j)), (dl_l n i (fun k => E k j)), (dl_r n j (fun k => E i k)) by auto. unfold mm. ring.
  Qed.

  Record hot_inv (r : R) (k : nat) (X : fmat R) : Prop := HotInv {
    hi_r : nr X = n; hi_c : nc X = n;
    hi_s : forall i j, (i < n)%nat -> (j < n)%nat -> res_ (el X) i j = res_ (el X) j i;
    hi_b : forall x, sq n (mv n (res_ (el X)) x) <= r ^ (2 ^ k) * sq n x }.

  Lemma hot_step r k X : 0 <= r -> hot_inv r k X -> hot_inv r (S k) (hot_next m X).
  Proof.
    intros Hr [X1 X2 Sy Bd]. constructor; auto.
    - intros i j Hi Hj. rewrite !res_next by auto. apply rsum_ext. intros q Hq. rewrite (Sy i q), (Sy q j) by auto. ring.
    - intros x. rewrite (sq_ext n _ (mv n (res_ (el X)) (mv n (res_ (el X)) x))).
      + eapply Rle_trans; [apply Bd|]. replace (r ^ 2 ^ S k) with (r ^ 2 ^ k * r ^ 2 ^ k).
        * rewrite Rmult_assoc. apply Rmult_le_compat_l; [apply pow_le; auto|apply Bd].
        * rewrite <- pow_add. f_equal. cbn [Nat.pow]. lia.
      + intros i Hi. rewrite <- mm_mv. apply mv_ext. intros c Hc. now apply res_next.
  Qed.

  (** the square of the residual within the tolerance *)
  Lemma hot_small r k X t : hot_inv r k X -> (forall i j, (i < n)%nat -> (j < n)%nat -> Rabs (res_ (el (hot_next m X)) i j) <= t) ->
    forall i j, (i < n)%nat -> (j < n)%nat -> Rabs (res_ (el X) i j) <= sqrt t.
  Proof.
    intros [X1 X2 Sy _] H i j Hi Hj. specialize (H i i Hi Hi). rewrite res_next in H by auto. unfold mm in H.
    rewrite (rsum_ext n _ (fun k => res_ (el X) i k * res_ (el X) i k)) in H by (intros q Hq; rewrite (Sy q i); auto).
    rewrite Rabs_right in H by (apply Rle_ge, sq_nonneg).
    assert (res_ (el X) i j * res_ (el X) i j <= t).
    { eapply Rle_trans; [|exact H]. rewrite (rsum_split n j) by auto.
      assert (forall q g, 0 <= rsum q (fun k => g k * g k)) as F by (intros; apply rsum_nonneg; intros; nra).
      pose proof (F j (fun k => res_ (el X) i k)). pose proof (F (n - S j)%nat (fun k => res_ (el X) i (S j + k)%nat)). cbn beta in *. lra. }
    rewrite <- sqrt_Rsqr_abs. apply sqrt_le_1_alt. exact H0.
  Qed.
  (** the elements are bounded by the norm *)
  Lemma hot_elem r k X : hot_inv r k X -> forall i j, (i < n)%nat -> (j < n)%nat -> (res_ (el X) i j) ^ 2 <= r ^ (2 ^ k).
  Proof.
    intros [X1 X2 Sy Bd] i j Hi Hj. specialize (Bd (fun k => dl k j)).
    assert (E : sq n (fun k => dl k j) = 1). { unfold sq. rewrite (dl_r n j (fun k => dl k j)) by auto. unfold dl. now rewrite Nat.eqb_refl. }
    rewrite E, Rmult_1_r in Bd. eapply Rle_trans; [|exact Bd]. unfold sq, mv.
    rewrite (rsum_ext n _ (fun i => res_ (el X) i j * res_ (el X) i j)) by (intros q Hq; rewrite (dl_r n j (fun k => res_ (el X) q k)); auto).
    rewrite (rsum_split n i) by auto.
    assert (forall q g, 0 <= rsum q (fun k => g k * g k)) as F by (intros; apply rsum_nonneg; intros; nra).
    pose proof (F i (fun k => res_ (el X) k j)). pose proof (F (n - S i)%nat (fun k => res_ (el X) (S i + k)%nat j)). cbn beta in *. cbn [pow]. lra.
  Qed.
End Hot.

(** ** the inverse of a nonsingular matrix *)
From Verif Require Gen3_Proofs.
Lemma right_inverse n M : (0 < n)%nat -> nonsingular n M -> exists B, forall i j, (i < n)%nat -> (j < n)%nat -> mm n M B i j = dl i j.
Proof.
  intros Hn NS.
  assert (forall l, (l <= n)%nat -> exists B, forall i j, (i < n)%nat -> (j < l)%nat -> mm n M B i j = dl i j) as F.
  { induction l as [|l IH]; intros Hl; [exists (fun _ _ => 0); intros; lia|]. destruct IH as (B & HB); [lia|].
    destruct (Gen3_Proofs.nonsingular_onto n M (fun i => dl i l) Hn NS) as (x & Hx).
    exists (fun k j => if (j =? l)%nat then x k else B k j). intros i j Hi Hj. unfold mm. destruct (Nat.eqb_spec j l) as [->|N].
    - exact (Hx i Hi).
    - apply HB; lia. }
  apply (F n). lia.
Qed.
Lemma nonsingular_t n M : (0 < n)%nat -> nonsingular n M -> nonsingular n (fun i j => M j i).
Proof.
  intros Hn NS y Hy i Hi. destruct (right_inverse n M Hn NS) as (B & HB).
  assert (E : rsum n (fun j => y j * mm n M B j i) = 0).
  { unfold mm. rewrite (rsum_ext n _ (fun j => rsum n (fun k => B k i * (M j k * y j)))).
    - rewrite rsum_swap. apply rsum_0. intros k Hk. rewrite rsum_scal. specialize (Hy k Hk). unfold mv in Hy. rewrite Hy. ring.
    - intros j Hj. rewrite <- rsum_scal. apply rsum_ext. intros; ring. }
  rewrite (rsum_ext n _ (fun j => y j * dl j i)) in E by (intros j Hj; rewrite HB; auto). now rewrite (dl_r n i y Hi) in E.
Qed.

Section Start.
  Variables (n : nat) (m : fmat R).
  Hypothesis Hn : (0 < n)%nat.
  Hypothesis M1 : nr m = n.
  Hypothesis M2 : nc m = n.
  Local Notation M := (el m).

  Definition frob : R := rsum n (fun i => sq n (fun j => M i j)).
  Lemma frob_R : zMatSqrNorm m = frob.
  Proof.
    unfold zMatSqrNorm, frob. rewrite M1. enough (forall q, zMatSqrNorm_rows m q = rsum q (fun i => sq n (fun j => M i j))) by auto. intros q. induction q as [|q IH]; [reflexivity|]. cbn [zMatSqrNorm_rows rsum]. rewrite IH, ksum_R, M2. reflexivity.
  Qed.
  Lemma frob_nonneg : 0 <= frob. Proof. apply rsum_nonneg. intros; apply sq_nonneg. Qed.
  Lemma mv_frob y : sq n (mv n M y) <= frob * sq n y.
  Proof.
    unfold sq at 1, frob. rewrite <- rsum_scal_r. apply rsum_le. intros i Hi. pose proof (cs n (fun j => M i j) y) as C. cbn [pow] in C. unfold mv. lra.
  Qed.

  (** X0 = c M^T *)
  Variable X0 : fmat R.
  Variable c : R.
  Hypothesis X1 : nr X0 = n.
  Hypothesis X2 : nc X0 = n.
  Hypothesis XE : forall i j, el X0 i j = M j i * c.
  Hypothesis Hc : 0 < c.
  Hypothesis Hcf : c * frob <= 1.

  Lemma start_sym i j : residual n M (el X0) i j = residual n M (el X0) j i.
  Proof.
    unfold residual. f_equal; [now rewrite Nat.eqb_sym|]. apply rsum_ext. intros k Hk. rewrite !XE. ring.
  Qed.
  Lemma start_mv x i : (i < n)%nat -> mv n (residual n M (el X0)) x i = x i - c * mv n M (mv n (fun a b => M b a) x) i.
  Proof.
    intros Hi. unfold mv at 1, residual. fold (dl i).
    rewrite (rsum_ext n _ (fun j => dl i j * x j - c * (rsum n (fun k => M i k * M j k) * x j))).
    - rewrite rsum_sub, (dl_l n i x Hi), rsum_scal. f_equal. f_equal. unfold mv.
      rewrite (rsum_ext n _ (fun j => rsum n (fun k => M i k * (M j k * x j)))).
      + rewrite rsum_swap. apply rsum_ext. intros k Hk. now rewrite rsum_scal.
      + intros j Hj. rewrite <- rsum_scal_r. apply rsum_ext. intros; ring.
    - intros j Hj. fold (dl i j). rewrite (rsum_ext n (fun k => M i k * el X0 k j) (fun k => M i k * M j k * c)) by (intros k Hk; rewrite XE; ring).
      rewrite rsum_scal_r. ring.
  Qed.
  Lemma start_bound x : sq n (mv n (residual n M (el X0)) x) <= sq n x - c * sq n (mv n (fun a b => M b a) x).
  Proof.
    set (y := mv n (fun a b => M b a) x). rewrite (sq_ext n _ (fun i => x i - c * mv n M y i)) by (intros; now apply start_mv).
    assert (E : sq n (fun i => x i - c * mv n M y i) = sq n x - 2 * c * sq n y + c * c * sq n (mv n M y)).
    { assert (Q : sq n y = rsum n (fun i => x i * mv n M y i)).
      { unfold sq. unfold y at 1. unfold mv at 1. rewrite (rsum_ext n _ (fun i => rsum n (fun j => x j * (M j i * y i)))).
        - rewrite rsum_swap. apply rsum_ext. intros j Hj. unfold mv. now rewrite rsum_scal.
        - intros i Hi. rewrite <- rsum_scal_r. apply rsum_ext. intros; ring. }
      rewrite Q. unfold sq. rewrite <- !rsum_scal, <- rsum_sub, <- rsum_add. apply rsum_ext. intros; ring. }
    rewrite E. pose proof (mv_frob y) as F. pose proof (sq_nonneg n y) as Y. assert (c * (c * sq n (mv n M y)) <= c * sq n y); [|lra].
    apply Rmult_le_compat_l; [lra|]. eapply Rle_trans; [apply Rmult_le_compat_l; [lra|exact F]|]. rewrite <- Rmult_assoc. rewrite <- (Rmult_1_l (sq n y)) at 2. apply Rmult_le_compat_r; lra.
  Qed.
  Lemma start_any : hot_inv n m 1 0 X0.
  Proof.
    constructor; auto; [intros; apply start_sym|]. intros x. rewrite pow1, Rmult_1_l. eapply Rle_trans; [apply start_bound|]. pose proof (sq_nonneg n (mv n (fun a b => M b a) x)). nra.
  Qed.
  Lemma start_nonsingular : nonsingular n M -> exists r, 0 <= r < 1 /\ hot_inv n m r 0 X0.
  Proof.
    intros NS. destruct (right_inverse n M Hn NS) as (B & HB).
    set (F := rsum n (fun i => sq n (fun k => B k i))). assert (F0 : 0 <= F) by (apply rsum_nonneg; intros; apply sq_nonneg).
    assert (Q : forall x, sq n x <= F * sq n (mv n (fun a b => M b a) x)).
    { intros x. set (y := mv n (fun a b => M b a) x). unfold sq at 1, F. rewrite <- rsum_scal_r. apply rsum_le. intros i Hi.
      assert (E : x i = rsum n (fun k => B k i * y k)).
      { rewrite <- (dl_r n i x Hi). rewrite (rsum_ext n _ (fun j => rsum n (fun k => B k i * (M j k * x j)))).
        - rewrite rsum_swap. apply rsum_ext. intros k Hk. now rewrite rsum_scal.
        - intros j Hj. rewrite <- (HB j i Hj Hi). unfold mm. rewrite <- rsum_scal. apply rsum_ext. intros; ring. }
      pose proof (cs n (fun k => B k i) y) as C. cbn [pow] in C. rewrite <- E in C. lra. }
    set (G := F + c). assert (0 < G) by (unfold G; lra). exists (1 - c / G).
    assert (CG : c / G <= 1). { apply (Rmult_le_reg_r G); auto. unfold Rdiv. rewrite Rmult_assoc, Rinv_l by lra. unfold G. lra. }
    assert (0 < c / G) by (apply Rdiv_lt_0_compat; auto).
    split; [lra|]. constructor; auto; [intros; apply start_sym|]. intros x. cbn [Nat.pow]. rewrite pow_1. eapply Rle_trans; [apply start_bound|].
    pose proof (sq_nonneg n (mv n (fun a b => M b a) x)) as Y. specialize (Q x).
    assert (sq n x / G <= sq n (mv n (fun a b => M b a) x)).
    { apply (Rmult_le_reg_r G); auto. unfold Rdiv. rewrite Rmult_assoc, Rinv_l by lra. unfold G. nra. }
    assert (c * (sq n x / G) <= c * sq n (mv n (fun a b => M b a) x)) by (apply Rmult_le_compat_l; lra).
    replace ((1 - c / G) * sq n x) with (sq n x - c * (sq n x / G)) by (field; lra). lra.
  Qed.
End Start.

Lemma hot_inv_le n m r k k' X : 0 <= r <= 1 -> (k' <= k)%nat -> hot_inv n m r k X -> hot_inv n m r k' X.
Proof.
  intros Hr Hk [X1 X2 Sy Bd]. constructor; auto. intros x. eapply Rle_trans; [apply Bd|]. apply Rmult_le_compat_r; [apply sq_nonneg|].
  assert (2 ^ k' <= 2 ^ k)%nat by (apply Nat.pow_le_mono_r; lia). replace (2 ^ k)%nat with (2 ^ k' + (2 ^ k - 2 ^ k'))%nat by lia. rewrite pow_add.
  pose proof (pow_le r (2 ^ k') (proj1 Hr)). assert (r ^ (2 ^ k - 2 ^ k') <= 1). { rewrite <- (pow1 (2 ^ k - 2 ^ k')). apply pow_incr. lra. }
  nra.
Qed.
Lemma hot_start ztol n (m : fmat R) : 0 <= ztol <= 1 -> nr m = n -> nc m = n -> let X0 := zMatDivDRC ztol (transpose m) (zMatSqrNorm m) in
  nr X0 = n /\ nc X0 = n /\ exists c, 0 < c /\ c * frob n m <= 1 /\ forall i j, el X0 i j = el m j i * c.
Proof.
  intros Hz M1 M2 X0. unfold X0, zMatDivDRC. rewrite (frob_R n m M1 M2), is_tol_R. pose proof (frob_nonneg n m) as F.
  destruct (Rleb_spec (Rabs (frob n m)) ztol) as [L|L]; rewrite (Rabs_right _ (Rle_ge _ _ F)) in L.
  - cbn. split; auto. split; auto. exists 1. split; [lra|]. split; [lra|]. intros; ring.
  - cbn. split; auto. split; auto. exists (1 / frob n m). split; [apply Rdiv_lt_0_compat; lra|]. split; [|reflexivity]. apply Req_le. field. lra.
Qed.
Lemma hot_error_R n (m X : fmat R) t : nr m = n -> nc m = n -> nr X = n -> nc X = n ->
  (zMatIsTol t (hot_error m X) = true <-> forall i j, (i < n)%nat -> (j < n)%nat -> Rabs (residual n (el m) (el X) i j) <= t).
Proof.
  intros M1 M2 X1 X2. unfold zMatIsTol, hot_error, mulmm. cbn [nr nc el]. rewrite M1, M2, X2.
  assert (E : forall i j, Rabs (if (i =? j)%nat then @ssub R RealS (ksum n (fun k => @smul R RealS (el m i k) (el X k j))) s1 else ksum n (fun k => @smul R RealS (el m i k) (el X k j))) = Rabs (residual n (el m) (el X) i j)).
  { intros i j. rewrite ksum_R. unfold residual. destruct (i =? j)%nat; cbn; rewrite <- Rabs_Ropp; f_equal; ring. }
  rewrite forallb_forall. split.
  - intros H i j Hi Hj. specialize (H i ltac:(apply in_seq; lia)). rewrite forallb_forall in H. specialize (H j ltac:(apply in_seq; lia)). rewrite is_tol_R in H.
    rewrite <- E. destruct (Rleb_spec (Rabs (if (i =? j)%nat then @ssub R RealS (ksum n (fun k => @smul R RealS (el m i k) (el X k j))) s1 else ksum n (fun k => @smul R RealS (el m i k) (el X k j)))) t); [auto|discriminate].
  - intros H i Hi. apply in_seq in Hi. apply forallb_forall. intros j Hj. apply in_seq in Hj. rewrite is_tol_R. rewrite E. apply Rleb_true. apply H; lia.
Qed.
