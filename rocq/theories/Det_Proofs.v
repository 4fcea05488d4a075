(** Elementary theory of determinants, from the expansion along the first row. *)
From Verif Require Import Prelude Prelude_Proofs RealLib Fmat_Proofs LE_Spec.
Local Open Scope R_scope.
Implicit Types (A B : nat -> nat -> R).

Lemma sgn_S k : sgn (S k) = - sgn k.
Proof. unfold sgn. rewrite Nat.odd_succ, <- Nat.negb_odd. destruct (Nat.odd k); cbn; lra. Qed.
Lemma sgn_sq k : sgn k * sgn k = 1.
Proof. unfold sgn. destruct (Nat.odd k); lra. Qed.
Lemma sgn_add j k : sgn (j + k) = sgn j * sgn k.
Proof. induction j as [|j IH]; [cbn; unfold sgn; cbn; lra|]. cbn [Nat.add]. rewrite !sgn_S, IH. ring. Qed.
(** innermost tests first *)
Ltac nbi := repeat (match goal with
  | |- context [Nat.eqb ?a ?b] => lazymatch a with context [if _ then _ else _] => fail | _ => destruct (Nat.eqb_spec a b) end
  end; try (exfalso; lia); cbn [andb orb negb]); subst; auto; try lia.
Ltac sk := unfold skip in *; nbp.
Lemma det_ext n A B : (forall r c, (r < n)%nat -> (c < n)%nat -> A r c = B r c) -> det n A = det n B.
Proof.
  revert A B; induction n as [|n IH]; intros A B H; auto. cbn -[rsum]. apply rsum_ext. intros j Hj. rewrite H by lia. f_equal. apply IH.
  intros r c Hr Hc. unfold minor. apply H; sk.
Qed.
(** linear in each row *)
Definition setrow A i (f : nat -> R) : nat -> nat -> R := fun r c => if (r =? i)%nat then f c else A r c.
Lemma setrow_eq A i f c : setrow A i f i c = f c.
Proof. unfold setrow. now rewrite Nat.eqb_refl. Qed.
Lemma setrow_0S A i f c : setrow A (S i) f 0%nat c = A 0%nat c.
Proof. reflexivity. Qed.
Lemma minor_setrow_0 A f j r c : minor (setrow A 0 f) 0 j r c = minor A 0 j r c.
Proof. unfold minor, setrow, skip. cbn. auto. Qed.
Lemma minor_setrow_S A f i j r c : minor (setrow A (S i) f) 0 j r c = setrow (minor A 0 j) i (fun c => f (skip j c)) r c.
Proof. unfold minor, setrow, skip at 1 3. cbn. auto. Qed.
Lemma det_linear n A i f g a b : (i < n)%nat -> det n (setrow A i (fun c => a * f c + b * g c)) = a * det n (setrow A i f) + b * det n (setrow A i g).
Proof.
  revert A i f g; induction n as [|n IH]; intros A i f g Hi; [lia|]. cbn [det]. rewrite <- !rsum_scal, <- rsum_add. apply rsum_ext. intros j Hj. destruct i as [|i].
  - assert (Q : forall h, det n (minor (setrow A 0 h) 0 j) = det n (minor A 0 j)) by (intros; apply det_ext; intros; apply minor_setrow_0).
    rewrite !Q. rewrite !setrow_eq. ring.
  - assert (Q : forall h, det n (minor (setrow A (S i) h) 0 j) = det n (setrow (minor A 0 j) i (fun c => h (skip j c)))) by (intros; apply det_ext; intros; apply minor_setrow_S).
    rewrite !Q. rewrite IH by lia. rewrite !setrow_0S. ring.
Qed.
(** a vanishing first column *)
Lemma det_col0 n A : (0 < n)%nat -> (forall r, (r < n)%nat -> A r 0%nat = 0) -> det n A = 0.
Proof.
  revert A; induction n as [|n IH]; intros A Hn H; [lia|]. cbn [det]. apply rsum_0. intros j Hj. destruct j as [|j].
  - rewrite H by lia. ring.
  - rewrite IH; [ring|lia|]. intros r Hr. unfold minor. replace (skip (S j) 0) with 0%nat by sk. apply H. sk.
Qed.
(** rows i.. supported right of column i *)
Lemma det_block n A i : (i < n)%nat -> (forall r c, (i <= r < n)%nat -> (c <= i)%nat -> A r c = 0) -> det n A = 0.
Proof.
  revert A i; induction n as [|n IH]; intros A i Hi H; [lia|]. destruct i as [|i]; [apply det_col0; auto; intros; apply H; lia|].
  cbn [det]. apply rsum_0. intros j Hj. rewrite (IH _ i); [ring|lia|]. intros r c Hr Hc. unfold minor. apply H; sk.
Qed.
(** upper triangular *)
Fixpoint dprod (n : nat) (f : nat -> R) : R := match n with O => 1 | S k => dprod k f * f k end.
Lemma dprod_S_l n f : dprod (S n) f = f 0%nat * dprod n (fun i => f (S i)).
Proof. induction n as [|n IH]; [cbn; ring|]. cbn [dprod] in *. rewrite IH. ring. Qed.
Lemma det_upper n A : (forall r c, (r < n)%nat -> (c < r)%nat -> A r c = 0) -> det n A = dprod n (fun i => A i i).
Proof.
  revert A; induction n as [|n IH]; intros A H; auto. cbn [det]. rewrite dprod_S_l, rsum_S_l.
  rewrite rsum_0; [|intros j Hj]. 2:{ rewrite det_col0; [ring|lia|]. intros r Hr. unfold minor. apply H; sk. }
  rewrite IH. { unfold sgn, minor, skip. cbn. ring. } intros r c Hr Hc. unfold minor. apply H; sk.
Qed.

(** exchanging two adjacent rows *)
Lemma rsum_pairs n (f : nat -> nat -> R) :
  rsum (S n) (fun j => rsum n (fun k => f j k)) = rsum (S n) (fun k => rsum k (fun j => f j (k - 1)%nat + f k j)).
Proof.
  induction n as [|n IH]; [cbn; lra|].
  replace (rsum (S (S n)) (fun j => rsum (S n) (fun k => f j k))) with (rsum (S n) (fun j => rsum (S n) (fun k => f j k)) + rsum (S n) (fun k => f (S n) k)) by reflexivity.
  replace (rsum (S (S n)) (fun k => rsum k (fun j => f j (k - 1)%nat + f k j))) with (rsum (S n) (fun k => rsum k (fun j => f j (k - 1)%nat + f k j)) + rsum (S n) (fun j => f j (S n - 1)%nat + f (S n) j)) by reflexivity.
  rewrite <- IH. rewrite (rsum_add (S n) (fun j => f j (S n - 1)%nat)).
  assert (rsum (S n) (fun j => rsum (S n) (fun k => f j k)) = rsum (S n) (fun j => rsum n (fun k => f j k)) + rsum (S n) (fun j => f j (S n - 1)%nat)) as ->; [|rewrite Rplus_assoc; reflexivity].
  rewrite <- rsum_add. apply rsum_ext. intros j Hj. cbn. rewrite Nat.sub_0_r. auto.
Qed.
Definition swaprow A i j : nat -> nat -> R := fun r c => A (if (r =? i)%nat then j else if (r =? j)%nat then i else r) c.
Lemma det2 n A : det (S (S n)) A = rsum (S (S n)) (fun j => rsum (S n) (fun k => sgn j * sgn k * A 0%nat j * A 1%nat (skip j k) * det n (fun r c => A (S (S r)) (skip j (skip k c))))).
Proof.
  change (det (S (S n)) A) with (rsum (S (S n)) (fun j => sgn j * A 0%nat j * det (S n) (minor A 0 j))). apply rsum_ext. intros j Hj.
  change (det (S n) (minor A 0 j)) with (rsum (S n) (fun k => sgn k * minor A 0 j 0%nat k * det n (minor (minor A 0 j) 0 k))).
  rewrite <- rsum_scal. apply rsum_ext. intros k Hk. unfold minor at 1. replace (skip 0 0) with 1%nat by (unfold skip; auto).
  rewrite (det_ext n (minor (minor A 0 j) 0 k) (fun r c => A (S (S r)) (skip j (skip k c)))) by (intros; unfold minor, skip; auto). ring.
Qed.
Lemma det_swap01 n A : (1 < n)%nat -> det n (swaprow A 0 1) = - det n A.
Proof.
  intros Hn. destruct n as [|[|n]]; try lia. rewrite !det2, !rsum_pairs, <- rsum_opp. apply rsum_ext. intros k Hk. rewrite <- rsum_opp. apply rsum_ext. intros j Hj.
  assert (S1 : skip j (k - 1) = k) by sk. assert (S2 : skip k j = j) by sk. rewrite S1, S2.
  rewrite (det_ext n (fun r c => swaprow A 0 1 (S (S r)) (skip j (skip (k - 1) c))) (fun r c => A (S (S r)) (skip k (skip j c)))).
  2:{ intros r c Hr Hc. unfold swaprow. cbn [Nat.eqb]. f_equal. sk. }
  rewrite (det_ext n (fun r c => swaprow A 0 1 (S (S r)) (skip k (skip j c))) (fun r c => A (S (S r)) (skip k (skip j c)))) by (intros; auto).
  rewrite (det_ext n (fun r c => A (S (S r)) (skip j (skip (k - 1) c))) (fun r c => A (S (S r)) (skip k (skip j c)))).
  2:{ intros r c Hr Hc. f_equal. sk. }
  unfold swaprow. cbn [Nat.eqb]. destruct k as [|k]; [lia|]. rewrite Nat.sub_succ, Nat.sub_0_r, sgn_S. ring.
Qed.
Lemma det_adj n A i : (S i < n)%nat -> det n (swaprow A i (S i)) = - det n A.
Proof.
  revert n A; induction i as [|i IH]; intros n A Hi; [now apply det_swap01|]. destruct n as [|n]; [lia|]. cbn [det]. rewrite <- rsum_opp. apply rsum_ext. intros j Hj.
  rewrite (det_ext n (minor (swaprow A (S i) (S (S i))) 0 j) (swaprow (minor A 0 j) i (S i))).
  - rewrite IH by lia. unfold swaprow. cbn [Nat.eqb]. ring.
  - intros r c Hr Hc. unfold minor, swaprow. replace (skip 0 r) with (S r) by (unfold skip; auto). cbn [Nat.eqb].
    destruct (Nat.eqb_spec r i); [unfold skip; auto|]. change (match r with O => false | S m' => (m' =? i)%nat end) with (r =? S i)%nat.
    destruct (Nat.eqb_spec r (S i)); unfold skip; auto.
Qed.
Lemma det_swap n A i j : (i < j)%nat -> (j < n)%nat -> det n (swaprow A i j) = - det n A.
Proof.
  intros Hij Hj. remember (j - i)%nat as d eqn:Ed. revert A i j Ed Hij Hj. induction d as [|d IH]; intros A i j Ed Hij Hj; [lia|].
  destruct (Nat.eq_dec j (S i)) as [->|N]; [apply det_adj; auto|].
  rewrite (det_ext n _ (swaprow (swaprow (swaprow A i (S i)) (S i) j) i (S i))).
  - rewrite det_adj by lia. rewrite IH by lia. rewrite det_adj by lia. ring.
  - intros r c Hr Hc. unfold swaprow. f_equal.
    nbi.
Qed.
Lemma det_equal_rows n A i j : (i < j)%nat -> (j < n)%nat -> (forall c, (c < n)%nat -> A i c = A j c) -> det n A = 0.
Proof.
  intros Hij Hj H. assert (det n (swaprow A i j) = det n A) as E.
  { apply det_ext. intros r c Hr Hc. unfold swaprow. nbp. symmetry. auto. }
  rewrite det_swap in E by auto. lra.
Qed.
(** adding a multiple of one row to another *)
Lemma det_addrow n A i j a : (i < n)%nat -> (j < n)%nat -> i <> j -> det n (setrow A i (fun c => A i c + a * A j c)) = det n A.
Proof.
  intros Hi Hj N. rewrite (det_ext n _ (setrow A i (fun c => 1 * A i c + a * A j c))) by (intros; unfold setrow; nbp; lra).
  rewrite det_linear by auto. assert (det n (setrow A i (A j)) = 0) as ->.
  { destruct (lt_eq_lt_dec i j) as [[G|G]|G]; [|lia|].
    - apply (det_equal_rows n _ i j); auto. intros. unfold setrow. nbp.
    - apply (det_equal_rows n _ j i); auto. intros. unfold setrow. nbp. }
  rewrite (det_ext n (setrow A i (A i)) A) by (intros; unfold setrow; nbp). ring.
Qed.
(** adding multiples of row [p] to every other row *)
Lemma det_elim n A p (a : nat -> R) : (p < n)%nat -> a p = 0 -> det n (fun r c => A r c + a r * A p c) = det n A.
Proof.
  intros Hp Ha. assert (forall k, (k <= n)%nat -> det n (fun r c => if (r <? k)%nat then A r c + a r * A p c else A r c) = det n A) as G.
  { induction k as [|k IH]; intros Hk; [apply det_ext; intros; nbp|]. rewrite <- IH by lia.
    destruct (Nat.eq_dec k p) as [->|N].
    - apply det_ext. intros r c Hr Hc. nbp. replace r with p by lia. rewrite Ha. lra.
    - rewrite <- (det_addrow n (fun r c => if (r <? k)%nat then A r c + a r * A p c else A r c) k p (a k)) by (auto; lia).
      apply det_ext. intros r c Hr Hc. unfold setrow. nbp; rewrite ?Ha; try lra; replace r with k in * by lia; lra. }
  rewrite <- (G n) by lia. apply det_ext. intros. nbp.
Qed.
(** expansion along any row *)
Lemma det_row n A i : (i < S n)%nat -> det (S n) A = rsum (S n) (fun j => sgn (i + j) * A i j * det n (minor A i j)).
Proof.
  revert A; induction i as [|i IH]; intros A Hi; [reflexivity|].
  rewrite <- (Ropp_involutive (det (S n) A)), <- (det_adj (S n) A i) by lia. rewrite IH by lia. rewrite <- rsum_opp. apply rsum_ext. intros j Hj.
  cbn [Nat.add]. rewrite sgn_S. unfold swaprow at 1. rewrite Nat.eqb_refl.
  rewrite (det_ext n (minor (swaprow A i (S i)) i j) (minor A (S i) j)); [ring|].
  intros r c Hr Hc. unfold minor, swaprow. f_equal. unfold skip. destruct (Nat.ltb_spec r i), (Nat.ltb_spec r (S i)); nbp.
Qed.
(** the matrix times its cofactors *)
Lemma det_cofactors n A i k : (i < S n)%nat -> (k < S n)%nat ->
  rsum (S n) (fun j => A k j * (sgn (i + j) * det n (minor A i j))) = if (i =? k)%nat then det (S n) A else 0.
Proof.
  intros Hi Hk. transitivity (det (S n) (setrow A i (A k))).
  - rewrite (det_row n _ i) by auto. apply rsum_ext. intros j Hj. rewrite setrow_eq.
    rewrite (det_ext n (minor (setrow A i (A k)) i j) (minor A i j)); [ring|]. intros r c Hr Hc. unfold minor, setrow. sk.
  - destruct (Nat.eqb_spec i k) as [->|N].
    + apply det_ext. intros. unfold setrow. nbp.
    + destruct (lt_eq_lt_dec i k) as [[G|G]|G]; [|lia|].
      * apply (det_equal_rows (S n) _ i k); auto. intros. unfold setrow. nbp.
      * apply (det_equal_rows (S n) _ k i); auto. intros. unfold setrow. nbp.
Qed.
