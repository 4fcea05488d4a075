(** Systems of equations with a basis: the theory behind C43 and C44.  Rows 0..m-1, columns 0..N-1, the basis [ib]
    is a list of m columns. *)
From Coq Require Import Reals Lra Lia List Permutation Classical_Prop.
From Verif Require Import Prelude Prelude_Proofs RealLib Fmat_Proofs.
Import ListNotations.
Local Open Scope R_scope.

(** x solves T x = p *)
Definition sol (m N : nat) (T : nat -> nat -> R) (p x : nat -> R) : Prop :=
  forall i, (i < m)%nat -> rsum N (fun j => T i j * x j) = p i.
(** the k-th column of the basis *)
Definition bc (ib : list nat) (k : nat) : nat := nth k ib O.
(** the vector with the components g on the basis, zero elsewhere *)
Definition bsol (m : nat) (ib : list nat) (g : nat -> R) (j : nat) : R := rsum m (fun k => if (bc ib k =? j)%nat then g k else 0).

(** [ib], T, p is a form of the system T0 x = p0 solved for the basis *)
Record valid (m N : nat) (T0 : nat -> nat -> R) (p0 : nat -> R) (ib : list nat) (T : nat -> nat -> R) (p : nat -> R) : Prop := {
  v_len : length ib = m;
  v_lt : forall k, (k < m)%nat -> (bc ib k < N)%nat;
  v_unit : forall i k, (i < m)%nat -> (k < m)%nat -> T i (bc ib k) = if (i =? k)%nat then 1 else 0;
  v_sol : forall x, sol m N T0 p0 x <-> sol m N T p x }.

(** elimination of the column s by the row r *)
Definition pivT (T : nat -> nat -> R) (r s i j : nat) : R := if (i =? r)%nat then T r j / T r s else T i j - T r j / T r s * T i s.
Definition pivp (T : nat -> nat -> R) (p : nat -> R) (r s i : nat) : R := if (i =? r)%nat then p r / T r s else p i - p r / T r s * T i s.

Lemma rsum_pick1 n k f : (k < n)%nat -> rsum n (fun i => if (k =? i)%nat then f i else 0) = f k.
Proof. intros H. rewrite (rsum_delta n k) by (auto; intros; nbp). now rewrite Nat.eqb_refl. Qed.

Lemma spread m N ib f g : (forall k, (k < m)%nat -> (bc ib k < N)%nat) ->
  rsum N (fun j => f j * bsol m ib g j) = rsum m (fun k => f (bc ib k) * g k).
Proof.
  intros H. unfold bsol.
  transitivity (rsum N (fun j => rsum m (fun k => f j * (if (bc ib k =? j)%nat then g k else 0)))).
  { apply rsum_ext. intros. now rewrite rsum_scal. }
  rewrite rsum_swap. apply rsum_ext. intros k Hk.
  rewrite (rsum_ext N _ (fun i => if (bc ib k =? i)%nat then f i * g k else 0)) by (intros; nbt; ring).
  rewrite (rsum_pick1 N (bc ib k) (fun i => f i * g k)) by auto. reflexivity.
Qed.

Section Valid.
  Context (m N : nat) (T0 : nat -> nat -> R) (p0 : nat -> R).

  Lemma valid_inj ib T p k l : valid m N T0 p0 ib T p -> (k < m)%nat -> (l < m)%nat -> bc ib k = bc ib l -> k = l.
  Proof.
    intros V Hk Hl E. pose proof (v_unit _ _ _ _ _ _ _ V k k Hk Hk) as A. pose proof (v_unit _ _ _ _ _ _ _ V k l Hk Hl) as B.
    rewrite E, Nat.eqb_refl in A. rewrite A in B. destruct (Nat.eqb_spec k l); auto. lra.
  Qed.
  Lemma unit_row ib T p (V : valid m N T0 p0 ib T p) i g : (i < m)%nat -> rsum m (fun k => T i (bc ib k) * g k) = g i.
  Proof.
    intros Hi. rewrite (rsum_ext m _ (fun k => if (i =? k)%nat then g k else 0)).
    - now rewrite rsum_pick1.
    - intros k Hk. rewrite (v_unit _ _ _ _ _ _ _ V) by auto. nbt; ring.
  Qed.
  (** the two test vectors *)
  Lemma bsol_sol ib T p : valid m N T0 p0 ib T p -> sol m N T p (bsol m ib p).
  Proof. intros V i Hi. rewrite spread by apply (v_lt _ _ _ _ _ _ _ V). now rewrite (unit_row ib T p V). Qed.
  Definition tv ib (T : nat -> nat -> R) (p : nat -> R) (j0 j : nat) : R :=
    (if (j0 =? j)%nat then 1 else 0) + bsol m ib (fun k => p k - T k j0) j.
  Lemma tv_sum ib f T p j0 : (forall k, (k < m)%nat -> (bc ib k < N)%nat) -> (j0 < N)%nat ->
    rsum N (fun j => f j * tv ib T p j0 j) = f j0 + rsum m (fun k => f (bc ib k) * (p k - T k j0)).
  Proof.
    intros H Hj. unfold tv. rewrite (rsum_ext N _ (fun j => (if (j0 =? j)%nat then f j else 0) + f j * bsol m ib (fun k => p k - T k j0) j)).
    - now rewrite rsum_add, rsum_pick1, spread.
    - intros. nbt; ring.
  Qed.
  Lemma tv_sol ib T p j0 : valid m N T0 p0 ib T p -> (j0 < N)%nat -> sol m N T p (tv ib T p j0).
  Proof.
    intros V Hj i Hi. rewrite tv_sum by (auto; apply (v_lt _ _ _ _ _ _ _ V)).
    rewrite (unit_row ib T p V i (fun k => p k - T k j0)) by auto. ring.
  Qed.
  Lemma valid_unique ib T p T' p' : valid m N T0 p0 ib T p -> valid m N T0 p0 ib T' p' ->
    (forall i, (i < m)%nat -> p i = p' i) /\ (forall i j, (i < m)%nat -> (j < N)%nat -> T i j = T' i j).
  Proof.
    intros V V'.
    assert (Hp : forall i, (i < m)%nat -> p i = p' i).
    { intros i Hi. pose proof (proj1 (v_sol _ _ _ _ _ _ _ V' _) (proj2 (v_sol _ _ _ _ _ _ _ V _) (bsol_sol _ _ _ V)) i Hi) as E.
      rewrite spread in E by apply (v_lt _ _ _ _ _ _ _ V). rewrite (unit_row ib T' p' V') in E by auto. auto. }
    split; auto. intros i j Hi Hj.
    pose proof (proj1 (v_sol _ _ _ _ _ _ _ V' _) (proj2 (v_sol _ _ _ _ _ _ _ V _) (tv_sol _ _ _ j V Hj)) i Hi) as E.
    rewrite tv_sum in E by (auto; apply (v_lt _ _ _ _ _ _ _ V)).
    rewrite (unit_row ib T' p' V' i (fun k => p k - T k j)) in E by auto. rewrite (Hp i Hi) in E. lra.
  Qed.

  (** elimination *)
  Lemma piv_sol T p r s x : (r < m)%nat -> T r s <> 0 -> (sol m N T p x <-> sol m N (pivT T r s) (pivp T p r s) x).
  Proof.
    intros Hr D.
    assert (E : forall i, rsum N (fun j => pivT T r s i j * x j) =
      if (i =? r)%nat then rsum N (fun j => T r j * x j) / T r s else rsum N (fun j => T i j * x j) - rsum N (fun j => T r j * x j) / T r s * T i s).
    { intros i. unfold pivT. destruct (Nat.eqb_spec i r).
      - subst. unfold Rdiv at 2. rewrite <- rsum_scal_r. apply rsum_ext. intros. field. auto.
      - replace (rsum N (fun j => T r j * x j) / T r s * T i s) with (rsum N (fun j => T r j * x j) * (T i s / T r s)) by (field; auto).
        rewrite <- rsum_scal_r, <- rsum_sub. apply rsum_ext. intros. field. auto. }
    split; intros S i Hi.
    - rewrite E. unfold pivp. rewrite (S r Hr). destruct (Nat.eqb_spec i r); auto. rewrite S by auto. reflexivity.
    - pose proof (S r Hr) as A. rewrite E in A. unfold pivp in A. rewrite !Nat.eqb_refl in A.
      assert (A' : rsum N (fun j => T r j * x j) = p r).
      { apply Rmult_eq_reg_r with (/ T r s); auto. now apply Rinv_neq_0_compat. }
      destruct (Nat.eq_dec i r). { subst; auto. }
      pose proof (S i Hi) as B. rewrite E in B. unfold pivp in B. rewrite A' in B.
      destruct (Nat.eqb_spec i r); [lia|]. lra.
  Qed.
  Lemma piv_valid ib T p r s : valid m N T0 p0 ib T p -> (r < m)%nat -> (s < N)%nat -> T r s <> 0 ->
    valid m N T0 p0 (upd ib r s) (pivT T r s) (pivp T p r s).
  Proof.
    intros V Hr Hs D. pose proof (v_len _ _ _ _ _ _ _ V) as L.
    assert (B : forall k, bc (upd ib r s) k = if (k =? r)%nat then s else bc ib k).
    { intros k. unfold bc. rewrite nth_upd by lia. nbp. }
    split.
    - now rewrite upd_length.
    - intros k Hk. rewrite B. nbt; auto. now apply (v_lt _ _ _ _ _ _ _ V).
    - intros i k Hi Hk. rewrite B. unfold pivT. pose proof (v_unit _ _ _ _ _ _ _ V) as U. nbt; subst; try lia; try (field; auto); try (rewrite !U by auto; nbt; subst; try lia; field; auto).
    - intros x. rewrite (v_sol _ _ _ _ _ _ _ V x). now apply piv_sol.
  Qed.
  Lemma valid_ext ib T p T' p' : valid m N T0 p0 ib T p ->
    (forall i, (i < m)%nat -> p' i = p i) -> (forall i j, (i < m)%nat -> (j < N)%nat -> T' i j = T i j) -> valid m N T0 p0 ib T' p'.
  Proof.
    intros V Hp HT. split.
    - apply (v_len _ _ _ _ _ _ _ V).
    - apply (v_lt _ _ _ _ _ _ _ V).
    - intros i k Hi Hk. rewrite HT by (auto; now apply (v_lt _ _ _ _ _ _ _ V)). now apply (v_unit _ _ _ _ _ _ _ V).
    - intros x. rewrite (v_sol _ _ _ _ _ _ _ V x). split; intros S i Hi.
      + rewrite Hp by auto. rewrite <- (S i Hi). apply rsum_ext. intros. now rewrite HT.
      + rewrite <- Hp by auto. rewrite <- (S i Hi). apply rsum_ext. intros. now rewrite HT.
  Qed.
  (** the right hand side stays non-negative if the row is chosen by the ratio test *)
  Lemma piv_nonneg T p r s : (r < m)%nat -> 0 < T r s -> (forall i, (i < m)%nat -> 0 <= p i) ->
    (forall i, (i < m)%nat -> 0 < T i s -> p r / T r s <= p i / T i s) -> forall i, (i < m)%nat -> 0 <= pivp T p r s i.
  Proof.
    intros Hr D P Q i Hi. unfold pivp.
    assert (A : 0 <= p r / T r s). { apply Rmult_le_pos; auto. left. now apply Rinv_0_lt_compat. }
    destruct (Nat.eqb_spec i r); auto.
    destruct (Rlt_dec 0 (T i s)).
    - pose proof (Q i Hi r0). assert (p r / T r s * T i s <= p i / T i s * T i s) by (apply Rmult_le_compat_r; lra).
      replace (p i / T i s * T i s) with (p i) in H0 by (field; lra). lra.
    - pose proof (P i Hi). assert (p r / T r s * T i s <= 0) by (rewrite <- (Rmult_0_r (p r / T r s)); apply Rmult_le_compat_l; lra). lra.
  Qed.

  (** reduced costs: c0 x = c x + d for the solutions *)
  Definition costs (T : nat -> nat -> R) (p : nat -> R) (c0 c : nat -> R) (d : R) : Prop :=
    forall x, sol m N T p x -> rsum N (fun j => c0 j * x j) = rsum N (fun j => c j * x j) + d.
  Definition red (c0 : nat -> R) ib (T : nat -> nat -> R) (j : nat) : R := c0 j - rsum m (fun k => c0 (bc ib k) * T k j).
  Definition val (c0 : nat -> R) ib (p : nat -> R) : R := rsum m (fun k => c0 (bc ib k) * p k).
  Lemma costs_red ib T p c0 c d : valid m N T0 p0 ib T p -> costs T p c0 c d -> (forall k, (k < m)%nat -> c (bc ib k) = 0) ->
    d = val c0 ib p /\ forall j, (j < N)%nat -> c j = red c0 ib T j.
  Proof.
    intros V C Z.
    assert (D : d = val c0 ib p).
    { pose proof (C _ (bsol_sol _ _ _ V)) as E. rewrite !spread in E by apply (v_lt _ _ _ _ _ _ _ V).
      rewrite (rsum_0 m (fun k => c (bc ib k) * p k)) in E by (intros; rewrite Z by auto; ring). unfold val. lra. }
    split; auto. intros j Hj.
    pose proof (C _ (tv_sol _ _ _ j V Hj)) as E. rewrite !tv_sum in E by (auto; apply (v_lt _ _ _ _ _ _ _ V)).
    rewrite (rsum_0 m (fun k => c (bc ib k) * (p k - T k j))) in E by (intros; rewrite Z by auto; ring).
    unfold red. rewrite D in E. unfold val in E.
    rewrite (rsum_ext m _ (fun k => c0 (bc ib k) * p k - c0 (bc ib k) * T k j)) in E by (intros; ring).
    rewrite rsum_sub in E. lra.
  Qed.

  (** ** small tolerances *)
  Definition apart (tol q : R) : Prop := q = 0 \/ tol < Rabs q.
  Definition good (c0 : nat -> R) (tol : R) : Prop :=
    forall ib T p, valid m N T0 p0 ib T p ->
      (forall i j, (i < m)%nat -> (j < N)%nat -> apart tol (T i j)) /\
      (forall j, (j < N)%nat -> apart tol (red c0 ib T j)) /\ apart tol (val c0 ib p).
End Valid.

Lemma finite_pos {X} (P : X -> R -> Prop) (l : list X) :
  (forall x, In x l -> exists d, 0 < d /\ forall t, t <= d -> P x t) -> exists d, 0 < d /\ forall t x, t <= d -> In x l -> P x t.
Proof.
  induction l as [|a l IH]; intros H.
  - exists 1. split; [lra|]. intros t x _ [].
  - destruct (H a) as (d1 & A1 & B1); [now left|]. destruct IH as (d2 & A2 & B2); [intros; apply H; now right|].
    exists (Rmin d1 d2). split; [now apply Rmin_glb_lt|]. intros t x Ht [->|I].
    + apply B1. eapply Rle_trans; [exact Ht|apply Rmin_l].
    + apply B2; auto. eapply Rle_trans; [exact Ht|apply Rmin_r].
Qed.
Lemma apart_ex q : exists d, 0 < d /\ forall t, t <= d -> apart t q.
Proof.
  destruct (Req_dec q 0) as [->|H].
  - exists 1. split; [lra|]. intros. now left.
  - assert (0 < Rabs q) by now apply Rabs_pos_lt. exists (Rabs q / 2). split; [lra|]. intros t Ht. right. lra.
Qed.
(** all the lists of m numbers below N *)
Fixpoint lists (m N : nat) : list (list nat) :=
  match m with O => [[]] | S m => flat_map (fun l => map (fun x => x :: l) (List.seq 0 N)) (lists m N) end.
Lemma lists_in N : forall m l, length l = m -> (forall k, (k < m)%nat -> (bc l k < N)%nat) -> In l (lists m N).
Proof.
  induction m as [|m IH]; intros l L H; destruct l as [|x l]; cbn in L; try discriminate.
  - now left.
  - cbn [lists]. apply in_flat_map. exists l. split.
    + apply IH; [lia|]. intros k Hk. apply (H (S k)). lia.
    + apply in_map_iff. exists x. split; auto. apply in_seq. specialize (H O). cbn in H. lia.
Qed.

Theorem good_ex m N T0 p0 c0 : exists d, 0 < d /\ forall tol, tol <= d -> good m N T0 p0 c0 tol.
Proof.
  destruct (finite_pos (fun ib tol => forall T p, valid m N T0 p0 ib T p ->
      (forall i j, (i < m)%nat -> (j < N)%nat -> apart tol (T i j)) /\
      (forall j, (j < N)%nat -> apart tol (red m c0 ib T j)) /\ apart tol (val m c0 ib p)) (lists m N)) as (d & D & H).
  - intros ib _. destruct (classic (exists T p, valid m N T0 p0 ib T p)) as [(T & p & V)|NV].
    + destruct (finite_pos (fun q t => apart t q)
        (map (fun ij => T (fst ij) (snd ij)) (list_prod (List.seq 0 m) (List.seq 0 N)) ++ map (red m c0 ib T) (List.seq 0 N) ++ [val m c0 ib p]))
        as (d & D & H).
      { intros q _. apply apart_ex. }
      exists d. split; auto. intros t Ht T' p' V'. destruct (valid_unique m N T0 p0 ib T p T' p' V V') as (Ep & ET).
      conjs.
      * intros i j Hi Hj. rewrite <- ET by auto. apply (H t); auto. apply in_or_app. left. apply in_map_iff. exists (i, j). split; auto.
        apply in_prod; apply in_seq; lia.
      * intros j Hj. replace (red m c0 ib T' j) with (red m c0 ib T j).
        -- apply (H t); auto. apply in_or_app. right. apply in_or_app. left. apply in_map_iff. exists j. split; auto. apply in_seq; lia.
        -- unfold red. f_equal. apply rsum_ext. intros k Hk. now rewrite ET.
      * replace (val m c0 ib p') with (val m c0 ib p).
        -- apply (H t); auto. apply in_or_app. right. apply in_or_app. right. now left.
        -- unfold val. apply rsum_ext. intros k Hk. now rewrite Ep.
    + exists 1. split; [lra|]. intros t _ T p V. exfalso. eauto.
  - exists d. split; auto. intros tol Ht ib T p V. apply (H tol ib Ht); auto.
    apply lists_in; [apply (v_len _ _ _ _ _ _ _ V)|apply (v_lt _ _ _ _ _ _ _ V)].
Qed.
