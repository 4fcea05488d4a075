(** Complex matrices: proofs. *)
From Coq Require Import Reals Lra.
From Verif Require Import Prelude Prelude_Proofs Scalar RealLib Complex_Model Complex_Spec Complex_Proofs Complex2_Proofs Cmat_Model Cmat_Spec.
From Coquelicot Require Import Coquelicot.
From Coq Require Import List.
Import ListNotations.
Local Open Scope list_scope.
Local Open Scope R_scope.

Lemma ix_lt r c i j : (i < r)%nat -> (j < c)%nat -> (i * c + j < r * c)%nat.
Proof. nia. Qed.
Lemma vstored_m (m m' : cmem R) A f F : vstored m (mb A) (cnt A) f m' ->
  (forall i j, (i < mr A)%nat -> (j < mc A)%nat -> f (i * mc A + j)%nat = F i j) -> mholds m A F m'.
Proof.
  intros V H. unfold cnt in V. split.
  - intros i j Hi Hj. pose proof (ix_lt _ _ i j Hi Hj). unfold mel. rewrite V.
    replace (mb A <=? mb A + i * mc A + j)%nat with true by lia. replace (mb A + i * mc A + j <? mb A + mr A * mc A)%nat with true by lia.
    cbn [andb]. rewrite <- H by auto. f_equal. lia.
  - intros k Hk. rewrite V. destruct (Nat.leb_spec (mb A) k), (Nat.ltb_spec k (mb A + mr A * mc A)); cbn [andb]; auto; lia.
Qed.
Lemma vstored_v (m m' : cmem R) v n f F : vstored m (vb v) n f m' -> n = vn v ->
  (forall i, (i < vn v)%nat -> f i = F i) -> vholds m v F m'.
Proof.
  intros V -> H. split.
  - intros i Hi. unfold vel. rewrite V.
    replace (vb v <=? vb v + i)%nat with true by lia. replace (vb v + i <? vb v + vn v)%nat with true by lia.
    cbn [andb]. rewrite <- H by auto. f_equal. lia.
  - intros k Hk. rewrite V. destruct (Nat.leb_spec (vb v) k), (Nat.ltb_spec k (vb v + vn v)); cbn [andb]; auto; lia.
Qed.
Lemma same_true A B : same A B = true -> mr A = mr B /\ mc A = mc B.
Proof. unfold same. rewrite Bool.andb_true_iff, !Nat.eqb_eq. auto. Qed.
Lemma one_ahead A D : mr A = mr D -> mc A = mc D -> one_or_apart A D -> ahead (mb D) (mb A) (cnt D).
Proof. intros E1 E2 [->|H]; unfold ahead, apart, disjoint, cnt in *; [lia|]. rewrite E1, E2 in H. lia. Qed.
Lemma apart_ahead1 A D : mr A = mr D -> mc A = mc D -> apart A D -> (mr D * mc D <> 0)%nat -> ahead1 (mb D) (mb A) (cnt D).
Proof. intros E1 E2 H N. unfold ahead1, apart, disjoint, cnt in *. rewrite E1, E2 in H. lia. Qed.

(** loops over elements that are not adjacent *)
Lemma cvloop_inv {T} (P : nat -> cmem T -> Prop) n f (m : cmem T) : P 0%nat m ->
  (forall i m', (i < n)%nat -> P i m' -> P (S i) (f i m')) -> P n (cvloop n f m).
Proof.
  intros H0 HS. unfold cvloop. induction n as [|n IH]; auto. rewrite seq_S, fold_left_app. cbn [fold_left Nat.add].
  apply HS; auto.
Qed.
Lemma csum_ext n f g : (forall i, (i < n)%nat -> f i = g i) -> csum n f = csum n g.
Proof. induction n as [|n IH]; intros H; auto. cbn [csum]. rewrite IH, H by auto. reflexivity. Qed.

Lemma mulmv_ok (m : cmem R) A v1 v : (mc A <= vn v1)%nat -> mr A = vn v -> mv_apart A v -> vv_apart v1 v ->
  exists m', zCMulMatVecNC m A v1 v = Ok m' /\ vholds m v (fun i => csum (mc A) (fun j => Cmult (mel m A i j) (vel m v1 j))) m'.
Proof.
  intros H1 H2 P1 P2. unfold zCMulMatVecNC. replace (mc A <=? vn v1)%nat with true by lia. replace (mr A <=? vn v)%nat with true by lia.
  cbn [andb]. eexists; split; [reflexivity|]. apply (vstored_v _ _ _ (mr A) (fun i => csum (mc A) (fun j => Cmult (mel m A i j) (vel m v1 j)))); auto.
  apply cvloop_ok. intros i m' Hi Hm. 
  match goal with |- context [create m' ?a ?b ?c] => set (m1 := create m' a b c) end.
  assert (stored m' (vb v + i) (RtoC 0) m1) as S1 by (now apply create_stored). clearbody m1.
  apply (cvloop_inv (fun j m2 => stored m' (vb v + i) (csum j (fun j => Cmult (mel m A i j) (vel m v1 j))) m2)); auto.
  intros j m2 Hj S2. unfold mv_apart, vv_apart, disjoint in *. pose proof (ix_lt _ _ i j Hi Hj) as X.
  assert (m2 (cell A i j) = mel m A i j) as ->.
  { unfold cell. rewrite S2. replace (mb A + i * mc A + j =? vb v + i)%nat with false by lia. apply Hm. lia. }
  assert (m2 (vb v1 + j)%nat = vel m v1 j) as ->.
  { rewrite S2. replace (vb v1 + j =? vb v + i)%nat with false by lia. apply Hm. lia. }
  assert (m2 (vb v + i)%nat = csum j (fun j => Cmult (mel m A i j) (vel m v1 j))) as E2.
  { rewrite S2. now rewrite Nat.eqb_refl. }
  intros k. cbn [csum]. set (z := cmulv _ _).
  assert (stored m2 (vb v + i) (Cplus (m2 (vb v + i)%nat) z) (create m2 (vb v + i) (fun m => fst (m (vb v + i)%nat) + fst z)%S (fun m => snd (m (vb v + i)%nat) + snd z)%S)) as S3.
  { apply create_stored; auto. wre. }
  rewrite S3, E2, S2. destruct (Nat.eqb_spec k (vb v + i)); auto.
Qed.

(** ** rows and columns *)
Lemma memcpy_ok (m : cmem R) s d n : disjoint s n d n -> memcpy m s d n = Ok (zCVecCopyNC m s d n).
Proof. intros H. unfold memcpy, overlap, disjoint in *. destruct (Nat.ltb_spec s (d + n)), (Nat.ltb_spec d (s + n)); cbn [andb]; auto.
  lia. Qed.
Lemma getrow_ok (m : cmem R) A (i : nat) v : (i < mr A)%nat -> mc A = vn v -> mv_apart A v ->
  exists m', zCMatGetRow m A (Z.of_nat i) v = Ok (Some m') /\ vholds m v (fun j => mel m A i j) m'.
Proof.
  intros Hi E P. unfold zCMatGetRow, zCMatGetRowNC. rewrite E, Nat.eqb_refl. cbn [negb].
  replace (Z.of_nat (mr A) <=? Z.of_nat i)%Z with false by lia. replace (0 <=? Z.of_nat i)%Z with true by lia.
  replace (Z.of_nat i <? Z.of_nat (mr A))%Z with true by lia. rewrite Nat.leb_refl. cbn [andb]. rewrite Nat2Z.id.
  unfold mv_apart, disjoint, cell in *. assert ((i + 1) * mc A <= mr A * mc A)%nat by nia.
  rewrite memcpy_ok by (unfold disjoint; lia). cbn [rmap]. eexists; split; [reflexivity|].
  eapply vstored_v; [apply zCVecCopyNC_ok; unfold ahead; lia|auto|]. intros j Hj. unfold mel. f_equal. lia.
Qed.
Lemma getcol_ok (m : cmem R) A (j : nat) v : (j < mc A)%nat -> mr A = vn v -> mv_apart A v ->
  exists m', zCMatGetCol m A (Z.of_nat j) v = Ok (Some m') /\ vholds m v (fun i => mel m A i j) m'.
Proof.
  intros Hj E P. unfold zCMatGetCol, zCMatGetColNC. rewrite E, Nat.eqb_refl. cbn [negb].
  replace (Z.of_nat (mc A) <=? Z.of_nat j)%Z with false by lia. replace (0 <=? Z.of_nat j)%Z with true by lia.
  replace (Z.of_nat j <? Z.of_nat (mc A))%Z with true by lia. rewrite Nat.leb_refl. cbn [andb rmap]. rewrite Nat2Z.id.
  eexists; split; [reflexivity|]. apply (vstored_v _ _ _ (vn v) (fun i => mel m A i j)); auto.
  apply cvloop_ok. intros i m' Hi Hm. unfold mv_apart, disjoint, cell in *.
  assert (i * mc A + j < mr A * mc A)%nat by (apply ix_lt; lia).
  assert (m' (mb A + i * mc A + j)%nat = mel m A i j) as -> by (apply Hm; lia). apply wr_stored.
Qed.
Lemma putrow_ok (m : cmem R) A (i : nat) v : (i < mr A)%nat -> mc A = vn v -> mv_apart A v ->
  exists m', zCMatPutRow m A (Z.of_nat i) v = Ok (Some m') /\
    mholds m A (fun r j => if (r =? i)%nat then vel m v j else mel m A r j) m'.
Proof.
  intros Hi E P. unfold zCMatPutRow, zCMatPutRowNC. rewrite E, Nat.eqb_refl. cbn [negb].
  replace (Z.of_nat (mr A) <=? Z.of_nat i)%Z with false by lia. replace (0 <=? Z.of_nat i)%Z with true by lia.
  replace (Z.of_nat i <? Z.of_nat (mr A))%Z with true by lia. rewrite Nat.leb_refl. cbn [andb]. rewrite Nat2Z.id.
  unfold mv_apart, disjoint, cell in *. assert ((i + 1) * mc A <= mr A * mc A)%nat by nia.
  rewrite memcpy_ok by (unfold disjoint; lia). cbn [rmap]. eexists; split; [reflexivity|].
  assert (vstored m (mb A + i * mc A + 0) (vn v) (fun j => m (vb v + j)%nat) (zCVecCopyNC m (vb v) (mb A + i * mc A + 0) (vn v))) as V
    by (apply zCVecCopyNC_ok; unfold ahead; lia).
  split.
  - intros r j Hr Hj. unfold mel. rewrite V. destruct (Nat.eqb_spec r i) as [->|N].
    + replace (mb A + i * mc A + 0 <=? mb A + i * mc A + j)%nat with true by lia.
      replace (mb A + i * mc A + j <? mb A + i * mc A + 0 + vn v)%nat with true by lia. cbn [andb]. unfold vel. f_equal. lia.
    + replace ((mb A + i * mc A + 0 <=? mb A + r * mc A + j) && (mb A + r * mc A + j <? mb A + i * mc A + 0 + vn v))%nat with false; auto.
      symmetry. apply Bool.andb_false_iff. destruct (Nat.lt_ge_cases r i) as [L|L].
      * left. apply Nat.leb_gt. assert ((r + 1) * mc A <= i * mc A)%nat by nia. lia.
      * right. apply Nat.ltb_ge. assert ((i + 1) * mc A <= r * mc A)%nat by nia. lia.
  - intros k Hk. rewrite V. destruct (Nat.leb_spec (mb A + i * mc A + 0) k), (Nat.ltb_spec k (mb A + i * mc A + 0 + vn v)); cbn [andb]; auto. lia.
Qed.
Lemma putcol_ok (m : cmem R) A (j : nat) v : (j < mc A)%nat -> mr A = vn v -> mv_apart A v ->
  exists m', zCMatPutCol m A (Z.of_nat j) v = Ok (Some m') /\
    mholds m A (fun i c => if (c =? j)%nat then vel m v i else mel m A i c) m'.
Proof.
  intros Hj E P. unfold zCMatPutCol, zCMatPutColNC. rewrite E, Nat.eqb_refl. cbn [negb].
  replace (Z.of_nat (mc A) <=? Z.of_nat j)%Z with false by lia. replace (0 <=? Z.of_nat j)%Z with true by lia.
  replace (Z.of_nat j <? Z.of_nat (mc A))%Z with true by lia. rewrite Nat.leb_refl. cbn [andb rmap]. rewrite Nat2Z.id.
  eexists; split; [reflexivity|].
  assert (forall i c, (i < mr A)%nat -> (c < mc A)%nat -> forall i', (i' < mr A)%nat -> cell A i c = cell A i' j -> i = i' /\ c = j) as INJ.
  { unfold cell. intros i c Hi Hc i' Hi' EQ.
    assert (i = i') as ->. { destruct (Nat.lt_trichotomy i i') as [L|[->|L]]; auto; exfalso.
      - assert ((i + 1) * mc A <= i' * mc A)%nat by nia. lia.
      - assert ((i' + 1) * mc A <= i * mc A)%nat by nia. lia. } lia. }
  match goal with |- mholds _ _ _ (cvloop ?n ?f m) =>
    enough ((forall i c, (i < mr A)%nat -> (c < mc A)%nat -> cvloop n f m (cell A i c) = if ((c =? j) && (i <? n))%nat then vel m v i else mel m A i c) /\
            (forall k, ~ (mb A <= k < mb A + mr A * mc A)%nat -> cvloop n f m k = m k)) as (H1 & H2);
    [|apply (cvloop_inv (fun q m' => (forall i c, (i < mr A)%nat -> (c < mc A)%nat -> m' (cell A i c) = if ((c =? j) && (i <? q))%nat then vel m v i else mel m A i c) /\
            (forall k, ~ (mb A <= k < mb A + mr A * mc A)%nat -> m' k = m k)))] end.
  - split; auto. intros i c Hi Hc. unfold mel at 1. fold (cell A i c). rewrite H1 by auto. replace (i <? vn v)%nat with true by lia.
    now rewrite Bool.andb_true_r.
  - split; auto. intros i c Hi Hc. now rewrite Bool.andb_false_r.
  - intros i m' Hi (H1 & H2). unfold mv_apart, disjoint in P.
    assert (m' (vb v + i)%nat = vel m v i) as -> by (apply H2; lia). split.
    + intros i' c Hi' Hc. unfold wr. destruct (Nat.eqb_spec (cell A i' c) (cell A i j)) as [EQ|NE].
      * destruct (INJ i' c Hi' Hc i ltac:(lia) EQ) as (-> & ->). rewrite Nat.eqb_refl. replace (i <? S i)%nat with true by lia. reflexivity.
      * rewrite H1 by auto. destruct (Nat.eqb_spec c j) as [->|]; cbn [andb]; auto.
        destruct (Nat.ltb_spec i' i), (Nat.ltb_spec i' (S i)); auto; try lia. exfalso. apply NE. f_equal. lia.
    + intros k Hk. unfold wr. assert (i * mc A + j < mr A * mc A)%nat by (apply ix_lt; lia).
      replace (k =? cell A i j)%nat with false by (unfold cell; lia). now apply H2.
Qed.

(** ** conversions *)
Lemma conv_ok (m : cmem R) (r : list R) n d F : (n <= length r)%nat ->
  (forall i, (i < n)%nat -> nth_error r i = Some (F i)) ->
  forall g, (forall i m' x, (i < n)%nat -> g i x m' = Ok (create m' (d + i) (fun _ => x) (fun _ => 0))) ->
  exists m', for_ 0 n (fun i m => x <- get r i ;; g i x m) m = Ok m' /\ vstored m d n (fun i => RtoC (F i)) m'.
Proof.
  intros Hn HF g Hg.
  destruct (for_inv (fun i m' => vstored m d i (fun i => RtoC (F i)) m') 0 n (fun i m => x <- get r i ;; g i x m) m) as (m' & E & V); auto.
  - lia.
  - intros k. destruct (Nat.leb_spec d k), (Nat.ltb_spec k (d + 0)); cbn [andb]; auto; lia.
  - intros i m' (_ & Hi) V. unfold get. rewrite HF by auto. cbn [bind]. rewrite Hg by auto. eexists; split; [reflexivity|].
    assert (stored m' (d + i) (RtoC (F i)) (create m' (d + i) (fun _ => F i) (fun _ => 0))) as S1 by (now apply create_stored).
    intros k. rewrite S1, V. destruct (Nat.eqb_spec k (d + i)) as [->|N].
    + replace (d <=? d + i)%nat with true by lia. replace (d + i <? d + S i)%nat with true by lia. cbn [andb]. repeat f_equal. lia.
    + destruct (Nat.leb_spec d k), (Nat.ltb_spec k (d + i)), (Nat.ltb_spec k (d + S i)); cbn [andb]; try lia; auto.
  - exists m'. auto.
Qed.
