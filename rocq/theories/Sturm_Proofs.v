(** Sturm counts and bisection: proofs. *)
From Coq Require Import Reals Lra.
From Verif Require Import Prelude Prelude_Proofs Scalar RealLib Fmat Fmat_Proofs Sturm_Model Sturm_Spec.
From Coq Require Import List.
Import ListNotations.
Local Open Scope list_scope.
Local Open Scope R_scope.

(** ** fewer equations than unknowns *)
Lemma homog n : forall L : list (nat -> R), (length L < n)%nat -> exists x, nonzero n x /\ killed n L x.
Proof.
  induction n as [|n IH]; intros L HL; [lia|].
  assert ((forall l, In l L -> l n = 0) \/ exists l, In l L /\ l n <> 0) as [Z|(l & Hl & Nl)].
  { clear. induction L as [|l L IH]; [left; intros ? []|]. destruct IH as [IH|(g & G1 & G2)].
    - destruct (Req_dec (l n) 0); [left; intros g [<-|]; auto|right; exists l; cbn; auto].
    - right. exists g. cbn. auto. }
  - exists (fun j => if (j =? n)%nat then 1 else 0). split.
    + exists n. rewrite Nat.eqb_refl. split; [lia|lra].
    + intros l Hl. apply rsum_0. intros i Hi. destruct (Nat.eqb_spec i n) as [->|]; [rewrite Z by auto|]; ring.
  - destruct (in_split l L Hl) as (L1 & L2 & ->). rewrite app_length in HL. cbn [length] in HL.
    destruct (IH (map (fun g j => g j - g n / l n * l j) (L1 ++ L2))) as (x & (j & Hj & Nj) & Hx).
    { rewrite map_length, app_length. lia. }
    set (xn := - rsum n (fun j => l j * x j) / l n).
    exists (fun j => if (j =? n)%nat then xn else x j). split.
    + exists j. replace (j =? n)%nat with false by lia. split; auto.
    + assert (forall g, rsum (S n) (fun j0 => g j0 * (if (j0 =? n)%nat then xn else x j0)) = rsum n (fun j0 => g j0 * x j0) + g n * xn) as E.
      { intros g. cbn [rsum]. rewrite Nat.eqb_refl. f_equal. apply rsum_ext. intros i Hi. now replace (i =? n)%nat with false by lia. }
      intros g Hg. rewrite E. apply in_app_or in Hg.
      assert (In g (L1 ++ L2) \/ g = l) as [G| ->].
      { destruct Hg as [|[<-|]]; auto; left; apply in_or_app; auto. }
      * specialize (Hx _ (in_map (fun g j => g j - g n / l n * l j) _ _ G)). cbv beta in Hx.
        rewrite (rsum_ext n _ (fun j0 => g j0 * x j0 - g n / l n * (l j0 * x j0))) in Hx by (intros; ring).
        rewrite rsum_sub, rsum_scal in Hx. unfold xn. replace (g n * (- rsum n (fun j0 => l j0 * x j0) / l n)) with (- (g n / l n * rsum n (fun j0 => l j0 * x j0))) by (field; auto). lra.
      * unfold xn. field. auto.
Qed.
Lemma sqn_pos n x : nonzero n x -> 0 < sqn n x.
Proof.
  intros (j & Hj & N). assert (0 <= sqn n x) by (apply rsum_nonneg; intros; apply Rle_0_sqr).
  destruct (Req_dec (sqn n x) 0) as [Z|]; [|lra]. exfalso. apply N.
  assert (x j * x j = 0) as Q by (apply (rsum_nonneg_0 n (fun i => x i * x i)); auto; intros; apply Rle_0_sqr). nra.
Qed.
Lemma exceed_mono n A e e' c c' : e <= e' -> exceed n A e c -> exceed n A e' c' -> (c' <= c)%nat.
Proof.
  intros He ((L & EL & HL) & _) (_ & (L' & EL' & HL')). destruct (Nat.le_gt_cases c' c) as [|G]; auto. exfalso.
  destruct (homog n (L ++ L')) as (x & N & K). { rewrite app_length. lia. }
  assert (killed n L x) as K1 by (intros l Hl; apply K; apply in_or_app; auto).
  assert (killed n L' x) as K2 by (intros l Hl; apply K; apply in_or_app; auto).
  specialize (HL x K1). specialize (HL' x K2 N). pose proof (sqn_pos n x N). nra.
Qed.
Lemma exceed_unique n A e c c' : exceed n A e c -> exceed n A e c' -> c = c'.
Proof. intros H H'. apply Nat.le_antisymm; eapply exceed_mono; eauto; lra. Qed.

(** ** the pivots *)
Section Pivots.
  Variable A : nat -> nat -> R.
  Variable e : R.
  Let p i := minor A e (S i) / minor A e i.
  Let b i := A i (i - 1)%nat.
  Lemma tri_less n : tridiagonal (S n) A -> tridiagonal n A.
  Proof. intros (H1 & H2). split; intros; auto. Qed.
  Lemma quad_S n x : tridiagonal (S (S n)) A ->
    quad (S (S n)) A x = quad (S n) A x + A (S n) (S n) * (x (S n) * x (S n)) + 2 * A (S n) n * x (S n) * x n.
  Proof.
    intros (SY & Z).
    assert (rsum (S n) (fun i => x i * mulv (S (S n)) A x i) = quad (S n) A x + x n * A n (S n) * x (S n)) as E.
    { unfold quad. rewrite (rsum_ext (S n) (fun i => x i * mulv (S (S n)) A x i) (fun i => x i * mulv (S n) A x i + x i * A i (S n) * x (S n))) by (intros; unfold mulv; cbn [rsum]; ring).
      rewrite rsum_add. f_equal. apply (rsum_delta (S n) n); [lia|]. intros i Hi Ni. rewrite Z by lia. ring. }
    assert (mulv (S (S n)) A x (S n) = A (S n) n * x n + A (S n) (S n) * x (S n)) as F.
    { unfold mulv. change (rsum (S (S n)) (fun j => A (S n) j * x j)) with (rsum (S n) (fun j => A (S n) j * x j) + A (S n) (S n) * x (S n)).
      f_equal. apply (rsum_delta (S n) n (fun j => A (S n) j * x j)); [lia|]. intros i Hi Ni. rewrite SY, Z by lia. ring. }
    transitivity (rsum (S n) (fun i => x i * mulv (S (S n)) A x i) + x (S n) * mulv (S (S n)) A x (S n)); [reflexivity|].
    rewrite E, F, (SY n (S n)) by lia. ring.
  Qed.
  Lemma sqn_S n x : sqn (S n) x = sqn n x + x n * x n.
  Proof. reflexivity. Qed.
  Lemma pivot_S i : minor A e i <> 0 -> minor A e (S i) <> 0 -> p (S i) = e - A (S i) (S i) - A (S i) i * A (S i) i / p i.
  Proof. intros N1 N2. unfold p. cbn [minor] in *. field. split; auto. Qed.
  Lemma pivot_0 : p 0 = e - A 0%nat 0%nat.
  Proof. unfold p. cbn [minor]. field. Qed.
  Lemma pivot_neq n i : regular n A e -> (i < n)%nat -> p i <> 0.
  Proof. intros H Hi. unfold p. intros Z. apply (H (S i)); [lia|]. replace (minor A e (S i)) with (minor A e (S i) / minor A e i * minor A e i) by (field; apply H; lia). rewrite Z. ring. Qed.
  Definition yf (i j : nat) : R := if (j =? i)%nat then 1 else if (j =? S i)%nat then - (A (S i) i / p i) else 0.
  Lemma yf_ok n i x : (i <= n)%nat -> rsum (S n) (fun j => yf i j * x j) = x i - (if (i =? n)%nat then 0 else A (S i) i / p i * x (S i)).
  Proof.
    intros Hi. destruct (Nat.eqb_spec i n) as [->|N].
    - rewrite (rsum_delta (S n) n); [|lia|]. { unfold yf. rewrite Nat.eqb_refl. ring. }
      intros j Hj Nj. unfold yf. replace (j =? n)%nat with false by lia. replace (j =? S n)%nat with false by lia. ring.
    - rewrite (rsum_ext (S n) _ (fun j => (if (j =? i)%nat then x j else 0) + (if (j =? S i)%nat then - (A (S i) i / p i) * x j else 0))).
      + rewrite rsum_add, (rsum_delta (S n) i), (rsum_delta (S n) (S i)), !Nat.eqb_refl; try lia; [ring| |];
        intros j Hj Nj; [replace (j =? S i)%nat with false by lia|replace (j =? i)%nat with false by lia]; auto.
      + intros j Hj. unfold yf. destruct (Nat.eqb_spec j i), (Nat.eqb_spec j (S i)); try lia; ring.
  Qed.
  Lemma ldl_aux n x : tridiagonal (S n) A -> regular (S n) A e ->
    e * sqn (S n) x - quad (S n) A x =
    rsum n (fun i => p i * ((x i - A (S i) i / p i * x (S i)) * (x i - A (S i) i / p i * x (S i)))) + p n * (x n * x n).
  Proof.
    induction n as [|n IH]; intros T Rg.
    - unfold sqn, quad, mulv. cbn [rsum]. rewrite pivot_0. ring.
    - rewrite quad_S, sqn_S by auto. cbn [rsum].
      assert (p n <> 0) as N by (apply (pivot_neq (S (S n))); auto; lia).
      assert (regular (S n) A e) as R1 by (intros k Hk; apply Rg; lia).
      specialize (IH (tri_less _ T) R1). rewrite pivot_S by (apply Rg; lia).
      set (s := rsum n _) in *. set (u := sqn (S n) x) in *. set (q := quad (S n) A x) in *. 
      replace (e * (u + x (S n) * x (S n)) - (q + A (S n) (S n) * (x (S n) * x (S n)) + 2 * A (S n) n * x (S n) * x n))
        with ((e * u - q) + (e - A (S n) (S n)) * (x (S n) * x (S n)) - 2 * A (S n) n * x (S n) * x n) by ring.
      rewrite IH. field. auto.
  Qed.
  Definition yv n x i := rsum n (fun j => yf i j * x j).
  Lemma ldl n x : tridiagonal n A -> regular n A e -> e * sqn n x - quad n A x = rsum n (fun i => p i * (yv n x i * yv n x i)).
  Proof.
    destruct n as [|n]; intros T Rg; [unfold sqn, quad; cbn; ring|].
    rewrite ldl_aux by auto. cbn [rsum]. f_equal.
    - apply rsum_ext. intros i Hi. unfold yv. rewrite yf_ok by lia. now replace (i =? n)%nat with false by lia.
    - unfold yv. rewrite yf_ok, Nat.eqb_refl by lia. ring.
  Qed.
  Lemma yv_0 n x : regular n A e -> (forall i, (i < n)%nat -> yv n x i = 0) -> ~ nonzero n x.
  Proof.
    intros Rg H (j & Hj & N). destruct n as [|n]; [lia|].
    assert (forall k, (k <= n)%nat -> x (n - k)%nat = 0) as Z.
    { induction k as [|k IH]; intros Hk.
      - specialize (H n ltac:(lia)). unfold yv in H. rewrite yf_ok, Nat.eqb_refl in H by lia. rewrite Nat.sub_0_r. lra.
      - specialize (H (n - S k)%nat ltac:(lia)). unfold yv in H. rewrite yf_ok in H by lia. replace (n - S k =? n)%nat with false in H by lia.
        replace (S (n - S k)) with (n - k)%nat in H by lia. rewrite IH in H by lia. lra. }
    apply N. replace j with (n - (n - j))%nat by lia. apply Z. lia.
  Qed.
  Definition neg i := Rltb (p i) 0.
  Definition cneg n := length (filter neg (List.seq 0 n)).
  Lemma filter_two {X} (f : X -> bool) l : (length (filter (fun x => negb (f x)) l) + length (filter f l) = length l)%nat.
  Proof. induction l as [|x l IH]; auto. cbn. destruct (f x); cbn; lia. Qed.
  Lemma neg_spec i : neg i = true <-> p i < 0.
  Proof. unfold neg. destruct (Rltb_spec (p i) 0); split; intros; auto; try discriminate; lra. Qed.
  Lemma sturm_exceed n : tridiagonal n A -> regular n A e -> exceed n A e (cneg n).
  Proof.
    intros T Rg. split.
    - exists (map yf (filter neg (List.seq 0 n))). split; [apply map_length|]. intros x K.
      assert (0 <= e * sqn n x - quad n A x); [|lra]. rewrite ldl by auto. apply rsum_nonneg. intros i Hi.
      destruct (neg i) eqn:E.
      + assert (yv n x i = 0) as ->; [|lra]. apply K. apply in_map. apply filter_In. split; auto. apply in_seq. lia.
      + assert (~ p i < 0) by (rewrite <- neg_spec; congruence). apply Rmult_le_pos; [lra|apply Rle_0_sqr].
    - exists (map yf (filter (fun i => negb (neg i)) (List.seq 0 n))). split.
      { rewrite map_length. unfold cneg. rewrite filter_two. apply seq_length. }
      intros x K N.
      assert (forall i, (i < n)%nat -> 0 <= - (p i * (yv n x i * yv n x i)) /\ (yv n x i <> 0 -> 0 < - (p i * (yv n x i * yv n x i)))) as H.
      { intros i Hi. destruct (neg i) eqn:E.
        - apply neg_spec in E. assert (0 <= yv n x i * yv n x i) by apply Rle_0_sqr. split; [nra|]. intros Ny. assert (0 < yv n x i * yv n x i) by nra. nra.
        - assert (yv n x i = 0) as ->.
          { apply K. apply in_map. apply filter_In. split; [apply in_seq; lia|]. now rewrite E. }
          split; [lra|]. intros Q. exfalso. now apply Q. }
      assert (0 <= rsum n (fun i => - (p i * (yv n x i * yv n x i)))) as G by (apply rsum_nonneg; intros; now apply H).
      rewrite rsum_opp, <- ldl in G by auto. destruct (Req_dec (e * sqn n x - quad n A x) 0) as [Z|]; [|lra].
      exfalso. apply (yv_0 n x); auto. intros i Hi. destruct (Req_dec (yv n x i) 0) as [|Ny]; auto. exfalso.
      assert (- (p i * (yv n x i * yv n x i)) = 0) as Q.
      { apply (rsum_nonneg_0 n (fun i => - (p i * (yv n x i * yv n x i)))); auto; [intros; now apply H|]. rewrite rsum_opp, <- ldl, Z by auto. ring. }
      pose proof (proj2 (H i Hi) Ny). lra.
  Qed.
  (** the sign of the last minor *)
  Lemma cneg_S n : cneg (S n) = (cneg n + (if neg n then 1 else 0))%nat.
  Proof. unfold cneg. rewrite seq_S, filter_app, app_length. cbn. destruct (neg n); reflexivity. Qed.
  Lemma minor_sign n : regular n A e -> 0 < (-1) ^ cneg n * minor A e n.
  Proof.
    induction n as [|n IH]; intros Rg; [unfold cneg; cbn; lra|].
    assert (0 < (-1) ^ cneg n * minor A e n) as H by (apply IH; intros k Hk; apply Rg; lia).
    assert (p n <> 0) as Np by (apply (pivot_neq (S n)); auto).
    assert (minor A e (S n) = p n * minor A e n) as E by (unfold p; field; apply Rg; lia).
    rewrite cneg_S, pow_add, E. destruct (neg n) eqn:Q.
    - apply neg_spec in Q. rewrite pow_1. nra.
    - assert (~ p n < 0) by (rewrite <- neg_spec; congruence). rewrite pow_O. nra.
  Qed.
  (** a zero of the last minor is an eigenvalue *)
  Lemma last_nonzero n : minor A e (S n) = 0 -> exists k, (k <= n)%nat /\ minor A e k <> 0 /\ minor A e (S k) = 0 /\ (k = n \/ (k < n)%nat /\ A (S k) k = 0).
  Proof.
    induction n as [|n IH]; intros Z.
    - exists 0%nat. cbn [minor]. repeat split; auto; lra.
    - destruct (Req_dec (minor A e (S n)) 0) as [Z'|N].
      + destruct (IH Z') as (k & Hk & N & Zk & D). exists k. repeat split; auto. right. split; [lia|]. destruct D as [->|(_ & D)]; auto.
        change (minor A e (S (S n))) with ((e - A (S n) (S n)) * minor A e (S n) - A (S n) n * A (S n) n * minor A e n) in Z. rewrite Z' in Z.
        assert (A (S n) n * A (S n) n * minor A e n = 0) as Q by lra. apply Rmult_integral in Q. destruct Q as [Q|Q]; [|contradiction].
        apply Rmult_integral in Q. destruct Q; auto.
      + exists (S n). repeat split; auto.
  Qed.
End Pivots.
Lemma rsum3 n i f : (i < n)%nat -> (forall j, (j < n)%nat -> (S i < j \/ S j < i)%nat -> f j = 0) ->
  rsum n f = (if (0 <? i)%nat then f (i - 1)%nat else 0) + f i + (if (S i <? n)%nat then f (S i) else 0).
Proof.
  intros Hi H.
  rewrite (rsum_ext n f (fun j => (if (S j =? i)%nat then f j else 0) + (if (j =? i)%nat then f j else 0) + (if (j =? S i)%nat then f j else 0))).
  - rewrite !rsum_add. f_equal; [f_equal|].
    + destruct (Nat.ltb_spec 0 i).
      * rewrite (rsum_delta n (i - 1)); [|lia|]; [now replace (S (i - 1) =? i)%nat with true by lia|]. intros j Hj Nj. now replace (S j =? i)%nat with false by lia.
      * apply rsum_0. intros j Hj. now replace (S j =? i)%nat with false by lia.
    + rewrite (rsum_delta n i) by (auto; intros j Hj Nj; now replace (j =? i)%nat with false by lia). now rewrite Nat.eqb_refl.
    + destruct (Nat.ltb_spec (S i) n).
      * rewrite (rsum_delta n (S i)) by (auto; intros j Hj Nj; now replace (j =? S i)%nat with false by lia). now rewrite Nat.eqb_refl.
      * apply rsum_0. intros j Hj. now replace (j =? S i)%nat with false by lia.
  - intros j Hj. destruct (Nat.eqb_spec (S j) i), (Nat.eqb_spec j i), (Nat.eqb_spec j (S i)); try lia; try ring. rewrite H by lia. ring.
Qed.
(** b_(i+1) ... b_k *)
Fixpoint bprod (A : nat -> nat -> R) (i m : nat) : R := match m with O => 1 | S m => A (S i) i * bprod A (S i) m end.
Lemma minor_eigen A e n : tridiagonal n A -> (0 < n)%nat -> minor A e n = 0 -> eigenvalue n A e.
Proof.
  intros (SY & T) Hn Z. destruct n as [|n]; [lia|].
  destruct (last_nonzero A e n Z) as (k & Hk & N & Zk & D).
  exists (fun i => if (i <=? k)%nat then minor A e i * bprod A i (k - i) else 0). split.
  - exists k. rewrite Nat.leb_refl, Nat.sub_diag. cbn. split; [lia|]. now rewrite Rmult_1_r.
  - intros i Hi. unfold mulv. rewrite (rsum3 (S n) i); [|auto|intros j Hj [J|J]; [rewrite T by lia|rewrite SY, T by lia]; ring].
    assert (forall i, (i < k)%nat -> bprod A i (k - i) = A (S i) i * bprod A (S i) (k - S i)) as BP.
    { intros j Hj. replace (k - j)%nat with (S (k - S j)) by lia. reflexivity. }
    destruct (Nat.lt_ge_cases k i) as [L|L].
    + replace (i <=? k)%nat with false by lia. replace (S i <=? k)%nat with false by lia.
      replace (0 <? i)%nat with true by lia. destruct (Nat.leb_spec (i - 1) k) as [L'|L'].
      * assert (i = S k) as -> by lia. destruct D as [->|(_ & D)]; [lia|]. replace (S k - 1)%nat with k by lia. rewrite D. destruct (_ <? _)%nat; ring.
      * destruct (_ <? _)%nat; ring.
    + replace (i <=? k)%nat with true by lia.
      assert ((if (0 <? i)%nat then A i (i - 1)%nat * (if (i - 1 <=? k)%nat then minor A e (i - 1) * bprod A (i - 1) (k - (i - 1)) else 0) else 0)
              = match i with O => 0 | S i' => A i i' * A i i' * minor A e i' * bprod A i (k - i) end) as ->.
      { destruct i as [|i']; auto. cbn [Nat.ltb Nat.leb]. replace (S i' - 1)%nat with i' by lia. replace (i' <=? k)%nat with true by lia. rewrite BP by lia. ring. }
      destruct (Nat.eq_dec i k) as [->|Ni].
      * replace (S k <=? k)%nat with false by lia. rewrite Nat.sub_diag. cbn [bprod].
        assert ((if (S k <? S n)%nat then A k (S k) * 0 else 0) = 0) as -> by (destruct (_ <? _)%nat; ring).
        cbn [minor] in Zk. destruct k as [|k']; nra.
      * replace (S i <? S n)%nat with true by lia. replace (S i <=? k)%nat with true by lia.
        rewrite (BP i) by lia. rewrite (SY i (S i)) by lia. cbn [minor]. destruct i as [|i']; ring.
Qed.
Lemma minor_cont A k : continuity (fun e => minor A e k).
Proof.
  enough (continuity (fun e => minor A e k) /\ continuity (fun e => minor A e (S k))) by tauto.
  induction k as [|k (IH1 & IH2)].
  - split; cbn [minor]; intros x; reg.
  - split; auto. intros x. specialize (IH1 x). specialize (IH2 x).
    change (continuity_pt (fun e => (e - A (S k) (S k)) * minor A e (S k) - A (S k) k * A (S k) k * minor A e k) x).
    apply (continuity_pt_minus (fun e => (e - A (S k) (S k)) * minor A e (S k)) (fun e => A (S k) k * A (S k) k * minor A e k)).
    + apply (continuity_pt_mult (fun e => e - A (S k) (S k)) (fun e => minor A e (S k))); auto. reg.
    + apply (continuity_pt_mult (fun e => A (S k) k * A (S k) k) (fun e => minor A e k)); auto. reg.
Qed.
Lemma jump_eigen n A lo hi c : tridiagonal n A -> (0 < n)%nat -> lo <= hi -> regular n A lo -> regular n A hi ->
  cneg A lo n = S c -> cneg A hi n = c -> exists l, lo <= l <= hi /\ eigenvalue n A l.
Proof.
  intros T Hn L R1 R2 C1 C2. pose proof (minor_sign A lo n R1) as S1. pose proof (minor_sign A hi n R2) as S2. rewrite C1 in S1. rewrite C2 in S2.
  destruct (IVT_cor (fun e => minor A e n) lo hi) as (l & Hl & Z); auto.
  - apply minor_cont.
  - cbn [pow] in S1. assert ((-1) ^ c = 1 \/ (-1) ^ c = -1) as [E|E].
    { clear. induction c as [|c [IH|IH]]; cbn; rewrite ?IH; [left|right|left]; lra. }
    + rewrite E in *. nra.
    + rewrite E in *. nra.
  - exists l. split; auto. now apply minor_eigen.
Qed.
