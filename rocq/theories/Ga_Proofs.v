(** Lemmas about the genetic algorithm (C87). *)
From Coq Require Import List Arith Lia Reals Lra Bool Permutation ZArith.
From Verif Require Import Prelude Prelude_Proofs Scalar RealLib Rrt2_Proofs Ga_Model Ga_Spec.
Import ListNotations.
Local Open Scope R_scope.

Definition dflt : @chrom R := Chrom 0 [].
Local Notation at_ l k := (nth k l dflt).
Lemma gget : forall (l : list (@chrom R)) k, (k < length l)%nat -> get l k = Ok (at_ l k).
Proof. intros l k H. unfold get. now rewrite (nth_error_nth' l dflt H). Qed.

(** [l'] is [l] with the elements from a to b-1 in another order *)
Definition shuffled (a b : nat) (l l' : list (@chrom R)) : Prop :=
  Permutation l l' /\ (forall k, ~ (a <= k < b)%nat -> at_ l' k = at_ l k) /\
  forall P : chrom -> Prop, (forall k, (a <= k < b)%nat -> P (at_ l k)) -> forall k, (a <= k < b)%nat -> P (at_ l' k).
Lemma sh_refl : forall a b l, shuffled a b l l.
Proof. intros. repeat split; auto. Qed.
Lemma sh_trans : forall a b l1 l2 l3, shuffled a b l1 l2 -> shuffled a b l2 l3 -> shuffled a b l1 l3.
Proof.
  intros a b l1 l2 l3 [A1 [A2 A3]] [B1 [B2 B3]]. split; [eapply Permutation_trans; eauto|]. split.
  - intros k Hk. rewrite B2, A2; auto.
  - intros P H. apply B3. apply A3. auto.
Qed.
Lemma sh_sub : forall a b a' b' l l', (a <= a')%nat -> (b' <= b)%nat -> shuffled a' b' l l' -> shuffled a b l l'.
Proof.
  intros a b a' b' l l' Ha Hb [A1 [A2 A3]]. split; auto. split.
  - intros k Hk. apply A2. lia.
  - intros P H k Hk. destruct (Nat.lt_ge_cases k a') as [|H1]; [rewrite A2 by lia; auto|]. destruct (Nat.lt_ge_cases k b') as [|H2]; [|rewrite A2 by lia; auto].
    apply A3; [intros; apply H; lia|lia].
Qed.
Lemma swap_perm : forall (l : list (@chrom R)) i j, (i < length l)%nat -> (j < length l)%nat ->
  Permutation l (upd (upd l i (at_ l j)) j (at_ l i)).
Proof.
  intros l i j Hi Hj. apply (Permutation_nth _ _ dflt). split; [now rewrite !upd_length|].
  exists (fun k => if (k =? i)%nat then j else if (k =? j)%nat then i else k). split; [|split].
  - intros k Hk. destruct (k =? i)%nat; auto. destruct (k =? j)%nat; auto.
  - intros x y Hx Hy. destruct (Nat.eqb_spec x i), (Nat.eqb_spec y i), (Nat.eqb_spec x j), (Nat.eqb_spec y j); subst; auto; intros; subst; congruence.
  - intros k Hk. rewrite nth_upd by (rewrite upd_length; auto). destruct (Nat.eqb_spec k j) as [->|].
    + destruct (Nat.eqb_spec j i) as [->|]; auto.
    + rewrite nth_upd by auto. destruct (k =? i)%nat; auto.
Qed.
Lemma swap_sh : forall a b l i j, (a <= i < b)%nat -> (a <= j < b)%nat -> (b <= length l)%nat ->
  shuffled a b l (upd (upd l i (at_ l j)) j (at_ l i)).
Proof.
  intros a b l i j Hi Hj Hb.
  assert (N : forall k, at_ (upd (upd l i (at_ l j)) j (at_ l i)) k = if (k =? j)%nat then at_ l i else if (k =? i)%nat then at_ l j else at_ l k).
  { intros k. rewrite nth_upd by (rewrite upd_length; lia). destruct (k =? j)%nat; auto. rewrite nth_upd by lia. auto. }
  split; [apply swap_perm; lia|]. split.
  - intros k Hk. rewrite N. destruct (Nat.eqb_spec k j); [lia|]. destruct (Nat.eqb_spec k i); [lia|auto].
  - intros P H k Hk. rewrite N. destruct (k =? j)%nat; auto. destruct (k =? i)%nat; auto.
Qed.
Lemma sh_length : forall a b l l', shuffled a b l l' -> length l' = length l.
Proof. intros a b l l' [H _]. symmetry. now apply Permutation_length. Qed.

(** the scans stop at the sentinels *)
Lemma go_up_ok : forall fuel l i p k, (i <= k)%nat -> (k < length l)%nat -> (k - i < fuel)%nat -> fitness (at_ l k) <= p ->
  exists i', go_up fuel l i p = Ok i' /\ (i <= i' <= k)%nat /\ fitness (at_ l i') <= p /\ forall m, (i <= m < i')%nat -> p < fitness (at_ l m).
Proof.
  induction fuel; intros l i p k Hi Hk Hf Hp; [lia|]. cbn [go_up]. rewrite gget by lia. cbn [bind]. change (@slt R _) with Rltb.
  destruct (Rltb_spec p (fitness (at_ l i))).
  - assert (i <> k) by (intros ->; lra). destruct (IHfuel l (S i) p k) as [i' [A [B [C D]]]]; auto; try lia.
    exists i'. repeat split; auto; try lia. intros m Hm. destruct (Nat.eq_dec m i) as [->|]; auto. apply D. lia.
  - exists i. repeat split; auto; try lia; try lra; intros; lia.
Qed.
Lemma go_down_ok : forall fuel l j1 p k, (k < j1)%nat -> (j1 <= length l)%nat -> (j1 - k <= fuel)%nat -> p <= fitness (at_ l k) ->
  exists j', go_down fuel l j1 p = Ok j' /\ (k < j' <= j1)%nat /\ p <= fitness (at_ l (j' - 1)) /\ forall m, (j' <= m < j1)%nat -> fitness (at_ l m) < p.
Proof.
  induction fuel; intros l j1 p k Hk Hj Hf Hp; [lia|]. cbn [go_down]. destruct j1 as [|j]; [lia|]. cbn [at_j]. rewrite gget by lia. cbn [bind]. change (@slt R _) with Rltb.
  replace (S j - 1)%nat with j by lia. destruct (Rltb_spec (fitness (at_ l j)) p).
  - assert (j <> k) by (intros ->; lra). destruct (IHfuel l j p k) as [j' [A [B [C D]]]]; auto; try lia.
    exists j'. repeat split; auto; try lia. intros m Hm. destruct (Nat.eq_dec m j) as [->|]; auto. apply D. lia.
  - exists (S j). replace (S j - 1)%nat with j by lia. repeat split; auto; try lia; try lra; intros; lia.
Qed.

(** the partition *)
Lemma part_ok : forall a b p fuel l i j1, (b <= length l)%nat -> (a <= i)%nat -> (j1 <= b)%nat -> (j1 - i < fuel)%nat ->
  (forall k, (a <= k < i)%nat -> p <= fitness (at_ l k)) -> (forall k, (j1 <= k < b)%nat -> fitness (at_ l k) <= p) ->
  ((i < j1)%nat -> (exists k, (i <= k < b)%nat /\ fitness (at_ l k) <= p) /\ (exists k, (a <= k < j1)%nat /\ p <= fitness (at_ l k))) ->
  (i <= b)%nat -> (a <= j1)%nat ->
  exists l' i' j', part_loop fuel l i j1 p = Ok (l', i', j') /\ shuffled a b l l' /\ (i <= i' <= b)%nat /\ (a <= j' <= j1)%nat /\ (j' <= i')%nat /\
    (forall k, (a <= k < i')%nat -> p <= fitness (at_ l' k)) /\ (forall k, (j' <= k < b)%nat -> fitness (at_ l' k) <= p).
Proof.
  intros a b p. induction fuel; intros l i j1 Hb Hai Hjb Hf HA HB HS Hib Haj; [lia|]. cbn [part_loop].
  destruct (Nat.ltb_spec i j1) as [Hij|Hij].
  2: { exists l, i, j1. split; auto. split; [apply sh_refl|]. repeat split; auto; lia. }
  destruct (HS Hij) as [[ku [Hku1 Hku2]] [kd [Hkd1 Hkd2]]].
  destruct (go_up_ok (S (length l)) l i p ku) as [i' [U1 [U2 [U3 U4]]]]; auto; try lia. rewrite U1. cbn [bind].
  destruct (go_down_ok (S (length l)) l j1 p kd) as [j' [D1 [D2 [D3 D4]]]]; auto; try lia. rewrite D1. cbn [bind].
  assert (HA' : forall k, (a <= k < i')%nat -> p <= fitness (at_ l k)).
  { intros k Hk. destruct (Nat.lt_ge_cases k i); [apply HA; lia|]. specialize (U4 k ltac:(lia)). lra. }
  assert (HB' : forall k, (j' <= k < b)%nat -> fitness (at_ l k) <= p).
  { intros k Hk. destruct (Nat.lt_ge_cases k j1); [|apply HB; lia]. specialize (D4 k ltac:(lia)). lra. }
  destruct (Nat.leb_spec j' i') as [Hji|Hji].
  - exists l, i', j'. split; auto. split; [apply sh_refl|]. repeat split; auto; lia.
  - rewrite gget by lia. cbn [bind]. destruct j' as [|j]; [lia|]. cbn [at_j]. rewrite gget by lia. cbn [bind]. replace (S j - 1)%nat with j in * by lia.
    rewrite set_ok by lia. cbn [bind]. rewrite set_ok by (rewrite upd_length; lia). cbn [bind].
    set (l1 := upd (upd l i' (at_ l j)) j (at_ l i')).
    assert (N : forall k, at_ l1 k = if (k =? j)%nat then at_ l i' else if (k =? i')%nat then at_ l j else at_ l k).
    { intros k. unfold l1. rewrite nth_upd by (rewrite upd_length; lia). destruct (k =? j)%nat; auto. rewrite nth_upd by lia. auto. }
    assert (Sh : shuffled a b l l1) by (apply swap_sh; lia).
    destruct (IHfuel l1 (S i') j) as [l' [i2 [j2 [R1 [R2 [R3 [R4 [R5 [R6 R7]]]]]]]]]; try lia.
    + rewrite (sh_length _ _ _ _ Sh). auto.
    + intros k Hk. rewrite N. destruct (Nat.eqb_spec k j) as [->|]. { assert (j = i') by lia. subst. auto. } destruct (Nat.eqb_spec k i'); auto. apply HA'. lia.
    + intros k Hk. rewrite N. destruct (Nat.eqb_spec k j); auto. destruct (Nat.eqb_spec k i') as [->|]. { assert (j = i') by lia. subst. auto. } apply HB'. lia.
    + intros Hlt. split.
      * exists j. split; [lia|]. rewrite N, Nat.eqb_refl. auto.
      * exists i'. split; [lia|]. rewrite N. destruct (Nat.eqb_spec i' j); [lia|]. rewrite Nat.eqb_refl. auto.
    + exists l', i2, j2. split; auto. split; [eapply sh_trans; eauto|]. repeat split; auto; lia.
Qed.

Definition descending (a b : nat) (l : list (@chrom R)) : Prop := forall i j, (a <= i)%nat -> (i <= j)%nat -> (j < b)%nat -> fitness (at_ l j) <= fitness (at_ l i).

Lemma part_mono : forall p fuel l i0 j0 l' i' j', part_loop fuel l i0 j0 p = Ok (l', i', j') -> (i0 <= i' /\ j' <= j0)%nat.
Proof.
  intros p. induction fuel; intros l i0 j0 l' i' j'; cbn [part_loop]; [discriminate|]. destruct (i0 <? j0)%nat.
      2: { intros H. injection H as <- <- <-. lia. }
      assert (UP : forall fuel i x, go_up fuel l i p = Ok x -> (i <= x)%nat).
      { induction fuel0; intros i x; cbn [go_up]; [discriminate|]. destruct (get l i); cbn [bind]; [|discriminate]. destruct (slt p (fitness a)); [intros H; apply IHfuel0 in H; lia|]. intros H. injection H as <-. lia. }
      assert (DN : forall fuel i x, go_down fuel l i p = Ok x -> (x <= i)%nat).
      { induction fuel0; intros i x; cbn [go_down]; [discriminate|]. destruct (at_j l i); cbn [bind]; [|discriminate]. destruct (slt (fitness a) p); [intros H; apply IHfuel0 in H; lia|]. intros H. injection H as <-. lia. }
      destruct (go_up _ l i0 p) as [i1|] eqn:E1; cbn [bind]; [|discriminate]. destruct (go_down _ l j0 p) as [j1|] eqn:E2; cbn [bind]; [|discriminate].
      apply UP in E1. apply DN in E2. destruct (j1 <=? i1)%nat. { intros H. injection H as <- <- <-. lia. }
      destruct (get l i1); cbn [bind]; [|discriminate]. destruct (at_j l j1); cbn [bind]; [|discriminate]. destruct (set l i1 _); cbn [bind]; [|discriminate].
      destruct (set a1 _ _); cbn [bind]; [|discriminate]. intros H. apply IHfuel in H. lia. 
Qed.
Lemma qsort_ok : forall fuel l head tail1, (head < tail1)%nat -> (tail1 <= length l)%nat -> (tail1 - head <= fuel)%nat ->
  exists l', _zOptGAQuickSort fuel l head tail1 = Ok l' /\ shuffled head tail1 l l' /\ descending head tail1 l'.
Proof.
  induction fuel; intros l a b Hab Hb Hf; [lia|]. cbn [_zOptGAQuickSort].
  set (m := ((a + b - 1) / 2)%nat).
  assert (Hm : (a <= m < b)%nat).
  { unfold m. split; [apply Nat.div_le_lower_bound; lia|]. apply Nat.div_lt_upper_bound; lia. }
  rewrite gget by lia. cbn [bind]. set (p := fitness (at_ l m)).
  destruct (part_ok a b p (S (length l)) l a b) as [l1 [i [j [P1 [P2 [P3 [P4 [P5 [P6 P7]]]]]]]]]; try lia.
  { intros _. split; exists m; (split; [lia|]); unfold p; lra. }
  rewrite P1. cbn [bind].
  (* a swap has taken place *)
  assert (Hs : (a < i)%nat /\ (j < b)%nat).
  { clear IHfuel. revert P1. cbn [part_loop]. replace (a <? b)%nat with true by (symmetry; apply Nat.ltb_lt; auto).
    destruct (go_up_ok (S (length l)) l a p m) as [i' [U1 [U2 [U3 U4]]]]; try lia; [unfold p; lra|].
    destruct (go_down_ok (S (length l)) l b p m) as [j' [D1 [D2 [D3 D4]]]]; try lia; [unfold p; lra|].
    rewrite U1. cbn [bind]. rewrite D1. cbn [bind]. replace (j' <=? i')%nat with false by (symmetry; apply Nat.leb_gt; lia).
    rewrite gget by lia. cbn [bind]. destruct j' as [|j0]; [lia|]. cbn [at_j]. rewrite gget by lia. cbn [bind]. replace (S j0 - 1)%nat with j0 by lia.
    rewrite set_ok by lia. cbn [bind]. rewrite set_ok by (rewrite upd_length; lia). cbn [bind]. intros P1.
    apply part_mono in P1. lia. }
  pose proof (sh_length _ _ _ _ P2) as L1.
  (* the left part *)
  assert (HL : exists l2, (if (S a <? j)%nat then _zOptGAQuickSort fuel l1 a j else Ok l1) = Ok l2 /\ shuffled a j l1 l2 /\ descending a j l2).
  { destruct (Nat.ltb_spec (S a) j).
    - apply IHfuel; lia.
    - exists l1. split; auto. split; [apply sh_refl|]. intros x y Hx Hy Hz. assert (x = y) by lia. subst. lra. }
  destruct HL as [l2 [E2 [S2 D2]]]. rewrite E2. cbn [bind]. pose proof (sh_length _ _ _ _ S2) as L2.
  assert (HR : exists l3, (if (S i <? b)%nat then _zOptGAQuickSort fuel l2 i b else Ok l2) = Ok l3 /\ shuffled i b l2 l3 /\ descending i b l3).
  { destruct (Nat.ltb_spec (S i) b).
    - apply IHfuel; lia.
    - exists l2. split; auto. split; [apply sh_refl|]. intros x y Hx Hy Hz. assert (x = y) by lia. subst. lra. }
  destruct HR as [l3 [E3 [S3 D3]]]. exists l3. split; auto. split.
  - eapply sh_trans; [exact P2|]. eapply sh_trans; [eapply sh_sub; [| |exact S2]; lia|eapply sh_sub; [| |exact S3]; lia].
  - (* the values of each part *)
    assert (VL : forall k, (a <= k < i)%nat -> p <= fitness (at_ l3 k)).
    { intros k Hk. destruct S3 as [_ [F3 _]]. rewrite F3 by lia. destruct S2 as [_ [F2 Q2]]. destruct (Nat.lt_ge_cases k j).
      - apply (Q2 (fun c => p <= fitness c)); [intros; apply P6; lia|lia].
      - rewrite F2 by lia. apply P6. lia. }
    assert (VR : forall k, (j <= k < b)%nat -> fitness (at_ l3 k) <= p).
    { intros k Hk. destruct S3 as [_ [F3 Q3]]. destruct S2 as [_ [F2 _]]. destruct (Nat.lt_ge_cases k i).
      - rewrite F3 by lia. rewrite F2 by lia. apply P7. lia.
      - apply (Q3 (fun c => fitness c <= p)); [|lia]. intros q Hq. rewrite F2 by lia. apply P7. lia. }
    intros x y Hx Hxy Hy. destruct (Nat.lt_ge_cases y j).
    + destruct S3 as [_ [F3 _]]. rewrite !F3 by lia. apply D2; lia.
    + destruct (Nat.lt_ge_cases x i).
      * pose proof (VL x ltac:(lia)). pose proof (VR y ltac:(lia)). lra.
      * apply D3; lia.
Qed.
