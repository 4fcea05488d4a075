From Coq Require Import Reals Lra Lia.
From Verif Require Import Prelude Prelude_Proofs Scalar RealLib Fmat Fmat_Proofs LE_Model IP_Model IP_Spec.
Local Open Scope R_scope.

Local Notation points := (list (R * fvec R)).

(** ** knots *)
Lemma knot_S s i : knot s (S i) = knot s i + gap s (S i).
Proof. reflexivity. Qed.
Lemma knot_lt s e i j : 0 <= e -> apart e s -> (i < j < length s)%nat -> knot s i < knot s j.
Proof.
  intros He A [H1 H2]. induction j; [lia|]. rewrite knot_S.
  assert (G : 0 < gap s (S j)) by (specialize (A (S j)); assert (e < gap s (S j)) by (apply A; lia); lra).
  destruct (Nat.eq_dec i j) as [->|N]; [lra|]. assert (knot s i < knot s j) by (apply IHj; lia). lra.
Qed.
Lemma knot_le s e i j : 0 <= e -> apart e s -> (i <= j < length s)%nat -> knot s i <= knot s j.
Proof. intros He A [H1 H2]. destruct (Nat.eq_dec i j) as [->|N]; [lra|]. left. eapply knot_lt; eauto. lia. Qed.
Lemma in_seg_fun s t e i i' : 0 <= e -> apart e s -> in_seg s t i -> in_seg s t i' -> i = i'.
Proof.
  intros He A (H1 & H2 & H3) (K1 & K2 & K3).
  destruct (Nat.lt_total i i') as [L|[E|L]]; auto.
  - destruct H3 as [H3|H3]; [lia|]. destruct K2 as [K2|K2]; [lia|].
    assert (knot s (S i) <= knot s i') by (eapply knot_le; eauto; lia). lra.
  - destruct K3 as [K3|K3]; [lia|]. destruct H2 as [H2|H2]; [lia|].
    assert (knot s (S i') <= knot s i) by (eapply knot_le; eauto; lia). lra.
Qed.

Lemma nth_times s : forall t0 i, (i < length s)%nat -> nth i (times t0 s) 0 = t0 + rsum (S i) (gap s).
Proof.
  induction s as [|c s IH]; intros t0 i Hi; cbn in Hi; [lia|]. cbn [times]. rs.
  destruct i; cbn [nth].
  - cbn. unfold gap. cbn. lra.
  - rewrite IH by lia. rewrite (rsum_S_l (S i)). unfold gap at 2. cbn [nth]. unfold gap. cbn [nth]. lra.
Qed.
Lemma length_times {T} {ST : Scalar T} s : forall t0, length (times t0 s) = length s.
Proof. induction s; intros; cbn; auto. Qed.

(** ** the data *)
Definition repr (s : points) (m : nat) (V : nat -> nat -> R) (d : ipdata R) : Prop :=
  let n := length s in
  (vlen (ip_t d) = n /\ forall i, (i < n)%nat -> vel (ip_t d) i = knot s i) /\
  (vlen (ip_c d) = n /\ forall i, (i < n)%nat -> vel (ip_c d) i = nth i s (0, FV 0 (fun _ => 0))) /\
  (vlen (ip_va d) = n /\ forall i, (i < n)%nat -> vlen (vel (ip_va d) i) = m /\ forall j, (j < m)%nat -> vel (vel (ip_va d) i) j = V i j).

Section Repr.
Variables (s : points) (m : nat) (V : nat -> nat -> R) (d : ipdata R).
Hypothesis Hd : repr s m V d.
Hypothesis Dm : dim s m.
Let n := length s.
Lemma repr_size : zIPDataSize d = n.
Proof. apply Hd. Qed.
Lemma repr_time i : (i < n)%nat -> zIPDataTime d i = Ok (knot s i).
Proof. intros Hi. destruct Hd as ((A & B) & _). unfold zIPDataTime. rewrite vget_ok by (rewrite A; exact Hi). f_equal. apply B. exact Hi. Qed.
Lemma repr_dt i : (i < n)%nat -> zIPDataDeltaTime d i = Ok (gap s i).
Proof. intros Hi. destruct Hd as (_ & (A & B) & _). unfold zIPDataDeltaTime. rewrite vget_ok by (rewrite A; exact Hi). cbn. rewrite B; auto. Qed.
Lemma repr_vec i : (i < n)%nat -> exists x, zIPDataSecVec d i = Ok x /\ vlen x = m /\ forall j, vel x j = pt s i j.
Proof.
  intros Hi. destruct Hd as (_ & (A & B) & _). unfold zIPDataSecVec. rewrite vget_ok by (rewrite A; exact Hi). cbn. rewrite B by exact Hi.
  eexists. split; [reflexivity|]. split; [|intros; reflexivity]. apply Dm. apply nth_In. exact Hi.
Qed.
Lemma repr_val i j : (i < n)%nat -> (j < m)%nat -> zIPDataSecVal d i j = Ok (pt s i j).
Proof. intros Hi Hj. unfold zIPDataSecVal. destruct (repr_vec i Hi) as (x & -> & L & E). cbn. rewrite vget_ok by lia. f_equal. apply E. Qed.
Lemma repr_va i : (i < n)%nat -> exists x, ipva d i = Ok x /\ vlen x = m /\ forall j, (j < m)%nat -> vel x j = V i j.
Proof.
  intros Hi. destruct Hd as (_ & _ & (A & B)). unfold ipva. rewrite vget_ok by (rewrite A; exact Hi).
  eexists. split; [reflexivity|]. apply B. exact Hi.
Qed.
Lemma repr_vae i j : (i < n)%nat -> (j < m)%nat -> ipvae d i j = Ok (V i j).
Proof. intros Hi Hj. unfold ipvae. destruct (repr_va i Hi) as (x & -> & L & E). cbn. rewrite vget_ok by lia. f_equal. apply E. exact Hj. Qed.
Lemma repr_set_va i x V' : (i < n)%nat -> vlen x = m -> (forall j, (j < m)%nat -> vel x j = V' i j) ->
  (forall k j, (k < n)%nat -> k <> i -> (j < m)%nat -> V' k j = V k j) ->
  exists d', set_va d i x = Ok d' /\ repr s m V' d'.
Proof.
  intros Hi L E O. destruct Hd as (P & Q & (A & B)). unfold set_va. rewrite vset_ok by (rewrite A; exact Hi). cbn.
  eexists. split; [reflexivity|]. split; [exact P|]. split; [exact Q|]. cbn. split; [exact A|]. intros k Hk.
  destruct (Nat.eqb_spec k i) as [->|N]; [auto|]. destruct (B k Hk) as [B1 B2]. split; auto. intros j Hj. rewrite B2 by auto. symmetry. auto.
Qed.
Lemma repr_set_vae i j x V' : (i < n)%nat -> (j < m)%nat -> V' i j = x ->
  (forall k l, (k < n)%nat -> (l < m)%nat -> (k <> i \/ l <> j) -> V' k l = V k l) ->
  exists d', set_vae d i j x = Ok d' /\ repr s m V' d'.
Proof.
  intros Hi Hj E O. unfold set_vae. destruct (repr_va i Hi) as (y & -> & L & F). cbn. rewrite vset_ok by lia. cbn.
  apply repr_set_va; auto; cbn.
  - intros l Hl. destruct (Nat.eqb_spec l j) as [->|N]; [auto|]. rewrite F by auto. symmetry. apply O; auto.
Qed.
End Repr.

Lemma repr_ext s m V V' d : (forall i j, (i < length s)%nat -> (j < m)%nat -> V i j = V' i j) -> repr s m V d -> repr s m V' d.
Proof. intros E (P & Q & (A & B)). split; auto. split; auto. split; auto. intros i Hi. destruct (B i Hi). split; auto. intros. rewrite <- E; auto. Qed.

Lemma alloc_ok s m : s <> [] -> dim s m -> exists d, zIPDataAlloc s = Ok d /\ repr s m (fun _ _ => 0) d.
Proof.
  intros N D. destruct s as [|c r]; [contradiction|]. cbn [zIPDataAlloc]. eexists. split; [reflexivity|].
  split; [|split]; cbn [ip_t ip_c ip_va].
  - split; [cbn; rewrite length_times; auto|]. intros i Hi. unfold vec_of; cbn [vel]. cbn [s0 RealS]. rewrite nth_times by auto. unfold knot. lra.
  - split; [reflexivity|]. intros i Hi. unfold vec_of; cbn [vel]. apply nth_indep. auto.
  - split; [reflexivity|]. intros i Hi. split; [cbn; apply D; left; auto|]. intros; reflexivity.
Qed.

(** ** segment search *)
Lemma seg_ok s m V d e t : repr s m V d -> 0 <= e -> apart e s -> (2 <= length s)%nat -> exists i, zIPDataSeg d t = Ok i /\ in_seg s t i.
Proof.
  intros Hd He A Hn. unfold zIPDataSeg. rewrite (repr_size _ _ _ _ Hd).
  assert (G : forall fuel i j, (i < j < length s)%nat -> (j - i < fuel)%nat -> (i = 0%nat \/ knot s i <= t) -> (j = (length s - 1)%nat \/ t < knot s j) ->
    exists k, seg_loop fuel d t i j = Ok k /\ in_seg s t k).
  { induction fuel; intros i j Hij Hf Hi Hj; [lia|]. cbn [seg_loop].
    destruct (Nat.eqb_spec ((i + j) / 2) i) as [E|N].
    - exists i. split; auto. assert (j = S i) by (pose proof (Nat.div_mod (i + j) 2); pose proof (Nat.mod_upper_bound (i + j) 2); lia). subst j.
      split; [lia|]. split; auto. destruct Hj; [left; lia|auto].
    - assert (K : (i < (i + j) / 2 < j)%nat) by (pose proof (Nat.div_mod (i + j) 2); pose proof (Nat.mod_upper_bound (i + j) 2); lia).
      rewrite (repr_time _ _ _ _ Hd) by lia. cbn [bind]. rs. destruct (Rltb_spec t (knot s ((i + j) / 2))) as [L|L].
      + apply IHfuel; try lia; auto.
      + apply IHfuel; try lia; auto. right. lra. }
  apply G; try lia; auto.
Qed.
(** any number system: no access outside the knots *)
Lemma seg_safe {T} {ST : Scalar T} (d : ipdata T) t : vlen (ip_t d) = zIPDataSize d -> (1 <= zIPDataSize d)%nat ->
  exists i, zIPDataSeg d t = Ok i /\ (i < zIPDataSize d)%nat /\ ((2 <= zIPDataSize d)%nat -> (S i < zIPDataSize d)%nat).
Proof.
  intros L Hn. unfold zIPDataSeg.
  assert (G : forall fuel i j, (i < j < zIPDataSize d)%nat -> (j - i < fuel)%nat -> exists k, seg_loop fuel d t i j = Ok k /\ (S k < zIPDataSize d)%nat).
  { induction fuel; intros i j Hij Hf; [lia|]. cbn [seg_loop].
    destruct (Nat.eqb_spec ((i + j) / 2) i) as [E|N]; [exists i; split; auto; lia|].
    assert (K : (i < (i + j) / 2 < j)%nat) by (pose proof (Nat.div_mod (i + j) 2); pose proof (Nat.mod_upper_bound (i + j) 2); lia).
    unfold zIPDataTime. rewrite vget_ok by lia. cbn [bind]. destruct (slt _ _); apply IHfuel; lia. }
  destruct (Nat.eq_dec (zIPDataSize d) 1) as [E|N].
  - rewrite E. exists 0%nat. cbn. repeat split; lia.
  - destruct (G (S (zIPDataSize d)) 0%nat (zIPDataSize d - 1)%nat) as (k & E & H); try lia. exists k. split; auto. lia.
Qed.

(** ** vector operations *)
Lemma vop1_ok (f : R -> R) v1 v : vlen v1 = vlen v -> vop1 f v1 v = Ok (FV (vlen v) (fun i => f (vel v1 i))).
Proof. intros E. unfold vop1. rewrite E, Nat.leb_refl. reflexivity. Qed.
Lemma vop2_ok (f : R -> R -> R) v1 v2 v : vlen v1 = vlen v -> vlen v2 = vlen v -> vop2 f v1 v2 v = Ok (FV (vlen v) (fun i => f (vel v1 i) (vel v2 i))).
Proof. intros E F. unfold vop2. rewrite E, F, Nat.leb_refl. reflexivity. Qed.
Lemma catDRC_ok (v : fvec R) k v2 : vlen v2 = vlen v -> zVecCatDRC v k v2 = Ok (FV (vlen v) (fun i => vel v i + vel v2 i * k)).
Proof. intros E. unfold zVecCatDRC. rewrite E, Nat.eqb_refl. unfold zVecCatNC. rewrite vop2_ok by auto. reflexivity. Qed.
Lemma catNCDRC_ok (v : fvec R) k v2 : vlen v2 = vlen v -> zVecCatNCDRC v k v2 = Ok (FV (vlen v) (fun i => vel v i + vel v2 i * k)).
Proof. intros E. unfold zVecCatNCDRC, zVecCatNC. rewrite vop2_ok by auto. reflexivity. Qed.

(** ** linear *)
Lemma gap_slope s i j : (pt s (S i) j - pt s i j) / gap s (S i) = slope s i j.
Proof. unfold slope. rewrite knot_S. f_equal. lra. Qed.
Lemma linear_ok tol s m : 0 <= tol -> apart tol s -> dim s m -> s <> [] ->
  exists d, zIPCreateLinear tol s = Ok d /\ repr s m (fun i j => if (S i <? length s)%nat then slope s i j else 0) d.
Proof.
  intros Ht A D N. unfold zIPCreateLinear. destruct (alloc_ok s m N D) as (d0 & -> & H0). cbn [bind]. rewrite (repr_size _ _ _ _ H0).
  assert (L : (1 <= length s)%nat) by (destruct s; [contradiction|cbn; lia]).
  match goal with |- context [for_ 1 (length s) ?f ?d0] =>
    destruct (for_inv (fun i d => repr s m (fun k j => if (S k <? i)%nat then slope s k j else 0) d) 1 (length s) f d0) as (d & -> & H) end; [lia| | |].
  - refine (repr_ext _ _ _ _ _ _ H0). intros i j _ _. cbn. reflexivity.
  - intros i d Hi Hd.
    destruct (repr_vec _ _ _ _ Hd D i) as (x1 & -> & L1 & E1); [lia|].
    destruct (repr_vec _ _ _ _ Hd D (i - 1)) as (x0 & -> & L0 & E0); [lia|].
    destruct (repr_va _ _ _ _ Hd (i - 1)) as (va & -> & La & Ea); [lia|]. cbn [bind].
    unfold zVecSubNC. rewrite vop2_ok by congruence. cbn [bind]. rewrite (repr_dt _ _ _ _ Hd) by lia. cbn [bind].
    unfold zVecDivDRC. rewrite is_tol_R. assert (G : tol < gap s i) by (apply A; lia).
    rewrite Rleb_false by (rewrite Rabs_pos_eq by lra; lra).
    unfold zVecDivNC. rewrite vop1_ok by reflexivity. cbn [bind vlen vel].
    apply repr_set_va with (V := fun k j => if (S k <? i)%nat then slope s k j else 0); auto; try lia.
    + intros j Hj. cbn [vel]. rewrite E0, E1. rs. replace (S (i - 1) <? S i)%nat with true by (symmetry; apply Nat.ltb_lt; lia).
      rewrite <- gap_slope. replace (S (i - 1)) with i by lia. unfold Rdiv. ring.
    + intros k j Hk Hki Hj. destruct (Nat.ltb_spec (S k) (S i)), (Nat.ltb_spec (S k) i); auto; lia.
  - exists d. auto.
Qed.
Lemma linear_vec tol s m d t v : (2 <= length s)%nat -> 0 <= tol -> apart tol s -> dim s m -> vlen v = m ->
  repr s m (fun i j => if (S i <? length s)%nat then slope s i j else 0) d ->
  exists i w u, in_seg s t i /\ zIPVecLinear d t v = Ok w /\ zIPVelLinear d t v = Ok u /\ vlen w = m /\ vlen u = m /\
    forall j, (j < m)%nat -> vel w j = pt s i j + slope s i j * (t - knot s i) /\ vel u j = slope s i j.
Proof.
  intros Hn Ht A D Lv Hd. unfold zIPVecLinear, zIPVelLinear.
  destruct (seg_ok _ _ _ _ _ t Hd Ht A Hn) as (i & -> & Hi). exists i. cbn [bind]. pose proof Hi as (Hi1 & _).
  destruct (repr_vec _ _ _ _ Hd D i) as (x & -> & Lx & Ex); [lia|].
  destruct (repr_va _ _ _ _ Hd i) as (a & Ea & La & Va); [lia|]. rewrite (repr_time _ _ _ _ Hd) by lia. rewrite Ea. cbn [bind].
  unfold zIPSecVelLinear. rewrite (repr_size _ _ _ _ Hd).
  replace ((Z.of_nat i <? 0)%Z || (Z.of_nat (length s) <=? Z.of_nat i + 1)%Z) with false by (symmetry; apply orb_false_iff; split; [apply Z.ltb_ge|apply Z.leb_gt]; lia).
  rewrite Nat2Z.id, Ea. cbn [bind]. unfold zVecCatNC, zVecCopyNC. rewrite vop2_ok by congruence. rewrite vop1_ok by congruence.
  eexists _, _. split; [exact Hi|]. split; [reflexivity|]. split; [reflexivity|]. cbn [vlen vel]. split; [auto|]. split; [auto|].
  intros j Hj. rewrite Ex, Va by auto. replace (S i <? length s)%nat with true by (symmetry; apply Nat.ltb_lt; lia). rs. split; ring.
Qed.
