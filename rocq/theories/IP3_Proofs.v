(** Creation of splines: the tridiagonal equations are solved. *)
From Coq Require Import Reals Lra Lia.
From Verif Require Import Prelude Prelude_Proofs Scalar RealLib Fmat Fmat_Proofs LE_Model LE4_Proofs IP_Model IP_Spec IP_Proofs IP2_Proofs.
Local Open Scope R_scope.
Local Notation points := (list (R * fvec R)).

Section Spline.
Variables (s : points) (m : nat).
Hypothesis (A : apart 0 s) (Dm : dim s m) (Hn : (2 <= length s)%nat).
Let n := length s.
Local Notation h k := (gap s k).
Lemma h_pos k : (1 <= k < n)%nat -> 0 < h k. Proof. apply A. Qed.

Definition edge_ok (e : etype R) : Prop := match e with FixEdge v => vlen v = m | FreeEdge => True | BadEdge => False end.
(** coefficients of the first and of the last row *)
Definition row0 (e : etype R) (q : nat) : R * R * R :=
  match e with FixEdge v => (1, 0, vel v q) | _ => (2 / h 1, 1 / h 1, 3 * (pt s 1 q - pt s 0 q) / (h 1) ^ 2) end.
Definition rowl (e : etype R) (q : nat) : R * R * R :=
  match e with FixEdge v => (0, 1, vel v q)
  | _ => (2 / h (n - 1), 1 / h (n - 1), 3 * (pt s (n - 1) q - pt s (n - 2) q) / (h (n - 1)) ^ 2) end.
Definition rhs (q k : nat) : R := - pt s (k - 1) q * (3 / (h k * h k)) + pt s k q * (3 / (h k * h k) - 3 / (h (S k) * h (S k))) + pt s (S k) q * (3 / (h (S k) * h (S k))).
Definition sa e2 q k := if (k =? 0)%nat then 0 else if (k =? n - 1)%nat then fst (fst (rowl e2 q)) else 1 / h k.
Definition sb e1 e2 q k := if (k =? 0)%nat then fst (fst (row0 e1 q)) else if (k =? n - 1)%nat then snd (fst (rowl e2 q)) else 2 * (1 / h k + 1 / h (S k)).
Definition sc e1 q k := if (k =? 0)%nat then snd (fst (row0 e1 q)) else if (k =? n - 1)%nat then 0 else 1 / h (S k).
Definition sd e1 e2 q k := if (k =? 0)%nat then snd (row0 e1 q) else if (k =? n - 1)%nat then snd (rowl e2 q) else rhs q k.

Definition veq (v : fvec R) (f : nat -> R) := vlen v = n /\ forall k, (k < n)%nat -> vel v k = f k.
Lemma free_edge_ok V d iv q : repr s m V d -> (1 <= iv < n)%nat -> (q < m)%nat ->
  free_edge d iv q = Ok (2 / h iv, 1 / h iv, 3 * (pt s iv q - pt s (iv - 1) q) / (h iv) ^ 2).
Proof.
  intros Hd Hi Hq. unfold free_edge. rewrite (repr_dt _ _ _ _ Hd) by (fold n; lia). cbn [bind]. replace (iv =? 0)%nat with false by nbts.
  rewrite !(repr_val _ _ _ _ Hd Dm) by (fold n; lia). cbn [bind]. unfold sqr. rs. pose proof (h_pos iv Hi). do 2 f_equal; [f_equal; field|field]; lra.
Qed.
Ltac vs := rewrite vset_ok by (cbn [vlen]; lia); cbn [bind].
Ltac cases := cbn [vel]; repeat match goal with |- context [(?x =? ?y)%nat] => destruct (Nat.eqb_spec x y); subst; try lia; auto end.
Lemma spline_eq_ok V d q e1 e2 : repr s m V d -> (q < m)%nat -> edge_ok e1 -> edge_ok e2 ->
  exists a b c r, spline_eq d n q e1 e2 = Ok (Some (a, b, c, r)) /\ veq a (sa e2 q) /\ veq b (sb e1 e2 q) /\ veq c (sc e1 q) /\ veq r (sd e1 e2 q).
Proof.
  intros Hd Hq H1 H2. unfold spline_eq.
  match goal with |- context [for_ ?lo ?hi ?f ?s00] => destruct (for_inv (fun k st => let '(a, b, c, r) := st in
     (vlen a = n /\ vlen b = n /\ vlen c = n /\ vlen r = n) /\ forall j, (j < n)%nat -> 
       vel a j = (if (j =? 0)%nat then 0 else if (j <? k)%nat then 1 / h j else 0) /\
       vel b j = (if (j =? 0)%nat then 0 else if (j <? k)%nat then 2 * (1 / h j + 1 / h (S j)) else 0) /\
       vel c j = (if (j =? 0)%nat then 0 else if (j <? k)%nat then 1 / h (S j) else 0) /\
       vel r j = (if (j =? 0)%nat then 0 else if (j <? k)%nat then rhs q j else 0)) lo hi f s00) as ((((a & b) & c) & r) & -> & (L1 & L2 & L3 & L4) & I) end.
  - fold n in Hn. lia.
  - cbn. conjs; auto. all: intros j Hj; conjs; nbts.
  - intros k [[[a b] c] r] Hk ((L1 & L2 & L3 & L4) & I).
    replace (k + 1)%nat with (S k) by lia. rewrite !(repr_dt _ _ _ _ Hd) by (fold n; lia). cbn [bind]. vs. vs. vs.
    rewrite !(repr_val _ _ _ _ Hd Dm) by (fold n; lia). cbn [bind]. vs. eexists; split; [reflexivity|]. cbn [vlen]. split; [auto|].
    intros j Hj. destruct (I j Hj) as (I1 & I2 & I3 & I4). cbn [vel]. destruct (Nat.eqb_spec j k) as [->|N].
    + replace (k =? 0)%nat with false by nbts. replace (k <? S k)%nat with true by nbts. unfold rhs, sqr. rs. auto.
    + rewrite I1, I2, I3, I4. replace (j <? S k)%nat with (j <? k)%nat by nbts. auto.
  - cbn [bind]. fold n in Hn.
    assert (S1 : forall b0 c0 r0 al bl rl, row0 e1 q = (b0, c0, r0) -> rowl e2 q = (al, bl, rl) ->
      forall a' b' c' r', vlen a' = n -> vlen b' = n -> vlen c' = n -> vlen r' = n ->
      (forall j, (j < n)%nat -> vel a' j = (if (j =? n - 1)%nat then al else vel a j) /\
        vel b' j = (if (j =? n - 1)%nat then bl else if (j =? 0)%nat then b0 else vel b j) /\
        vel c' j = (if (j =? 0)%nat then c0 else vel c j) /\ vel r' j = (if (j =? n - 1)%nat then rl else if (j =? 0)%nat then r0 else vel r j)) ->
      veq a' (sa e2 q) /\ veq b' (sb e1 e2 q) /\ veq c' (sc e1 q) /\ veq r' (sd e1 e2 q)).
    { intros b0 c0 r0 al bl rl E1 E2 a' b' c' r' K1 K2 K3 K4 K. unfold veq, sa, sb, sc, sd. rewrite E1, E2. cbn [fst snd].
      conjs; auto; intros k Hk; destruct (K k Hk) as (Q1 & Q2 & Q3 & Q4); destruct (I k Hk) as (I1 & I2 & I3 & I4).
      - rewrite Q1, I1. replace (k <? n - 1)%nat with (negb (k =? n - 1)%nat) by nbts. nbts.
      - rewrite Q2, I2. replace (k <? n - 1)%nat with (negb (k =? n - 1)%nat) by nbts. nbts.
      - rewrite Q3, I3. replace (k <? n - 1)%nat with (negb (k =? n - 1)%nat) by nbts. nbts.
      - rewrite Q4, I4. replace (k <? n - 1)%nat with (negb (k =? n - 1)%nat) by nbts. nbts. }
    assert (C0 : vel c 0%nat = 0) by (destruct (I 0%nat) as (_ & _ & Q & _); [lia|exact Q]).
    assert (AL : vel a (n - 1)%nat = 0). { destruct (I (n - 1)%nat) as (Q & _); [lia|]. rewrite Q. replace (n - 1 <? n - 1)%nat with false by nbts. nbts. }
    destruct e1 as [v1| |]; [| |destruct H1]; (destruct e2 as [v2| |]; [| |destruct H2]); cbn [edge_ok] in H1, H2;
      repeat (rewrite (free_edge_ok _ _ _ _ Hd) by lia; cbn [bind]); repeat (first [vs | rewrite vget_ok by lia; cbn [bind]]).
    all: do 4 eexists; split; [reflexivity|]; eapply S1; [reflexivity|reflexivity|cbn; auto..|].
    all: intros j Hj; cbn [vel]; conjs; auto.
    all: try (destruct (Nat.eqb_spec j (n - 1)%nat) as [->|]; auto).
    all: try (destruct (Nat.eqb_spec j 0%nat) as [->|]; auto).
    all: replace (n - 1 - 1)%nat with (n - 2)%nat by lia; try reflexivity.
    all: replace (n - 1 =? 0)%nat with false by nbts; try reflexivity.
Qed.

(** ** the pivots *)
Definition solvable (e1 e2 : etype R) : Prop := match e1, e2 with FreeEdge, FreeEdge => (3 <= n)%nat | _, _ => True end.
Lemma tb_ext a b c a' b' c' N : (forall k, (k < N)%nat -> a k = a' k /\ b k = b' k /\ c k = c' k) -> forall k, (k < N)%nat -> tb a b c k = tb a' b' c' k.
Proof.
  intros E. induction k; intros Hk; cbn [tb]; [apply E; auto|]. rewrite IHk by lia. destruct (E (S k) Hk) as (-> & -> & _).
  destruct (E k) as (_ & _ & ->); [lia|]. reflexivity.
Qed.
Lemma row0_dom e1 q : edge_ok e1 -> Rabs (snd (fst (row0 e1 q))) < Rabs (fst (fst (row0 e1 q))).
Proof.
  intros H1. pose proof (h_pos 1%nat) as P. fold n in Hn. specialize (P ltac:(lia)).
  assert (0 < / h 1) by (apply Rinv_0_lt_compat; auto). destruct e1; cbn [row0 fst snd].
  - rewrite Rabs_R0, Rabs_R1. lra.
  - unfold Rdiv. rewrite !Rabs_pos_eq by lra. lra.
  - destruct H1.
Qed.
Lemma pivots e1 e2 q : edge_ok e1 -> edge_ok e2 -> solvable e1 e2 -> forall k, (k < n)%nat -> tb (sa e2 q) (sb e1 e2 q) (sc e1 q) k <> 0.
Proof.
  intros H1 H2 S12. fold n in Hn.
  set (a' := fun k => if (k =? n - 1)%nat then 0 else sa e2 q k).
  assert (D : forall k, (k < n)%nat -> (if (S k =? n)%nat then 0 else Rabs (sc e1 q k)) < Rabs (tb a' (sb e1 e2 q) (sc e1 q) k)).
  { apply (tridiag_dominant _ _ _ (fun _ => 0)). intros k Hk. unfold a', sa, sb, sc.
    destruct (Nat.eqb_spec k 0) as [->|N0].
    - replace (0 =? n - 1)%nat with false by nbts. replace (1 =? n)%nat with false by nbts. rewrite Rplus_0_l. apply row0_dom. auto.
    - destruct (Nat.eqb_spec k (n - 1)) as [E|N1].
      + replace (S k =? n)%nat with true by nbts. rewrite Rabs_R0, Rplus_0_l. pose proof (h_pos (n - 1)%nat ltac:(lia)).
        destruct e2; cbn [rowl fst snd]; [rewrite Rabs_R1; lra| |destruct H2].
        apply Rabs_pos_lt. apply Rmult_integral_contrapositive. split; [lra|apply Rinv_neq_0_compat; lra].
      + replace (S k =? n)%nat with false by nbts.
        assert (0 < / h k) by (apply Rinv_0_lt_compat, h_pos; lia). assert (0 < / h (S k)) by (apply Rinv_0_lt_compat, h_pos; lia).
        unfold Rdiv. rewrite !Rmult_1_l. rewrite !Rabs_pos_eq by lra. lra. }
  assert (D' : forall k, (S k < n)%nat -> Rabs (sc e1 q k) < Rabs (tb (sa e2 q) (sb e1 e2 q) (sc e1 q) k)).
  { intros k Hk. specialize (D k ltac:(lia)). replace (S k =? n)%nat with false in D by nbts.
    rewrite (tb_ext _ _ _ a' (sb e1 e2 q) (sc e1 q) (n - 1)); auto; try lia. intros i Hi. unfold a'. replace (i =? n - 1)%nat with false by nbts. auto. }
  assert (NZ : forall k, (S k < n)%nat -> tb (sa e2 q) (sb e1 e2 q) (sc e1 q) k <> 0).
  { intros k Hk Z. specialize (D' k Hk). rewrite Z, Rabs_R0 in D'. pose proof (Rabs_pos (sc e1 q k)). lra. }
  intros k Hk. destruct (Nat.eq_dec (S k) n) as [E|N]; [|apply NZ; lia].
  destruct k as [|k]; [lia|]. cbn [tb]. specialize (D' k ltac:(lia)). pose proof (NZ k ltac:(lia)) as NZk. pose proof (h_pos (n - 1)%nat ltac:(lia)) as P.
  assert (IP : 0 < / h (n - 1)) by (apply Rinv_0_lt_compat; auto).
  remember (tb (sa e2 q) (sb e1 e2 q) (sc e1 q) k) as t eqn:Et in *.
  unfold sa at 1, sb at 1. replace (S k =? 0)%nat with false by nbts. replace (S k =? n - 1)%nat with true by nbts.
  destruct e2; cbn [rowl fst snd]; [rewrite Rmult_0_r; lra| |destruct H2]. intros Z.
  destruct k as [|k].
  - (* two points *)
    unfold sc in Z. cbn in Z. destruct e1; cbn [row0 fst snd] in Z; [unfold Rdiv in Z; lra| |destruct H1].
    cbn in S12. lia.
  - assert (Ek : sc e1 q (S k) = / h (n - 1)).
    { unfold sc. replace (S k =? 0)%nat with false by nbts. replace (S k =? n - 1)%nat with false by nbts. replace (n - 1)%nat with (S (S k)) by lia. unfold Rdiv. ring. }
    rewrite Ek in Z. assert (T : t = 2 * / h (n - 1)).
    { assert (/ h (n - 1) / t = 1 / 2). { apply Rmult_eq_reg_r with (2 * / h (n - 1)); [|lra]. unfold Rdiv in Z |- *. lra. }
      assert (t * (/ h (n - 1) / t) = / h (n - 1)) by (field; lra). rewrite H in H0. lra. }
    rewrite Et in T. cbn [tb] in T. remember (tb (sa FreeEdge q) (sb e1 FreeEdge q) (sc e1 q) k) as t2 eqn:Et2 in *.
    unfold sb at 1, sa at 1 in T. replace (S k =? 0)%nat with false in T by nbts. replace (S k =? n - 1)%nat with false in T by nbts.
    replace (S (S k)) with (n - 1)%nat in T by lia.
    assert (K : Rabs (sc e1 q k / t2) < 1).
    { assert (Q : Rabs (sc e1 q k) < Rabs t2).
      { specialize (D k ltac:(lia)). replace (S k =? n)%nat with false in D by nbts. rewrite Et2.
        rewrite (tb_ext _ _ _ a' (sb e1 FreeEdge q) (sc e1 q) (n - 1)); auto; try lia. intros i Hi. unfold a'. replace (i =? n - 1)%nat with false by nbts. auto. }
      unfold Rdiv. rewrite Rabs_mult, Rabs_inv. pose proof (Rabs_pos (sc e1 q k)).
      apply Rmult_lt_reg_r with (Rabs t2); [lra|]. rewrite Rmult_assoc, Rinv_l by lra. lra. }
    apply Rabs_def2 in K. assert (0 < / h (S k)) by (apply Rinv_0_lt_compat, h_pos; lia).
    set (x := sc e1 q k / t2) in *. unfold Rdiv in T. assert (x * / h (S k) < / h (S k)) by (rewrite <- Rmult_1_l; apply Rmult_lt_compat_r; lra). lra.
Qed.

(** ** the whole creation *)
Definition rows (e1 e2 : etype R) (q : nat) (X : nat -> R) : Prop :=
  forall k, (k < n)%nat -> (if (k =? 0)%nat then 0 else sa e2 q k * X (k - 1)%nat) + sb e1 e2 q k * X k + (if (S k =? n)%nat then 0 else sc e1 q k * X (S k)) = sd e1 e2 q k.
Lemma spline_create e1 e2 : edge_ok e1 -> edge_ok e2 -> solvable e1 e2 ->
  exists d V, zIPCreateSpline s e1 e2 = Ok (Some d) /\ repr s m V d /\ forall q, (q < m)%nat -> rows e1 e2 q (fun k => V k q).
Proof.
  intros H1 H2 S12. unfold zIPCreateSpline. fold n in Hn. assert (NE : s <> []) by (intros E; unfold n in Hn; rewrite E in Hn; cbn in Hn; lia).
  destruct (alloc_ok s m NE Dm) as (d0 & -> & H0). cbn [bind]. rewrite (repr_size _ _ _ _ H0). fold n.
  destruct (repr_vec _ _ _ _ H0 Dm 0) as (x & -> & L & _); [fold n; lia|]. cbn [bind]. rewrite L.
  match goal with |- context [forb ?lo ?hi ?f ?s00] => destruct (forb_inv (fun q st => vlen (snd st) = n /\ exists V, repr s m V (fst st) /\ forall p, (p < q)%nat -> rows e1 e2 p (fun k => V k p))
     (fun _ => False) lo hi f s00) as (o & EO & HO) end.
  - lia.
  - cbn. split; auto. exists (fun _ _ => 0). split; auto. intros; lia.
  - intros q [d v] Hq (Lv & V & Hd & HV). cbn [fst snd] in *.
    destruct (spline_eq_ok V d q e1 e2) as (a & b & c & r & -> & (La & Ea) & (Lb & Eb) & (Lc & Ec) & (Lr & Er)); auto; try lia. cbn [bind].
    destruct (tridiagDST_ok n a b c r v) as (o & -> & HO); auto; try lia. cbn [bind].
    assert (PV : forall k, (k < n)%nat -> tb (vel a) (vel b) (vel c) k <> 0).
    { intros k Hk. rewrite (tb_ext _ _ _ (sa e2 q) (sb e1 e2 q) (sc e1 q) n); auto. apply pivots; auto. }
    destruct o as [y|]; [|exfalso; destruct HO as (k & Hk & Z); apply (PV k); auto; lia].
    destruct HO as (Ly & _ & B1 & B2). pose proof (tridiag_back (vel a) (vel b) (vel c) (vel r) n (vel y) PV B1 B2) as SOL.
    match goal with |- context [for_ ?lo ?hi ?f ?s00] => destruct (for_inv (fun i dd => repr s m (fun k j => if (j =? q)%nat && (k <? i)%nat then vel y k else V k j) dd) lo hi f s00) as (d' & -> & Hd') end.
    + lia.
    + eapply repr_ext; [|exact Hd]. intros. cbn. rewrite andb_false_r. auto.
    + intros i dd Hi Hdd. rewrite vget_ok by lia. cbn [bind].
      apply (repr_set_vae s m _ dd Hdd i q (vel y i) (fun k j => if (j =? q)%nat && (k <? S i)%nat then vel y k else V k j)); [fold n; lia|lia| |].
      * rewrite Nat.eqb_refl. replace (i <? S i)%nat with true by nbts. auto.
      * intros k l Hk Hl Hkl. destruct (Nat.eqb_spec l q); cbn [andb]; auto. replace (k <? S i)%nat with (k <? i)%nat by (destruct Hkl; [nbts|contradiction]). auto.
    + cbn [bind]. eexists; split; [reflexivity|]. cbn [fst snd]. split; auto. eexists. split; [exact Hd'|].
      intros p Hp k Hk. cbn beta. destruct (Nat.eqb_spec p q) as [->|N]; cbn [andb].
      * replace (k <? n)%nat with true by nbts. replace (k - 1 <? n)%nat with true by nbts. specialize (SOL k Hk).
        rewrite Ea, Eb, Ec, Er in SOL by auto. destruct (Nat.eqb_spec (S k) n); [exact SOL|]. replace (S k <? n)%nat with true by nbts. exact SOL.
      * apply HV; lia.
  - rewrite EO. cbn [bind]. destruct o as [[d v]|[]]; [|destruct HO]. destruct HO as (_ & V & Hd & HV). cbn [fst] in Hd. exists d, V. auto.
Qed.

(** second derivatives agree at the interior knots *)
Lemma rows_join e1 e2 q X i : rows e1 e2 q X -> (S (S i) < n)%nat ->
  hermdd (pt s i q) (pt s (S i) q) (X i) (X (S i)) (h (S i)) (h (S i)) = hermdd (pt s (S i) q) (pt s (S (S i)) q) (X (S i)) (X (S (S i))) (h (S (S i))) 0.
Proof.
  intros R Hi. specialize (R (S i) ltac:(lia)). unfold sa, sb, sc, sd, rhs in R.
  replace (S i =? 0)%nat with false in R by nbts. replace (S i =? n - 1)%nat with false in R by nbts. replace (S (S i) =? n)%nat with false in R by nbts.
  replace (S i - 1)%nat with i in R by lia. pose proof (h_pos (S i) ltac:(lia)). pose proof (h_pos (S (S i)) ltac:(lia)).
  unfold hermdd. set (h1 := h (S i)) in *. set (h2 := h (S (S i))) in *. set (x0 := pt s i q) in *. set (x1 := pt s (S i) q) in *. set (x2 := pt s (S (S i)) q) in *.
  set (v0 := X i) in *. set (v1 := X (S i)) in *. set (v2 := X (S (S i))) in *.
  apply Rminus_diag_uniq. transitivity (2 * ((1 / h1 * v0 + 2 * (1 / h1 + 1 / h2) * v1 + 1 / h2 * v2) - (- x0 * (3 / (h1 * h1)) + x1 * (3 / (h1 * h1) - 3 / (h2 * h2)) + x2 * (3 / (h2 * h2))))).
  - field. lra.
  - rewrite R. ring.
Qed.
Lemma rows_first e1 e2 q X : rows e1 e2 q X -> edge_ok e1 -> match e1 with FixEdge v => X 0%nat = vel v q
  | _ => hermdd (pt s 0 q) (pt s 1 q) (X 0%nat) (X 1%nat) (h 1) 0 = 0 end.
Proof.
  intros R H1. fold n in Hn. specialize (R 0%nat ltac:(lia)). unfold sa, sb, sc, sd in R. change (0 =? 0)%nat with true in R. replace (1 =? n)%nat with false in R by nbts. cbv iota in R.
  pose proof (h_pos 1%nat ltac:(lia)). destruct e1; cbn [row0 fst snd] in R; [lra| |destruct H1].
  unfold hermdd. apply Rminus_diag_uniq. transitivity (- 2 * ((0 + 2 / h 1 * X 0%nat + 1 / h 1 * X 1%nat) - 3 * (pt s 1 q - pt s 0 q) / h 1 ^ 2)); [field; lra|]. rewrite R. ring.
Qed.
Lemma rows_last e1 v q X : rows e1 (FixEdge v) q X -> X (n - 1)%nat = vel v q.
Proof.
  intros R. fold n in Hn. specialize (R (n - 1)%nat ltac:(lia)). unfold sa, sb, sc, sd in R. replace (n - 1 =? 0)%nat with false in R by nbts.
  rewrite Nat.eqb_refl in R. replace (S (n - 1) =? n)%nat with true in R by nbts. cbn [rowl fst snd] in R. lra.
Qed.
End Spline.
