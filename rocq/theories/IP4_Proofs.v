(** Lagrange interpolation. *)
From Coq Require Import Reals Lra Lia.
From Verif Require Import Prelude Prelude_Proofs Scalar RealLib Fmat Fmat_Proofs LE_Model IP_Model IP_Spec IP_Proofs IP2_Proofs.
Local Open Scope R_scope.
Local Notation points := (list (R * fvec R)).

Fixpoint rprod (n : nat) (f : nat -> R) : R := match n with O => 1 | S k => rprod k f * f k end.
Lemma rprod_ext n f g : (forall i, (i < n)%nat -> f i = g i) -> rprod n f = rprod n g.
Proof. induction n; intros E; cbn; auto. rewrite IHn, E; auto. Qed.
Lemma rprod_0 n f k : (k < n)%nat -> f k = 0 -> rprod n f = 0.
Proof. induction n; intros Hk E; [lia|]. cbn. destruct (Nat.eq_dec k n) as [->|]; [rewrite E; ring|]. rewrite IHn; auto; [ring|lia]. Qed.
Lemma rprod_neq0 n f : (forall i, (i < n)%nat -> f i <> 0) -> rprod n f <> 0.
Proof. induction n; intros E; cbn; [lra|]. apply Rmult_integral_contrapositive. split; auto. Qed.

(** ** limits of sums and products *)
Lemma lim_rsum n (f : nat -> R -> R) (f' : nat -> R) t : (forall i, (i < n)%nat -> derivable_pt_lim (f i) t (f' i)) ->
  derivable_pt_lim (fun t => rsum n (fun i => f i t)) t (rsum n f').
Proof. induction n; intros H; cbn; [apply derivable_pt_lim_const|]. apply derivable_pt_lim_plus; auto. Qed.
Definition fac (a : nat -> R) (sk : nat -> bool) (t : R) (j : nat) : R := if sk j then 1 else t - a j.
Lemma lim_rprod n a sk t : derivable_pt_lim (fun t => rprod n (fac a sk t)) t
  (rsum n (fun k => if sk k then 0 else rprod n (fac a (fun j => sk j || (j =? k)%nat) t))).
Proof.
  induction n; cbn [rprod rsum]; [apply derivable_pt_lim_const|].
  assert (E : derivable_pt_lim (fun t => fac a sk t n) t (if sk n then 0 else 1)).
  { unfold fac. destruct (sk n); [apply derivable_pt_lim_const|]. replace 1 with (1 - 0) by ring. apply derivable_pt_lim_minus; [apply derivable_pt_lim_id|apply derivable_pt_lim_const]. }
  pose proof (derivable_pt_lim_mult _ _ _ _ _ IHn E) as M. cbn beta in M. unfold mult_fct in M.
  eapply (local_derive _ _ _ _ 1); [lra| |].
  2:{ match type of M with derivable_pt_lim _ _ ?x => match goal with |- derivable_pt_lim _ _ ?y => replace y with x; [exact M|] end end.
      f_equal.
      - rewrite <- rsum_scal_r. apply rsum_ext. intros k Hk. destruct (sk k); [ring|]. unfold fac at 4. replace (n =? k)%nat with false by nbts. rewrite orb_false_r. reflexivity.
      - destruct (sk n) eqn:Es; [ring|]. unfold fac at 3. rewrite Es, Nat.eqb_refl. cbn [orb].
        f_equal. apply rprod_ext. intros j Hj. unfold fac. replace (j =? n)%nat with false by nbts. rewrite orb_false_r. reflexivity. }
  intros; reflexivity.
Qed.

(** ** symmetric sums *)
Lemma sum_pairs n (v : nat -> R) (g : nat -> nat -> R) : (forall i j, g i j = g j i) ->
  rsum n (fun i => rsum n (fun j => if (i <? j)%nat then g i j * v i + g i j * v j else 0)) =
  rsum n (fun i => v i * rsum n (fun j => if (j =? i)%nat then 0 else g i j)).
Proof.
  intros S. symmetry.
  transitivity (rsum n (fun i => rsum n (fun j => if (i <? j)%nat then g i j * v i else 0)) + rsum n (fun i => rsum n (fun j => if (j <? i)%nat then g i j * v i else 0))).
  - rewrite <- rsum_add. apply rsum_ext. intros i Hi. rewrite <- rsum_add, <- rsum_scal. apply rsum_ext. intros j Hj.
    destruct (Nat.eqb_spec j i), (Nat.ltb_spec i j), (Nat.ltb_spec j i); try lia; ring.
  - rewrite (rsum_swap n n (fun i j => if (j <? i)%nat then g i j * v i else 0)). rewrite <- rsum_add. apply rsum_ext. intros i Hi. rewrite <- rsum_add. apply rsum_ext. intros j Hj.
    destruct (Nat.ltb_spec i j); [|ring]. rewrite (S j i). ring.
Qed.
Definition t3 (n : nat) (f : nat -> nat -> nat -> R) := rsum n (fun i => rsum n (fun j => rsum n (fun k => f i j k))).
Lemma t3_ext n f g : (forall i j k, (i < n)%nat -> (j < n)%nat -> (k < n)%nat -> f i j k = g i j k) -> t3 n f = t3 n g.
Proof. intros E. unfold t3. apply rsum_ext; intros i Hi. apply rsum_ext; intros j Hj. apply rsum_ext; intros k Hk. auto. Qed.
Lemma t3_add n f g : t3 n (fun i j k => f i j k + g i j k) = t3 n f + t3 n g.
Proof. unfold t3. rewrite <- rsum_add. apply rsum_ext; intros i Hi. rewrite <- rsum_add. apply rsum_ext; intros j Hj. rewrite <- rsum_add. reflexivity. Qed.
Lemma t3_12 n f : t3 n f = t3 n (fun i j k => f j i k).
Proof. unfold t3. rewrite (rsum_swap n n (fun i j => rsum n (fun k => f i j k))). reflexivity. Qed.
Lemma t3_23 n f : t3 n f = t3 n (fun i j k => f i k j).
Proof. unfold t3. apply rsum_ext. intros i Hi. rewrite (rsum_swap n n (fun j k => f i j k)). reflexivity. Qed.
Definition lt3 (i j k : nat) : bool := (i <? j)%nat && (j <? k)%nat.
Lemma sum_triples n (v : nat -> R) (g : nat -> nat -> nat -> R) : (forall i j k, g i j k = g j i k) -> (forall i j k, g i j k = g i k j) ->
  t3 n (fun i j k => if lt3 i j k then 2 * g i j k * v i + 2 * g i j k * v j + 2 * g i j k * v k else 0) =
  rsum n (fun i => v i * rsum n (fun j => if (j =? i)%nat then 0 else rsum n (fun k => if (k =? i)%nat || (k =? j)%nat then 0 else g i j k))).
Proof.
  intros S1 S2. symmetry.
  transitivity (t3 n (fun i j k => if (j =? i)%nat || (k =? i)%nat || (k =? j)%nat then 0 else v i * g i j k)).
  { unfold t3. apply rsum_ext; intros i Hi. rewrite <- rsum_scal. apply rsum_ext; intros j Hj. destruct (j =? i)%nat; cbn [orb].
    - rewrite Rmult_0_r. symmetry. apply rsum_0. auto.
    - rewrite <- rsum_scal. apply rsum_ext; intros k Hk. destruct ((k =? i)%nat || (k =? j)%nat); ring. }
  set (f := fun i j k => v i * g i j k).
  transitivity (t3 n (fun i j k => if lt3 i j k then f i j k else 0) + t3 n (fun i j k => if lt3 i k j then f i j k else 0) +
    t3 n (fun i j k => if lt3 j i k then f i j k else 0) + t3 n (fun i j k => if lt3 j k i then f i j k else 0) +
    t3 n (fun i j k => if lt3 k i j then f i j k else 0) + t3 n (fun i j k => if lt3 k j i then f i j k else 0)).
  { rewrite <- !t3_add. apply t3_ext. intros i j k _ _ _. unfold lt3, f.
    destruct (Nat.lt_total i j) as [?|[?|?]], (Nat.lt_total i k) as [?|[?|?]], (Nat.lt_total j k) as [?|[?|?]]; subst; try lia;
    repeat match goal with |- context [(?x <? ?y)%nat] => destruct (Nat.ltb_spec x y); try lia end;
    repeat match goal with |- context [(?x =? ?y)%nat] => destruct (Nat.eqb_spec x y); try lia end; cbn [andb orb]; ring. }
  rewrite (t3_23 n (fun i j k => if lt3 i k j then f i j k else 0)).
  rewrite (t3_12 n (fun i j k => if lt3 j i k then f i j k else 0)).
  rewrite (t3_12 n (fun i j k => if lt3 j k i then f i j k else 0)), (t3_23 n (fun i j k => if lt3 i k j then f j i k else 0)).
  rewrite (t3_23 n (fun i j k => if lt3 k i j then f i j k else 0)), (t3_12 n (fun i j k => if lt3 j i k then f i k j else 0)).
  rewrite (t3_12 n (fun i j k => if lt3 k j i then f i j k else 0)), (t3_23 n (fun i j k => if lt3 k i j then f j i k else 0)), (t3_12 n (fun i j k => if lt3 j i k then f k i j else 0)).
  rewrite <- !t3_add. apply t3_ext. intros i j k _ _ _. unfold f.
  destruct (lt3 i j k); [|ring].
  replace (g i k j) with (g i j k) by auto. replace (g j i k) with (g i j k) by auto.
  replace (g k i j) with (g i j k) by (rewrite (S2 i j k), (S1 i k j); auto).
  replace (g j k i) with (g i j k) by (rewrite (S1 i j k), (S2 j i k); auto).
  replace (g k j i) with (g i j k) by (rewrite (S1 i j k), (S2 j i k), (S1 j k i); auto). ring.
Qed.

(** ** polynomials: at most n-1 roots unless zero *)
Definition pcoef (n : nat) (c : nat -> R) (t : R) : R := rsum n (fun i => c i * t ^ i).
Definition ispoly (n : nat) (f : R -> R) : Prop := exists c, forall t, f t = pcoef n c t.
Lemma pcoef_S n c t : pcoef (S n) c t = c 0%nat + t * pcoef n (fun i => c (S i)) t.
Proof. unfold pcoef. rewrite rsum_S_l, <- rsum_scal. cbn. f_equal; [ring|]. apply rsum_ext. intros. cbn. ring. Qed.
Lemma factor n : forall c a, exists c', forall t, pcoef (S n) c t = pcoef (S n) c a + (t - a) * pcoef n c' t.
Proof.
  induction n as [|n IH]; intros c a.
  - exists (fun _ => 0). intros t. unfold pcoef. cbn. ring.
  - destruct (IH (fun i => c (S i)) a) as (q & Q). exists (fun i => match i with O => pcoef (S n) (fun i => c (S i)) a | S k => q k end). intros t.
    rewrite (pcoef_S (S n)), (pcoef_S (S n) c a), (pcoef_S n (fun i => match i with O => _ | S k => q k end)). cbv beta iota. rewrite Q. change (fun i => q i) with q. ring.
Qed.
Lemma roots n : forall c a, (forall i j, (i < j < n)%nat -> a i <> a j) -> (forall i, (i < n)%nat -> pcoef n c (a i) = 0) -> forall t, pcoef n c t = 0.
Proof.
  induction n as [|n IH]; intros c a D Z t; [reflexivity|].
  destruct (factor n c (a n)) as (q & Q). rewrite Q, Z by lia. rewrite (IH q a); [ring| |].
  - intros i j Hij. apply D. lia.
  - intros i Hi. specialize (Q (a i)). rewrite !Z in Q by lia. assert (a i <> a n) by (apply D; lia).
    assert ((a i - a n) * pcoef n q (a i) = 0) as M by lra. apply Rmult_integral in M. destruct M; [lra|auto].
Qed.
Lemma ispoly_ext n f g : (forall t, f t = g t) -> ispoly n f -> ispoly n g.
Proof. intros E (c & H). exists c. intros t. rewrite <- E. auto. Qed.
Lemma ispoly_add n f g : ispoly n f -> ispoly n g -> ispoly n (fun t => f t + g t).
Proof. intros (c & H) (c' & H'). exists (fun i => c i + c' i). intros t. rewrite H, H'. unfold pcoef. rewrite <- rsum_add. apply rsum_ext. intros. ring. Qed.
Lemma ispoly_scal n f k : ispoly n f -> ispoly n (fun t => k * f t).
Proof. intros (c & H). exists (fun i => k * c i). intros t. rewrite H. unfold pcoef. rewrite <- rsum_scal. apply rsum_ext. intros. ring. Qed.
Lemma ispoly_0 n : ispoly n (fun _ => 0).
Proof. exists (fun _ => 0). intros t. unfold pcoef. symmetry. apply rsum_0. intros; ring. Qed.
Lemma ispoly_rsum n N (f : nat -> R -> R) : (forall i, (i < N)%nat -> ispoly n (f i)) -> ispoly n (fun t => rsum N (fun i => f i t)).
Proof. induction N; intros H; cbn; [apply ispoly_0|]. apply ispoly_add; auto. Qed.
Lemma ispoly_lin n f a : ispoly n f -> ispoly (S n) (fun t => f t * (t - a)).
Proof.
  intros (c & H). exists (fun i => (match i with O => 0 | S k => c k end) - a * (if (i <? n)%nat then c i else 0)). intros t. rewrite H. unfold pcoef.
  transitivity (rsum (S n) (fun i => match i with O => 0 | S k => c k end * t ^ i) - a * rsum (S n) (fun i => (if (i <? n)%nat then c i else 0) * t ^ i)).
  - rewrite rsum_S_l. cbn [rsum]. replace (n <? n)%nat with false by nbts.
    transitivity (t * rsum n (fun i => c i * t ^ i) - a * rsum n (fun i => c i * t ^ i)); [ring|]. rewrite <- rsum_scal.
    f_equal; [|f_equal]; [|rewrite Rmult_0_l, Rplus_0_r; apply rsum_ext; intros i Hi; replace (i <? n)%nat with true by nbts; reflexivity].
    rewrite Rmult_0_l, Rplus_0_l. apply rsum_ext. intros. cbn. ring.
  - rewrite <- rsum_scal, <- rsum_sub. apply rsum_ext. intros. ring.
Qed.
Lemma ispoly_prod n a i : (i < n)%nat -> ispoly n (fun t => rprod n (fac a (fun j => (j =? i)%nat) t)).
Proof.
  assert (G : forall N, (N <= i)%nat -> ispoly (S N) (fun t => rprod N (fac a (fun j => (j =? i)%nat) t))).
  { induction N; intros HN; cbn [rprod].
    - exists (fun _ => 1). intros t. unfold pcoef. cbn. ring.
    - unfold fac at 2. replace (N =? i)%nat with false by nbts. apply ispoly_lin. apply IHN. lia. }
  assert (G2 : forall k, ispoly (S i + k) (fun t => rprod (S i + k) (fac a (fun j => (j =? i)%nat) t))).
  { induction k.
    - rewrite Nat.add_0_r. cbn [rprod]. unfold fac at 2. rewrite Nat.eqb_refl. eapply ispoly_ext; [|apply G; auto]. intros; cbn; ring.
    - rewrite Nat.add_succ_r. cbn [rprod]. unfold fac at 2. replace (S i + k =? i)%nat with false by nbts. apply ispoly_lin. auto. }
  intros Hi. replace n with (S i + (n - S i))%nat by lia. apply G2.
Qed.

(** ** the interpolator *)
Section Lagrange.
Variables (s : points) (m : nat).
Hypothesis (Dm : dim s m) (Hn : (1 <= length s)%nat).
Let n := length s.
Hypothesis Dist : forall i j, (i < j < n)%nat -> knot s i <> knot s j.
Let a := knot s.
Definition lden i := rprod n (fac a (fun j => (j =? i)%nat) (a i)).
Definition lva i q := pt s i q / lden i.
Lemma lden_neq i : (i < n)%nat -> lden i <> 0.
Proof.
  intros Hi. apply rprod_neq0. intros j Hj. unfold fac. destruct (Nat.eqb_spec j i); [lra|]. intros Z. apply Rminus_diag_uniq in Z. unfold a in Z.
  destruct (Nat.lt_total i j) as [L|[L|L]]; [|lia|]; [apply (Dist i j)|apply (Dist j i)]; auto; lia.
Qed.
Lemma lag_prod_ok V d p t sk : repr s m V d -> lag_prod d p t sk = Ok (p * rprod n (fac a sk t)).
Proof.
  intros Hd. unfold lag_prod. rewrite (repr_size _ _ _ _ Hd). fold n.
  match goal with |- context [for_ ?lo ?hi ?f ?s00] => destruct (for_inv (fun k x => x = p * rprod k (fac a sk t)) lo hi f s00) as (x & -> & H) end.
  - lia.
  - cbn. ring.
  - intros k x Hk ->. assert (Es : rprod (S k) (fac a sk t) = rprod k (fac a sk t) * (if sk k then 1 else t - a k)) by reflexivity. rewrite Es. destruct (sk k); [eexists; split; [reflexivity|]; ring|].
    rewrite (repr_time _ _ _ _ Hd) by (fold n; lia). cbn [bind]. eexists; split; [reflexivity|]. rs. unfold a. ring.
  - rewrite H. reflexivity.
Qed.
Lemma lagrange_create : exists d, zIPCreateLagrange s = Ok d /\ repr s m lva d.
Proof.
  unfold zIPCreateLagrange. assert (NE : s <> []) by (intros E; rewrite E in Hn; cbn in Hn; lia).
  destruct (alloc_ok s m NE Dm) as (d0 & -> & H0). cbn [bind]. rewrite (repr_size _ _ _ _ H0). fold n.
  match goal with |- context [for_ ?lo ?hi ?f ?s00] => destruct (for_inv (fun i d => repr s m (fun k q => if (k <? i)%nat then lva k q else 0) d) lo hi f s00) as (d & -> & H) end.
  - lia.
  - exact H0.
  - intros i d Hi Hd. rewrite (repr_time _ _ _ _ Hd) by (fold n; lia). cbn [bind]. rewrite (lag_prod_ok _ _ _ _ _ Hd). cbn [bind].
    destruct (repr_vec _ _ _ _ Hd Dm i) as (x & -> & Lx & Ex); [fold n; lia|]. destruct (repr_va _ _ _ _ Hd i) as (v & -> & Lv & Ev); [fold n; lia|]. cbn [bind].
    unfold zVecDivNC. rewrite vop1_ok by congruence. cbn [bind].
    apply (repr_set_va s m _ d Hd i _ (fun k q => if (k <? S i)%nat then lva k q else 0)); [fold n; lia|auto| |].
    + intros j Hj. cbn [vel]. replace (i <? S i)%nat with true by nbts. rewrite Ex. unfold lva. rs. unfold lden. fold a. field.
      replace (1 * rprod n (fac a (fun j0 => (j0 =? i)%nat) (a i))) with (lden i) by (unfold lden; ring). apply lden_neq. lia.
    + intros k j Hk Hki Hj. replace (k <? S i)%nat with (k <? i)%nat by nbts. auto.
  - exists d. split; auto. eapply repr_ext; [|exact H]. intros i j Hi _. fold n in Hi. cbv beta. replace (i <? n)%nat with true by nbts. reflexivity.
Qed.
Variables (d : ipdata R) (v : fvec R).
Hypothesis (Hd : repr s m lva d) (Lv : vlen v = m).
Definition P1 t i := rprod n (fac a (fun j => (j =? i)%nat) t).
Definition P2 t i j := rprod n (fac a (fun k => (k =? i)%nat || (k =? j)%nat) t).
Definition P3 t i j k := rprod n (fac a (fun l => (l =? i)%nat || (l =? j)%nat || (l =? k)%nat) t).
Lemma lagrange_vec t : exists w, zIPVecLagrange d t v = Ok w /\ vlen w = m /\ forall q, (q < m)%nat -> vel w q = rsum n (fun i => lva i q * P1 t i).
Proof.
  unfold zIPVecLagrange. rewrite (repr_size _ _ _ _ Hd). fold n.
  match goal with |- context [for_ ?lo ?hi ?f ?s00] => destruct (for_inv (fun i w => vlen w = m /\ forall q, (q < m)%nat -> vel w q = rsum i (fun i => lva i q * P1 t i)) lo hi f s00) as (w & -> & H1 & H2) end.
  - lia.
  - cbn. auto.
  - intros i w Hi (L & E). rewrite (lag_prod_ok _ _ _ _ _ Hd). cbn [bind]. destruct (repr_va _ _ _ _ Hd i) as (x & -> & Lx & Ex); [fold n; lia|]. cbn [bind].
    rewrite catDRC_ok by congruence. eexists; split; [reflexivity|]. cbn [vlen vel]. split; auto. intros q Hq. cbn [rsum]. rewrite E, Ex by auto. unfold P1. rs. ring.
  - exists w. auto.
Qed.
Lemma lagrange_vel t : exists w, zIPVelLagrange d t v = Ok w /\ vlen w = m /\ forall q, (q < m)%nat -> vel w q = rsum n (fun i => lva i q * rsum n (fun j => if (j =? i)%nat then 0 else P2 t i j)).
Proof.
  unfold zIPVelLagrange. rewrite (repr_size _ _ _ _ Hd). fold n.
  match goal with |- context [for_ ?lo ?hi ?f ?s00] => destruct (for_inv (fun i w => vlen w = m /\ forall q, (q < m)%nat -> vel w q =
     rsum i (fun i => rsum n (fun j => if (i <? j)%nat then P2 t i j * lva i q + P2 t i j * lva j q else 0))) lo hi f s00) as (w & -> & H1 & H2) end.
  - lia.
  - cbn. auto.
  - intros i w Hi (L & E).
    match goal with |- context [for_ ?lo ?hi ?f ?s00] => destruct (for_inv (fun k w => vlen w = m /\ forall q, (q < m)%nat -> vel w q =
       rsum i (fun i => rsum n (fun j => if (i <? j)%nat then P2 t i j * lva i q + P2 t i j * lva j q else 0)) + rsum k (fun j => if (i <? j)%nat then P2 t i j * lva i q + P2 t i j * lva j q else 0)) lo hi f s00) as (w' & -> & H1 & H2) end.
    + lia.
    + split; auto. intros q Hq. rewrite E by auto. rewrite (rsum_0 (S i)); [ring|]. intros k Hk. replace (i <? k)%nat with false by nbts. auto.
    + intros j w' Hj (L' & E'). rewrite (lag_prod_ok _ _ _ _ _ Hd). cbn [bind]. destruct (repr_va _ _ _ _ Hd i) as (x & -> & Lx & Ex); [fold n; lia|]. destruct (repr_va _ _ _ _ Hd j) as (y & -> & Ly & Ey); [fold n; lia|]. cbn [bind].
      rewrite catNCDRC_ok by congruence. cbn [bind]. rewrite catNCDRC_ok by (cbn; congruence). eexists; split; [reflexivity|]. cbn [vlen vel]. split; auto. intros q Hq. cbn [rsum]. rewrite E', Ex, Ey by auto.
      replace (i <? j)%nat with true by nbts. unfold P2. rs. ring.
    + eexists; split; [reflexivity|]. split; auto.
  - exists w. split; auto. split; auto. intros q Hq. rewrite H2 by auto. apply (sum_pairs n (fun i => lva i q) (P2 t)).
    intros i j. unfold P2. apply rprod_ext. intros k Hk. unfold fac. rewrite orb_comm. reflexivity.
Qed.
Lemma lagrange_acc t : exists w, zIPAccLagrange d t v = Ok w /\ vlen w = m /\
  forall q, (q < m)%nat -> vel w q = rsum n (fun i => lva i q * rsum n (fun j => if (j =? i)%nat then 0 else rsum n (fun k => if (k =? i)%nat || (k =? j)%nat then 0 else P3 t i j k))).
Proof.
  unfold zIPAccLagrange. rewrite (repr_size _ _ _ _ Hd). fold n.
  set (g := fun q i j k => 2 * P3 t i j k * lva i q + 2 * P3 t i j k * lva j q + 2 * P3 t i j k * lva k q).
  match goal with |- context [for_ ?lo ?hi ?f ?s00] => destruct (for_inv (fun i w => vlen w = m /\ forall q, (q < m)%nat -> vel w q =
     rsum i (fun i => rsum n (fun j => rsum n (fun k => if lt3 i j k then g q i j k else 0)))) lo hi f s00) as (w & -> & H1 & H2) end.
  - lia.
  - cbn. auto.
  - intros i w Hi (L & E).
    match goal with |- context [for_ ?lo ?hi ?f ?s00] => destruct (for_inv (fun jj w => vlen w = m /\ forall q, (q < m)%nat -> vel w q =
       rsum i (fun i => rsum n (fun j => rsum n (fun k => if lt3 i j k then g q i j k else 0))) + rsum jj (fun j => rsum n (fun k => if lt3 i j k then g q i j k else 0))) lo hi f s00) as (w' & -> & H1 & H2) end.
    + lia.
    + split; auto. intros q Hq. rewrite E by auto. rewrite (rsum_0 (S i)); [ring|]. intros k Hk. apply rsum_0. intros l Hl. unfold lt3. replace (i <? k)%nat with false by nbts. auto.
    + intros j w' Hj (L' & E').
      match goal with |- context [for_ ?lo ?hi ?f ?s00] => destruct (for_inv (fun kk w => vlen w = m /\ forall q, (q < m)%nat -> vel w q =
         rsum i (fun i => rsum n (fun j => rsum n (fun k => if lt3 i j k then g q i j k else 0))) + rsum j (fun j => rsum n (fun k => if lt3 i j k then g q i j k else 0)) +
         rsum kk (fun k => if lt3 i j k then g q i j k else 0)) lo hi f s00) as (w2 & -> & H1 & H2) end.
      * lia.
      * split; auto. intros q Hq. rewrite E' by auto. rewrite (rsum_0 (S j)); [ring|]. intros l Hl. unfold lt3. replace (j <? l)%nat with false by nbts. rewrite andb_false_r. auto.
      * intros k w2 Hk (L2 & E2). rewrite (lag_prod_ok _ _ _ _ _ Hd). cbn [bind].
        destruct (repr_va _ _ _ _ Hd i) as (x & -> & Lx & Ex); [fold n; lia|]. destruct (repr_va _ _ _ _ Hd j) as (y & -> & Ly & Ey); [fold n; lia|]. destruct (repr_va _ _ _ _ Hd k) as (z & -> & Lz & Ez); [fold n; lia|]. cbn [bind].
        rewrite catNCDRC_ok by congruence. cbn [bind]. rewrite catNCDRC_ok by (cbn; congruence). cbn [bind]. rewrite catNCDRC_ok by (cbn; congruence). eexists; split; [reflexivity|]. cbn [vlen vel]. split; auto.
        intros q Hq. cbn [rsum]. rewrite E2, Ex, Ey, Ez by auto. assert (Et : lt3 i j k = true) by (unfold lt3; nbts). rewrite Et. unfold g, P3. rs. ring.
      * eexists; split; [reflexivity|]. split; auto. intros q Hq. rewrite H2 by auto. cbn [rsum]. ring.
    + eexists; split; [reflexivity|]. split; auto.
  - exists w. split; auto. split; auto. intros q Hq. rewrite H2 by auto. apply (sum_triples n (fun i => lva i q) (P3 t)).
    + intros i j k. unfold P3. apply rprod_ext. intros l Hl. unfold fac. rewrite (orb_comm (l =? i)%nat). reflexivity.
    + intros i j k. unfold P3. apply rprod_ext. intros l Hl. unfold fac. rewrite <- !orb_assoc, (orb_comm (l =? j)%nat). reflexivity.
Qed.
Definition lval q t := rsum n (fun i => lva i q * P1 t i).
Lemma lval_knot q i : (i < n)%nat -> lval q (a i) = pt s i q.
Proof.
  intros Hi. unfold lval. rewrite (rsum_delta n i); auto.
  - unfold lva, P1. fold (lden i). field. apply lden_neq; auto.
  - intros k Hk Hki. unfold P1. rewrite (rprod_0 n _ i); [ring|auto|]. unfold fac. replace (i =? k)%nat with false by nbts. unfold a. lra.
Qed.
Lemma lval_lim q t : derivable_pt_lim (lval q) t (rsum n (fun i => lva i q * rsum n (fun j => if (j =? i)%nat then 0 else P2 t i j))).
Proof. apply lim_rsum. intros i Hi. apply derivable_pt_lim_scal. apply lim_rprod. Qed.
Lemma lvel_lim q t : derivable_pt_lim (fun t => rsum n (fun i => lva i q * rsum n (fun j => if (j =? i)%nat then 0 else P2 t i j))) t
  (rsum n (fun i => lva i q * rsum n (fun j => if (j =? i)%nat then 0 else rsum n (fun k => if (k =? i)%nat || (k =? j)%nat then 0 else P3 t i j k)))).
Proof.
  apply lim_rsum. intros i Hi. apply (derivable_pt_lim_scal (fun t => rsum n (fun j => if (j =? i)%nat then 0 else P2 t i j))).
  apply (lim_rsum n (fun j t => if (j =? i)%nat then 0 else P2 t i j)). intros j Hj. destruct (j =? i)%nat; [apply derivable_pt_lim_const|]. apply lim_rprod.
Qed.
Lemma lval_poly q : ispoly n (lval q).
Proof. apply ispoly_rsum. intros i Hi. apply ispoly_scal. apply ispoly_prod. auto. Qed.
Lemma lval_unique q c : (forall i, (i < n)%nat -> pt s i q = pcoef n c (a i)) -> forall t, lval q t = pcoef n c t.
Proof.
  intros E t. destruct (lval_poly q) as (c' & H). rewrite H. apply Rminus_diag_uniq.
  assert (G : forall u, pcoef n c' u - pcoef n c u = pcoef n (fun i => c' i - c i) u) by (intros; unfold pcoef; rewrite <- rsum_sub; apply rsum_ext; intros; ring).
  rewrite G. apply (roots n _ a); auto. intros i Hi. rewrite <- G, <- H, lval_knot, E; auto. lra.
Qed.
End Lagrange.
