(** Gaussian elimination, continued: the factorisation invariant, back substitution,
    balancing, and the solution theorem with its backward error. *)
From Verif Require Import Prelude Prelude_Proofs Scalar RealLib Fmat Fmat_Proofs LE_Model LE_Proofs.
Local Open Scope R_scope.

Definition rowdot (n : nat) (f g : nat -> R) : R := rsum n (fun c => f c * g c).

Lemma swapped_ge n idx idx' i pi j : swapped idx idx' i pi -> (i <= pi < n)%nat -> (i <= j < n)%nat ->
  exists j', (i <= j' < n)%nat /\ pos idx' j = pos idx j'.
Proof.
  intros H Hp Hj. rewrite H. nbt; [exists pi|exists i|exists j]; split; auto; lia.
Qed.
Lemma swapped_lt idx idx' i pi j : swapped idx idx' i pi -> (i <= pi)%nat -> (j < i)%nat -> pos idx' j = pos idx j.
Proof. intros H Hp Hj. rewrite H. nbts. Qed.

Definition done (idx : list nat) i r : bool := existsb (fun j => (pos idx j =? r)%nat) (List.seq 0 i).
Lemma done_spec n idx i j : perm n idx -> (i <= n)%nat -> (j < n)%nat -> done idx i (pos idx j) = (j <? i)%nat.
Proof.
  intros P Hi Hj. unfold done. destruct (Nat.ltb_spec j i).
  - apply existsb_exists. exists j. split; [apply in_seq; lia|]. apply Nat.eqb_refl.
  - destruct (existsb _ _) eqn:E; auto. apply existsb_exists in E. destruct E as (k & Hk & E).
    apply in_seq in Hk. apply Nat.eqb_eq in E. assert (k = j); [|lia]. eapply perm_inj; eauto. lia.
Qed.

Section Forward.
Variables (tol : R) (n m : nat) (A0 B0 : nat -> nat -> R).
Hypothesis Ht : 0 <= tol.
Implicit Types (a b : fmat R).

(** the system after [i] pivots *)
Record finv i a b idx (E S : nat -> nat -> R) : Prop := {
  fi_p : perm n idx;
  fi_d : nr a = n /\ nc a = n /\ nr b = n /\ nc b = m;
  fi_1 : forall k, (k < i)%nat -> el a (pos idx k) k = 1;
  fi_0 : forall j c, (j < n)%nat -> (c < i)%nat -> (c < j)%nat -> el a (pos idx j) c = 0;
  fi_A : forall j c, (j < n)%nat -> (c < n)%nat ->
     A0 (pos idx j) c + E (pos idx j) c = (if (i <=? j)%nat then el a (pos idx j) c else 0) + rsum i (fun k => S (pos idx j) k * el a (pos idx k) c);
  fi_B : forall j c, (j < n)%nat -> (c < m)%nat ->
     B0 (pos idx j) c = (if (i <=? j)%nat then el b (pos idx j) c else 0) + rsum i (fun k => S (pos idx j) k * el b (pos idx k) c);
  fi_S0 : forall j k, (j < n)%nat -> (k < i)%nat -> (j < k)%nat -> S (pos idx j) k = 0;
  fi_S1 : forall j, (j < i)%nat -> S (pos idx j) j <> 0;
  fi_E : forall r c, Rabs (E r c) <= tol;
  fi_E0 : forall r c, (i <= c)%nat -> E r c = 0;
  fi_Z : forall c, (c < n)%nat -> (forall r, (r < n)%nat -> A0 r c = 0) -> forall r, (r < n)%nat -> el a r c = 0 /\ E r c = 0 }.

Lemma finv_swap i a b idx idx' pi E S : finv i a b idx E S -> perm n idx' -> (i <= pi < n)%nat -> swapped idx idx' i pi ->
  finv i a b idx' E S.
Proof.
  intros [Fp Fd F1 F0 FA FB FS0 FS1 FE FE0 FZ] P' Hpi Sw.
  assert (LT : forall k, (k < i)%nat -> pos idx' k = pos idx k) by (intros; eapply swapped_lt; eauto; lia).
  assert (GE : forall j, (j < n)%nat -> exists j', (j' < n)%nat /\ pos idx' j = pos idx j' /\ ((i <=? j) = (i <=? j'))%nat /\ ((j < i)%nat -> j' = j) /\ ((i <= j)%nat -> (i <= j')%nat)).
  { intros j Hj. destruct (le_lt_dec i j).
    - destruct (swapped_ge n idx idx' i pi j) as (j' & Hj' & ->); auto. exists j'. repeat split; try lia; nbts.
    - exists j. rewrite LT by auto. repeat split; auto; lia. }
  constructor; auto.
  - intros k Hk. now rewrite LT, F1 by auto.
  - intros j c Hj Hc Hcj. destruct (GE j Hj) as (j' & Hj' & -> & _ & ? & ?). apply F0; auto. destruct (le_lt_dec i j); lia.
  - intros j c Hj Hc. destruct (GE j Hj) as (j' & Hj' & -> & -> & ? & ?). rewrite FA by auto. f_equal.
    apply rsum_ext. intros. now rewrite LT.
  - intros j c Hj Hc. destruct (GE j Hj) as (j' & Hj' & -> & -> & ? & ?). rewrite FB by auto. f_equal.
    apply rsum_ext. intros. now rewrite LT.
  - intros j k Hj Hk Hjk. rewrite LT by lia. apply FS0; lia.
  - intros j Hj. rewrite LT by auto. now apply FS1.
Qed.

Lemma drop_le x : Rabs (drop tol x - x) <= tol.
Proof.
  unfold drop. rewrite is_tol_R. destruct (Rleb_spec (Rabs x) tol).
  - replace (0 - x) with (- x) by lra. now rewrite Rabs_Ropp.
  - replace (x - x) with 0 by lra. now rewrite Rabs_R0.
Qed.

Lemma finv_step i a b idx a' b' E S : (i < n)%nat -> finv i a b idx E S -> el a (pos idx i) i <> 0 ->
  estep tol n i idx a b a' b' -> exists E' S', finv (Datatypes.S i) a' b' idx E' S'.
Proof.
  intros Hi [Fp Fd F1 F0 FA FB FS0 FS1 FE FE0 FZ] NZ [Ga Gb Gleft Gdone Gdonb Gpi Gp Gpb Gqi Gq Gqb].
  set (p := pos idx i) in *.
  exists (fun r c => if (c =? i)%nat && negb (done idx i r) && negb (r =? p)%nat then drop tol (el a r i) - el a r i else E r c).
  exists (fun r k => if (k =? i)%nat then if done idx i r then 0 else if (r =? p)%nat then el a p i else drop tol (el a r i) else S r k).
  destruct Fd as (D1 & D2 & D3 & D4). rewrite D4 in *.
  assert (DN : forall j, (j < n)%nat -> done idx i (pos idx j) = (j <? i)%nat) by (intros; eapply done_spec; eauto; lia).
  assert (PN : forall j, (j < n)%nat -> (pos idx j =? p)%nat = (j =? i)%nat).
  { intros j Hj. nbts. exfalso. apply n0. unfold p in *. eapply perm_inj; eauto. }
  constructor; auto.
  - intuition.
  - intros k Hk. destruct (Nat.eq_dec k i) as [->|]; [exact Gpi|]. rewrite Gdone by lia. apply F1. lia.
  - intros j c Hj Hc Hcj. destruct (Nat.eq_dec c i) as [->|]; [apply Gqi; lia|]. rewrite Gleft by lia. apply F0; lia.
  - intros j c Hj Hc. rewrite DN, PN by auto. cbn [rsum]. rewrite Nat.eqb_refl.
    assert (forall f g : nat -> R, (forall k, (k < i)%nat -> f k = g k) -> rsum i f = rsum i g) as EX by (intros; apply rsum_ext; auto).
    erewrite (EX _ (fun k => S (pos idx j) k * el a (pos idx k) c)).
    2:{ intros k Hk. cbv beta. rewrite Gdone by auto. nbts. }
    specialize (FA j c Hj Hc).
    destruct (lt_eq_lt_dec j i) as [[H|H]|H].
    + replace (if (c =? i)%nat && negb (j <? i)%nat && negb (j =? i)%nat then drop tol (el a (pos idx j) i) - el a (pos idx j) i else E (pos idx j) c) with (E (pos idx j) c) by nbts.
      revert FA. nbts; intros; lra.
    + subst j. fold p. fold p in FA. replace (if (c =? i)%nat && negb (i <? i)%nat && negb (i =? i)%nat then drop tol (el a p i) - el a p i else E p c) with (E p c) by nbts.
      rewrite FA, Nat.leb_refl. replace (Datatypes.S i <=? i)%nat with false by nbts. rewrite Nat.ltb_irrefl, Nat.eqb_refl.
      assert (el a p c = el a p i * el a' p c); [|lra].
      destruct (lt_eq_lt_dec c i) as [[H|H]|H].
      * unfold p. rewrite Gleft by lia. rewrite (F0 i c) by lia. lra.
      * subst c. rewrite Gpi. lra.
      * apply Gp. lia.
    + replace (j <? i)%nat with false by nbts. replace (j =? i)%nat with false by nbts. cbn [negb].
      replace (Datatypes.S i <=? j)%nat with true by nbts. replace (i <=? j)%nat with true in FA by nbts.
      destruct (lt_eq_lt_dec c i) as [[Hci|Hci]|Hci].
      * replace (c =? i)%nat with false by nbts. cbn [andb]. rewrite !Gleft by lia.
        rewrite (F0 i c) by lia. lra.
      * subst c. fold p. rewrite Nat.eqb_refl. cbn [andb]. rewrite Gqi, Gpi by lia. rewrite FE0 in FA by lia. lra.
      * replace (c =? i)%nat with false by nbts. cbn [andb]. rewrite Gq by lia. fold p. lra.
  - intros j c Hj Hc. rewrite DN, PN by auto. cbn [rsum]. rewrite Nat.eqb_refl.
    assert (forall f g : nat -> R, (forall k, (k < i)%nat -> f k = g k) -> rsum i f = rsum i g) as EX by (intros; apply rsum_ext; auto).
    erewrite (EX _ (fun k => S (pos idx j) k * el b (pos idx k) c)).
    2:{ intros k Hk. cbv beta. rewrite Gdonb by auto. nbts. }
    specialize (FB j c Hj Hc).
    destruct (lt_eq_lt_dec j i) as [[H|H]|H].
    + revert FB. nbts; intros; lra.
    + subst j. fold p. fold p in FB. rewrite FB, Nat.leb_refl. replace (Datatypes.S i <=? i)%nat with false by nbts. rewrite Nat.ltb_irrefl, Nat.eqb_refl.
      rewrite (Gpb c) by auto. lra.
    + replace (j <? i)%nat with false by nbts. replace (j =? i)%nat with false by nbts.
      replace (Datatypes.S i <=? j)%nat with true by nbts. replace (i <=? j)%nat with true in FB by nbts.
      rewrite Gqb by lia. fold p. lra.
  - intros j k Hj Hk Hjk. rewrite DN by auto. destruct (Nat.eqb_spec k i) as [->|]; [nbts|]. apply FS0; lia.
  - intros j Hj. rewrite DN, PN by lia. destruct (Nat.eqb_spec j i) as [->|]; [rewrite Nat.ltb_irrefl; auto|]. apply FS1. lia.
  - intros r c. destruct (_ && _); auto. apply drop_le.
  - intros r c Hc. replace (c =? i)%nat with false by nbts. cbn [andb]. apply FE0. lia.
  - intros c Hc HZ r Hr. destruct (perm_onto n idx r) as (j & Hj & <-); auto.
    assert (forall j, (j < n)%nat -> el a (pos idx j) c = 0) as Z by (intros; apply FZ; auto; eapply perm_lt; eauto).
    assert (forall j, (j < n)%nat -> E (pos idx j) c = 0) as ZE by (intros; apply FZ; auto; eapply perm_lt; eauto).
    assert (c <> i) as Nci by (intros ->; apply NZ, Z; auto).
    split; [|replace (c =? i)%nat with false by nbts; cbn [andb]; auto].
    destruct (lt_eq_lt_dec c i) as [[Hci|Hci]|Hci].
    + rewrite Gleft; auto.
    + lia.
    + assert (el a' p c = 0) as Zp.
      { specialize (Gp c ltac:(lia)). pose proof (Z i Hi) as Zi. fold p in Zi. rewrite Zi in Gp. symmetry in Gp. apply Rmult_integral in Gp. tauto. }
      destruct (lt_eq_lt_dec j i) as [[H|H]|H].
      * rewrite Gdone; auto.
      * now subst j.
      * rewrite Gq by lia. fold p. rewrite Zp, Z by auto. lra.
Qed.

(** solutions of the perturbed system *)
Definition sat (E : nat -> nat -> R) (x y : nat -> R) : Prop :=
  forall r, (r < n)%nat -> rsum n (fun c => (A0 r c + E r c) * x c) = y r.

Lemma finv_dot i a b idx E S x : finv i a b idx E S -> (i <= n)%nat -> forall j, (j < n)%nat ->
  rsum n (fun c => (A0 (pos idx j) c + E (pos idx j) c) * x c) =
  (if (i <=? j)%nat then rowdot n (el a (pos idx j)) x else 0) + rsum i (fun k => S (pos idx j) k * rowdot n (el a (pos idx k)) x).
Proof.
  intros [Fp Fd F1 F0 FA FB FS0 FS1 FE FE0 FZ] Hi j Hj. unfold rowdot.
  rewrite (rsum_ext i _ (fun k => rsum n (fun c => S (pos idx j) k * el a (pos idx k) c * x c))).
  2:{ intros k Hk. rewrite <- rsum_scal. apply rsum_ext; intros; lra. }
  rewrite rsum_swap.
  replace (if (i <=? j)%nat then rsum n (fun c => el a (pos idx j) c * x c) else 0) with
     (rsum n (fun c => (if (i <=? j)%nat then el a (pos idx j) c else 0) * x c)).
  2:{ destruct (i <=? j)%nat; auto. apply rsum_0. intros; lra. }
  rewrite <- rsum_add. apply rsum_ext. intros c Hc. rewrite FA by auto. rewrite Rmult_plus_distr_r. f_equal.
  rewrite <- rsum_scal_r. reflexivity.
Qed.

(** a kernel vector of a unit upper triangular block bordered by column [i] *)
Lemma ut_kernel (U : nat -> nat -> R) i : (i < n)%nat ->
  (forall k, (k < i)%nat -> U k k = 1) -> (forall k c, (k < i)%nat -> (c < k)%nat -> U k c = 0) ->
  exists x, x i = 1 /\ (forall c, (i < c)%nat -> x c = 0) /\ forall k, (k < i)%nat -> rowdot n (U k) x = 0.
Proof.
  intros Hi U1 U0.
  assert (forall d, (d <= i)%nat -> exists x, x i = 1 /\ (forall c, (i < c)%nat -> x c = 0) /\ (forall c, (c < i - d)%nat -> x c = 0) /\
     forall k, (i - d <= k < i)%nat -> rowdot n (U k) x = 0) as H.
  { induction d as [|d IH]; intros Hd.
    - exists (fun c => if (c =? i)%nat then 1 else 0). rewrite Nat.eqb_refl. repeat split; auto; intros; try lia; nbts.
    - destruct IH as (x & X1 & X2 & X3 & X4); [lia|]. destruct (ex_intro (fun t => t = (i - Datatypes.S d)%nat) _ eq_refl) as [t Et].
      assert (X : forall k, rowdot n (U k) (fun c => if (c =? t)%nat then - rowdot n (U t) x else x c) = rowdot n (U k) x + U k t * (- rowdot n (U t) x)).
      { intros k. unfold rowdot at 1 3. rewrite (rsum_split n t) by lia. rewrite (rsum_split n t (fun c => U k c * x c)) by lia.
        rewrite Nat.eqb_refl. rewrite (rsum_ext t _ (fun c => U k c * x c)) by (intros; nbts).
        rewrite (rsum_ext (n - Datatypes.S t) _ (fun i0 => U k (Datatypes.S t + i0)%nat * x (Datatypes.S t + i0)%nat)) by (intros; nbts).
        assert (x t = 0) as -> by (apply X3; lia). lra. }
      exists (fun c => if (c =? t)%nat then - rowdot n (U t) x else x c).
      repeat split.
      + nbts.
      + intros c Hc. rewrite X2 by auto. nbts.
      + intros c Hc. rewrite X3 by lia. nbts.
      + intros k Hk. rewrite X. destruct (Nat.eq_dec k t) as [->|]; [rewrite U1 by lia; lra|].
        rewrite U0 by lia. rewrite X4 by lia. lra. }
  destruct (H i (le_n i)) as (x & X1 & X2 & _ & X4). exists x. repeat split; auto. intros. apply X4. lia.
Qed.

Lemma singular_case i a b idx E S : (i < n)%nat -> finv i a b idx E S ->
  (forall j, (i <= j < n)%nat -> el a (pos idx j) i = 0) ->
  exists x, x i <> 0 /\ sat E x (fun _ => 0).
Proof.
  intros Hi F Z. pose proof F as [Fp Fd F1 F0 FA FB FS0 FS1 FE FE0 FZ]. destruct (ut_kernel (fun k => el a (pos idx k)) i) as (x & X1 & X2 & X3); auto.
  { intros. apply F0; lia. }
  exists x. split; [lra|]. intros r Hr. destruct (perm_onto n idx r) as (j & Hj & <-); auto.
  rewrite (finv_dot _ _ _ _ _ _ x F) by (auto; lia).
  rewrite rsum_0 by (intros k Hk; rewrite X3 by auto; lra).
  destruct (Nat.leb_spec i j); [|lra].
  unfold rowdot. rewrite rsum_0; [lra|]. intros c Hc. destruct (lt_eq_lt_dec c i) as [[H'|H']|H'].
  - rewrite F0 by lia. lra.
  - subst c. rewrite Z by lia. lra.
  - rewrite X2 by lia. lra.
Qed.
End Forward.

Lemma bind_assoc {A B C} (x : res A) (f : A -> res B) (g : B -> res C) : bind (bind x f) g = bind x (fun y => bind (f y) g).
Proof. destruct x; auto. Qed.

Lemma gauss_forward_ok tol n m (a b : fmat R) idx : 0 <= tol -> perm n idx -> nr a = n -> nc a = n -> nr b = n -> nc b = m ->
  exists o, gauss_forward tol n a b idx = Ok o /\
   match o with
   | inl (a', b', idx') => exists E S, finv tol n m (el a) (el b) n a' b' idx' E S
   | inr _ => exists E i x, (forall r c, Rabs (E r c) <= tol) /\ (forall c, (c < n)%nat -> (forall r, (r < n)%nat -> el a r c = 0) -> forall r, (r < n)%nat -> E r c = 0) /\ (i < n)%nat /\ x i <> 0 /\ sat n (el a) E x (fun _ => 0)
   end.
Proof.
  intros Ht P A1 A2 B1 B2. unfold gauss_forward.
  match goal with |- context [forb ?lo ?hi ?f ?s00] =>
  destruct (forb_inv (fun i st => exists E S, finv tol n m (el a) (el b) i (fst (fst st)) (snd (fst st)) (snd st) E S)
     (fun _ => exists E i x, (forall r c, Rabs (E r c) <= tol) /\ (forall c, (c < n)%nat -> (forall r, (r < n)%nat -> el a r c = 0) -> forall r, (r < n)%nat -> E r c = 0) /\ (i < n)%nat /\ x i <> 0 /\ sat n (el a) E x (fun _ => 0)) lo hi f s00)
     as (o & EO & HO) end;
   [lia| |intros i [[a1 b1] idx1] Hi (E & S & F); cbn [fst snd] in F |].
  - exists (fun _ _ => 0), (fun _ _ => 0). constructor; cbn [fst snd rsum Nat.leb]; auto; intros; try lia; try lra. now rewrite Rabs_R0.
  - pose proof F as [Fp Fd F1 F0 FA FB FS0 FS1 FE FE0 FZ]. destruct Fd as (D1 & D2 & D3 & D4).
    destruct (zMatPivoting_ok a1 n idx1 i i) as (idx2 & pi & EP & P2 & Hpi & Sw & Mx); auto; try lia.
    rewrite EP. cbn [bind]. rewrite (perm_get n) by (auto; lia). cbn [bind].
    assert (pos idx2 i < n)%nat by (apply perm_lt; auto; lia).
    rewrite mget_ok by lia. cbn [bind]. pose proof (finv_swap tol n m _ _ i a1 b1 idx1 idx2 pi E S F P2 ltac:(lia) Sw) as F2.
    cbn [seq RealS s0]. destruct (Reqb_spec (el a1 (pos idx2 i) i) 0) as [Z|NZ].
    + exists (inr tt). split; auto. 
      destruct (singular_case tol n m (el a) (el b) i a1 b1 idx2 E S) as (x & X1 & X2); auto; try lia.
      { intros j Hj. specialize (Mx j Hj). rewrite Z, Rabs_R0 in Mx. pose proof (Rabs_pos (el a1 (pos idx2 j) i)).
        destruct (Req_dec (el a1 (pos idx2 j) i) 0); auto. pose proof (Rabs_pos_lt _ H1). lra. }
      exists E, i, x. conjs; auto; try lia. intros c Hc HZ r Hr. apply FZ; auto.
    + destruct (gauss_body_ok tol n i idx2 a1 b1) as (a2 & b2 & EB & ES); auto; try lia.
      unfold gauss_body in EB. cbv zeta in EB. 
      match type of EB with ?l = _ => match goal with |- context [bind (mset a1 ?x ?y ?z) ?k] =>
         replace (bind (mset a1 x y z) k) with (bind l (fun ab => Ok (inl (fst ab, snd ab, idx2)) : res ((fmat R * fmat R * list nat) + unit))) end end.
      2:{ clear EB. rs. repeat (rewrite ?bind_assoc; match goal with |- bind ?x _ = bind ?x _ => destruct x; auto; cbn [bind] end). }
      rewrite EB. cbn [bind fst snd]. eexists; split; [reflexivity|]. cbn [fst snd].
      eapply finv_step; eauto; lia.
  - exists o. split; auto. destruct o as [[[? ?] ?]|]; auto.
Qed.
