(** Sweep-out (one Gauss-Jordan step). *)
From Verif Require Import Prelude Prelude_Proofs Scalar RealLib Fmat Fmat_Proofs LE_Model LE_Proofs LE2_Proofs LE3_Proofs.
Local Open Scope R_scope.

Section Sweep.
Variables (tol : R) (n1 n2 nrow : nat).
Implicit Types (a b : fmat R).
Lemma sweep_row_ok a b r c ratio i : nr a = nrow -> nc a = n1 -> nr b = nrow -> nc b = n2 -> (r < nrow)%nat -> (i < nrow)%nat -> i <> r -> (c < n1)%nat ->
  exists a' b', sweep_row b r c ratio i a = Ok (a', b') /\ nr a' = nrow /\ nc a' = n1 /\ nr b' = nrow /\ nc b' = n2 /\
   (forall q k, (k < n1)%nat -> el a' q k = if (q =? i)%nat && negb (k =? c)%nat then el a i k - el a r k * ratio else el a q k) /\
   (forall q k, (k < n2)%nat -> el b' q k = if (q =? i)%nat then el b i k - el b r k * ratio else el b q k).
Proof.
  intros A1 A2 B1 B2 Hr Hi N Hc. unfold sweep_row.
  match goal with |- context [for_ ?lo ?hi ?f a] => destruct (for_inv (fun t a' => nr a' = nrow /\ nc a' = n1 /\
    forall q k, el a' q k = if (q =? i)%nat && negb (k =? c)%nat && (k <? t)%nat then el a i k - el a r k * ratio else el a q k) lo hi f a) as (a' & E & D1 & D2 & D3) end.
  - lia.
  - conjs; auto. intros. nbp.
  - intros k a' Hk (D1 & D2 & D3). destruct (Nat.eqb_spec k c) as [->|Nk]; cbn [negb].
    + eexists; split; [reflexivity|]. conjs; auto. intros q k. rewrite D3. nbp.
    + rewrite mget_ok by lia. cbn [bind]. rewrite mmod_ok, mset_ok by lia. eexists; split; [reflexivity|]. cbn [nr nc el]. conjs; auto.
      intros q j. rewrite !D3. rs. nbp.
  - rewrite E. cbn [bind].
    match goal with |- context [for_ ?lo ?hi ?f b] => destruct (row_loop b i lo hi f (fun k => el b i k - el b r k * ratio)) as (b' & Eb & F1 & F2 & F3) end; try lia.
    { intros j b' Hj G1 G2 G3. rewrite mget_ok by lia. cbn [bind]. rewrite mmod_ok by lia. rewrite !G3 by lia. reflexivity. }
    rewrite Eb. cbn [bind]. exists a', b'. conjs; auto; try lia.
    + intros q k Hk. rewrite D3. nbp.
    + intros q k Hk. rewrite F3. nbp.
Qed.

Record swept a b r c a' b' : Prop := {
  sw_d : nr a' = nrow /\ nc a' = n1 /\ nr b' = nrow /\ nc b' = n2;
  sw_r : forall k, (k < n1)%nat -> el a' r k = el a r k / el a r c;
  sw_rb : forall k, (k < n2)%nat -> el b' r k = el b r k / el a r c;
  sw_c : forall q, (q < nrow)%nat -> q <> r -> el a' q c = 0;
  sw_q : forall q k, (q < nrow)%nat -> q <> r -> (k < n1)%nat -> k <> c -> el a' q k = if Rleb (Rabs (el a q c)) tol then el a q k else el a q k - el a r k / el a r c * el a q c;
  sw_qb : forall q k, (q < nrow)%nat -> q <> r -> (k < n2)%nat -> el b' q k = if Rleb (Rabs (el a q c)) tol then el b q k else el b q k - el b r k / el a r c * el a q c }.

Lemma sweep_ok a b r c : nr a = nrow -> nc a = n1 -> nr b = nrow -> nc b = n2 -> (r < nrow)%nat -> (c < n1)%nat ->
  (el a r c = 0 /\ zMatMatSweepOut tol a b r c = Ok (0, a, b)) \/
  (el a r c <> 0 /\ exists a' b', zMatMatSweepOut tol a b r c = Ok (el a r c, a', b') /\ swept a b r c a' b').
Proof.
  intros A1 A2 B1 B2 Hr Hc. unfold zMatMatSweepOut. rewrite mget_ok by lia. cbn [bind]. rs.
  destruct (Reqb_spec (el a r c) 0) as [Z|NZ]; [left; auto|right]. split; auto. set (v := el a r c) in *.
  match goal with |- context [for_ ?lo ?hi ?f a] => destruct (row_loop a r lo hi f (fun k => el a r k / v)) as (a1 & E1 & F1 & F2 & F3) end; try lia.
  { intros j a1 Hj G1 G2 G3. destruct (Nat.eqb_spec j c) as [->|]; cbn [negb].
    - f_equal. fold v. field. auto.
    - rewrite mmod_ok by lia. rewrite G3 by lia. f_equal. field. auto. }
  rewrite E1. cbn [bind].
  match goal with |- context [for_ ?lo ?hi ?f b] => destruct (row_loop b r lo hi f (fun k => el b r k / v)) as (b1 & E2 & G1 & G2 & G3) end; try lia.
  { intros j b1 Hj G1 G2 G3. rewrite mmod_ok by lia. rewrite G3 by lia. f_equal. field. auto. }
  rewrite E2. cbn [bind].
  match goal with |- context [for_ ?lo ?hi ?f (a1, b1)] => destruct (for_inv (fun t ab => nr (fst ab) = nrow /\ nc (fst ab) = n1 /\ nr (snd ab) = nrow /\ nc (snd ab) = n2 /\
     (forall q k, (k < n1)%nat -> el (fst ab) q k = if (q <? t)%nat && negb (q =? r)%nat then if (k =? c)%nat then 0 else if Rleb (Rabs (el a q c)) tol then el a q k else el a q k - el a r k / v * el a q c else el a1 q k) /\
     (forall q k, (k < n2)%nat -> el (snd ab) q k = if (q <? t)%nat && negb (q =? r)%nat then if Rleb (Rabs (el a q c)) tol then el b q k else el b q k - el b r k / v * el a q c else el b1 q k)) lo hi f (a1, b1)) as ([a' b'] & E & D1 & D2 & D3 & D4 & D5 & D6) end.
  - lia.
  - cbn [fst snd]. conjs; auto; try lia.
  - intros i [a2 b2] Hi (D1 & D2 & D3 & D4 & D5 & D6). cbn [fst snd] in *. destruct (Nat.eqb_spec i r) as [->|N].
    + eexists; split; [reflexivity|]. cbn [fst snd]. conjs; auto.
      * intros q k Hk. rewrite D5 by auto. nbp.
      * intros q k Hk. rewrite D6 by auto. nbp.
    + rewrite mget_ok by lia. cbn [bind].
      assert (Q : forall k, (k < n1)%nat -> el a2 i k = el a i k). { intros k Hk. rewrite D5, F3 by auto. nbp. }
      assert (QB : forall k, (k < n2)%nat -> el b2 i k = el b i k). { intros k Hk. rewrite D6, G3 by auto. nbp. }
      assert (Qr : forall k, (k < n1)%nat -> el a2 r k = el a r k / v). { intros k Hk. rewrite D5, F3 by auto. nbp. }
      assert (QrB : forall k, (k < n2)%nat -> el b2 r k = el b r k / v). { intros k Hk. rewrite D6, G3 by auto. nbp. }
      destruct (Rleb_spec (Rabs (el a2 i c)) tol) as [T|T]; rewrite Q in T by auto.
      * cbn [bind fst snd]. rewrite mset_ok by lia. cbn [bind]. eexists; split; [reflexivity|]. cbn [fst snd nr nc el]. conjs; auto.
        -- intros q k Hk. destruct (Nat.eqb_spec q i) as [->|Nq].
           ++ replace (i <? S i)%nat with true by nbp. replace (i =? r)%nat with false by nbp. cbn [andb negb]. destruct (Nat.eqb_spec k c); auto.
              rewrite Q by auto. destruct (Rleb_spec (Rabs (el a i c)) tol); [auto|lra].
           ++ cbn [andb]. rewrite D5 by auto. nbp.
        -- intros q k Hk. destruct (Nat.eqb_spec q i) as [->|Nq].
           ++ replace (i <? S i)%nat with true by nbp. cbn [andb negb]. rewrite QB by auto. replace (i =? r)%nat with false by nbp. destruct (Rleb_spec (Rabs (el a i c)) tol); [auto|lra].
           ++ rewrite D6 by auto. nbp.
      * destruct (sweep_row_ok a2 b2 r c (el a2 i c) i) as (a3 & b3 & E3 & H1 & H2 & H3 & H4 & H5 & H6); auto; try lia. rewrite E3. cbn [bind fst snd].
        rewrite mset_ok by lia. cbn [bind]. eexists; split; [reflexivity|]. cbn [fst snd nr nc el]. conjs; auto.
        -- intros q k Hk. rewrite H5 by auto. destruct (Nat.eqb_spec q i) as [->|Nq].
           ++ replace (i <? S i)%nat with true by nbp. replace (i =? r)%nat with false by nbp. cbn [andb negb]. destruct (Nat.eqb_spec k c); auto. cbn [negb].
              rewrite !Q, Qr by auto. destruct (Rleb_spec (Rabs (el a i c)) tol); [lra|auto].
           ++ cbn [andb]. rewrite D5 by auto. nbp.
        -- intros q k Hk. rewrite H6 by auto. destruct (Nat.eqb_spec q i) as [->|Nq].
           ++ replace (i <? S i)%nat with true by nbp. replace (i =? r)%nat with false by nbp. cbn [andb negb]. rewrite QB, QrB, Q by auto. destruct (Rleb_spec (Rabs (el a i c)) tol); [lra|auto].
           ++ rewrite D6 by auto. nbp.
  - rewrite E. cbn [bind fst snd] in *. exists a', b'. split; auto. rewrite F1, A1 in *. constructor; auto.
    + intros k Hk. rewrite D5, F3 by auto. fold v. nbp.
    + intros k Hk. rewrite D6, G3 by auto. fold v. nbp.
    + intros q Hq Nq. rewrite D5 by auto. nbp.
    + intros q k Hq Nq Hk Nk. rewrite D5 by auto. fold v. nbp.
    + intros q k Hq Nq Hk. rewrite D6 by auto. fold v. nbp.
Qed.

(** every solution is kept, and none is added *)
Lemma swept_solutions a b r c a' b' (x : nat -> R) j : tol = 0 -> (r < nrow)%nat -> (c < n1)%nat -> (j < n2)%nat -> el a r c <> 0 -> swept a b r c a' b' ->
  ((forall q, (q < nrow)%nat -> rowdot n1 (el a' q) x = el b' q j) <-> (forall q, (q < nrow)%nat -> rowdot n1 (el a q) x = el b q j)).
Proof.
  intros T Hr Hc Hj NZ [Sd Sr Srb Sc Sq Sqb]. set (v := el a r c) in *.
  assert (R1 : rowdot n1 (el a' r) x = rowdot n1 (el a r) x / v).
  { unfold rowdot, Rdiv. rewrite <- rsum_scal_r. apply rsum_ext. intros k Hk. rewrite Sr by auto. fold v. field. auto. }
  assert (R2 : forall q, (q < nrow)%nat -> q <> r -> rowdot n1 (el a' q) x = rowdot n1 (el a q) x - rowdot n1 (el a r) x / v * el a q c).
  { intros q Hq Nq. unfold rowdot, Rdiv. rewrite Rmult_assoc, <- rsum_scal_r, <- rsum_sub. apply rsum_ext. intros k Hk. destruct (Nat.eq_dec k c) as [->|Nk].
    - rewrite Sc by auto. fold v. field. auto.
    - rewrite Sq by auto. fold v. rewrite T. destruct (Rleb_spec (Rabs (el a q c)) 0) as [Z|Z].
      + assert (el a q c = 0) as ->; [|ring]. destruct (Req_dec (el a q c) 0); auto. pose proof (Rabs_pos_lt (el a q c)). lra.
      + field. auto. }
  assert (B2 : forall q, (q < nrow)%nat -> q <> r -> el b' q j = el b q j - el b r j / v * el a q c).
  { intros q Hq Nq. rewrite Sqb by auto. fold v. rewrite T. destruct (Rleb_spec (Rabs (el a q c)) 0) as [Z|Z]; auto.
    assert (el a q c = 0) as ->; [|ring]. destruct (Req_dec (el a q c) 0); auto. pose proof (Rabs_pos_lt (el a q c)). lra. }
  assert (B1 : el b' r j = el b r j / v) by (apply Srb; auto).
  split; intros H q Hq.
  - assert (ER : rowdot n1 (el a r) x = el b r j).
    { specialize (H r Hr). rewrite R1, B1 in H. apply (f_equal (fun t => t * v)) in H. unfold Rdiv in H. rewrite !Rmult_assoc, !Rinv_l, !Rmult_1_r in H by auto. auto. }
    destruct (Nat.eq_dec q r) as [->|N]; auto. specialize (H q Hq). rewrite R2, B2, ER in H by auto. lra.
  - destruct (Nat.eq_dec q r) as [->|N]; [rewrite R1, B1, H; auto|]. rewrite R2, B2, !H by auto. auto.
Qed.
End Sweep.
