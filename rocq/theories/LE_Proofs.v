(** Pivoting and Gaussian elimination. *)
From Coq Require Import Permutation.
From Verif Require Import Prelude Prelude_Proofs Scalar RealLib Fmat Fmat_Proofs LE_Model.
Local Open Scope nat_scope.

Lemma swap_idx_ok n idx i j : perm n idx -> i < n -> j < n ->
  exists idx', swap_idx idx i j = Ok idx' /\ perm n idx' /\
    forall k, pos idx' k = if k =? j then pos idx i else if k =? i then pos idx j else pos idx k.
Proof.
  intros P Hi Hj. pose proof P as (L & N & B). unfold swap_idx.
  rewrite (perm_get n), (perm_get n) by auto. cbn [bind].
  rewrite set_ok by lia. cbn [bind]. rewrite set_ok by (rewrite upd_length; lia).
  eexists; split; [reflexivity|].
  assert (forall k, pos (upd (upd idx i (pos idx j)) j (pos idx i)) k =
     if k =? j then pos idx i else if k =? i then pos idx j else pos idx k) as E.
  { intros k. unfold pos. rewrite !nth_upd by (rewrite ?upd_length; lia). nbts. }
  split; auto. split; [rewrite !upd_length; auto|]. split.
  - apply (NoDup_nth _ 0). rewrite !upd_length. intros x y Hx Hy.
    change (pos (upd (upd idx i (pos idx j)) j (pos idx i)) x = pos (upd (upd idx i (pos idx j)) j (pos idx i)) y -> x = y).
    rewrite !E. nbt; intros Exy; try lia; apply (perm_inj n idx) in Exy; auto; lia.
  - intros q Hq. apply (In_nth _ _ 0) in Hq. destruct Hq as (k & Hk & <-). rewrite !upd_length in Hk.
    change (pos (upd (upd idx i (pos idx j)) j (pos idx i)) k < n). rewrite E. nbt; apply perm_lt; auto; lia.
Qed.

(** [idx'] is [idx] with the entries [r] and [pi] exchanged *)
Definition swapped (idx idx' : list nat) (r pi : nat) : Prop :=
  forall k, pos idx' k = if k =? r then pos idx pi else if k =? pi then pos idx r else pos idx k.

Section Gen.
Context {T : Type} {ST : Scalar T}.
Lemma zMatPivoting_perm (m : fmat T) n idx r c : perm n idx -> r < n -> n <= nr m -> c < nc m ->
  exists idx' pi, zMatPivoting m idx r c = Ok idx' /\ perm n idx' /\ r <= pi < n /\ swapped idx idx' r pi.
Proof.
  intros P Hr Hm Hc. pose proof P as (L & N & B). unfold zMatPivoting.
  rewrite (perm_get n) by auto. cbn [bind].
  pose proof (perm_lt n idx r P Hr). rewrite mget_ok by lia. cbn [bind].
  match goal with |- context [for_ ?lo ?hi ?f ?s00] =>
    destruct (for_inv (fun k st => r <= fst st < k) lo hi f s00) as (st & E & Hst) end.
  - lia. - cbn. lia.
  - intros k [pi mx] Hk Hp. cbn in Hp. rewrite (perm_get n) by (auto; lia). cbn [bind].
    pose proof (perm_lt n idx k P ltac:(lia)). rewrite mget_ok by lia. cbn [bind].
    destruct (slt _ _); eexists; split; eauto; cbn; lia.
  - rewrite E. cbn [bind]. destruct st as [pi mx]; cbn in *.
    destruct (swap_idx_ok n idx pi r) as (idx' & E' & P' & Hs); auto; try lia.
    exists idx', pi. repeat split; auto; try lia; try apply P'.
Qed.
Lemma zMatPivotingDiag_perm (m : fmat T) n idx r : perm n idx -> r < n -> n <= nr m -> n <= nc m ->
  exists idx' pi, zMatPivotingDiag m idx r = Ok idx' /\ perm n idx' /\ r <= pi < n /\ swapped idx idx' r pi.
Proof.
  intros P Hr Hm Hc. pose proof P as (L & N & B). unfold zMatPivotingDiag.
  rewrite (perm_get n) by auto. cbn [bind].
  pose proof (perm_lt n idx r P Hr). rewrite mget_ok by lia. cbn [bind].
  match goal with |- context [for_ ?lo ?hi ?f ?s00] =>
    destruct (for_inv (fun k st => r <= fst st < k) lo hi f s00) as (st & E & Hst) end.
  - lia. - cbn. lia.
  - intros k [pi mx] Hk Hp. cbn in Hp. rewrite (perm_get n) by (auto; lia). cbn [bind].
    pose proof (perm_lt n idx k P ltac:(lia)). rewrite mget_ok by lia. cbn [bind].
    destruct (slt _ _); eexists; split; eauto; cbn; lia.
  - rewrite E. cbn [bind]. destruct st as [pi mx]; cbn in *.
    destruct (swap_idx_ok n idx pi r) as (idx' & E' & P' & Hs); auto; try lia.
    exists idx', pi. repeat split; auto; try lia; try apply P'.
Qed.
End Gen.

(** over the reals the chosen entry is the largest *)
Lemma zMatPivoting_ok (m : fmat R) n idx r c : perm n idx -> r < n -> n <= nr m -> c < nc m ->
  exists idx' pi, zMatPivoting m idx r c = Ok idx' /\ perm n idx' /\ r <= pi < n /\ swapped idx idx' r pi /\
    forall k, r <= k < n -> (Rabs (el m (pos idx' k) c) <= Rabs (el m (pos idx' r) c))%R.
Proof.
  intros P Hr Hm Hc. pose proof P as (L & N & B). unfold zMatPivoting.
  rewrite (perm_get n) by auto. cbn [bind].
  pose proof (perm_lt n idx r P Hr). rewrite mget_ok by lia. cbn [bind].
  match goal with |- context [for_ ?lo ?hi ?f ?s00] =>
    destruct (for_inv (fun k st => r <= fst st < k /\ snd st = Rabs (el m (pos idx (fst st)) c) /\
       forall t, r <= t < k -> (Rabs (el m (pos idx t) c) <= snd st)%R) lo hi f s00) as (st & E & Hst) end.
  - lia.
  - cbn. repeat split; try lia. intros t Ht. replace t with r by lia. apply Rle_refl.
  - intros k [pi mx] Hk (Hp & Hx & Ht). cbn in Hp, Hx, Ht. rewrite (perm_get n) by (auto; lia). cbn [bind].
    pose proof (perm_lt n idx k P ltac:(lia)). rewrite mget_ok by lia. cbn [bind fst snd]. rs.
    destruct (Rltb_spec mx (Rabs (el m (pos idx k) c))) as [Hl|Hl].
    + eexists; split; eauto. cbn. repeat split; try lia. intros t Ht'.
      destruct (Nat.eq_dec t k) as [->|]; [lra|]. specialize (Ht t ltac:(lia)). lra.
    + eexists; split; eauto. cbn. repeat split; try lia; auto. intros t Ht'.
      destruct (Nat.eq_dec t k) as [->|]; [lra|]. apply Ht. lia.
  - rewrite E. cbn [bind]. destruct st as [pi mx]; cbn in *. destruct Hst as (Hp & Hx & Ht).
    destruct (swap_idx_ok n idx pi r) as (idx' & E' & P' & Hs); auto; try lia.
    exists idx', pi. split; auto. split; auto. split; [lia|]. split; auto.
    intros k Hk. rewrite !Hs, Nat.eqb_refl. rewrite <- Hx. nbt; subst; try apply Ht; try lia.
Qed.
Lemma zMatPivotingDiag_ok (m : fmat R) n idx r : perm n idx -> r < n -> n <= nr m -> n <= nc m ->
  exists idx' pi, zMatPivotingDiag m idx r = Ok idx' /\ perm n idx' /\ r <= pi < n /\ swapped idx idx' r pi /\
    forall k, r <= k < n -> (Rabs (el m (pos idx' k) (pos idx' k)) <= Rabs (el m (pos idx' r) (pos idx' r)))%R.
Proof.
  intros P Hr Hm Hc. pose proof P as (L & N & B). unfold zMatPivotingDiag.
  rewrite (perm_get n) by auto. cbn [bind].
  pose proof (perm_lt n idx r P Hr). rewrite mget_ok by lia. cbn [bind].
  match goal with |- context [for_ ?lo ?hi ?f ?s00] =>
    destruct (for_inv (fun k st => r <= fst st < k /\ snd st = Rabs (el m (pos idx (fst st)) (pos idx (fst st))) /\
       forall t, r <= t < k -> (Rabs (el m (pos idx t) (pos idx t)) <= snd st)%R) lo hi f s00) as (st & E & Hst) end.
  - lia.
  - cbn. repeat split; try lia. intros t Ht. replace t with r by lia. apply Rle_refl.
  - intros k [pi mx] Hk (Hp & Hx & Ht). cbn in Hp, Hx, Ht. rewrite (perm_get n) by (auto; lia). cbn [bind].
    pose proof (perm_lt n idx k P ltac:(lia)). rewrite mget_ok by lia. cbn [bind fst snd]. rs.
    destruct (Rltb_spec mx (Rabs (el m (pos idx k) (pos idx k)))) as [Hl|Hl].
    + eexists; split; eauto. cbn. repeat split; try lia. intros t Ht'.
      destruct (Nat.eq_dec t k) as [->|]; [lra|]. specialize (Ht t ltac:(lia)). lra.
    + eexists; split; eauto. cbn. repeat split; try lia; auto. intros t Ht'.
      destruct (Nat.eq_dec t k) as [->|]; [lra|]. apply Ht. lia.
  - rewrite E. cbn [bind]. destruct st as [pi mx]; cbn in *. destruct Hst as (Hp & Hx & Ht).
    destruct (swap_idx_ok n idx pi r) as (idx' & E' & P' & Hs); auto; try lia.
    exists idx', pi. split; auto. split; auto. split; [lia|]. split; auto.
    intros k Hk. rewrite !Hs, Nat.eqb_refl. rewrite <- Hx. nbt; subst; try apply Ht; try lia.
Qed.

(** ** one elimination step *)
Section Step.
Variable tol : R.
Implicit Types (a b : fmat R).
Local Open Scope R_scope.
Definition drop (x : R) : R := if is_tol tol x then 0 else x.

Lemma elim_row_ok n p q i (h : R) a b : p <> q -> (p < n)%nat -> (q < n)%nat -> (i < n)%nat ->
  nr a = n -> nc a = n -> nr b = n ->
  exists a' b', elim_row n p q i h a b = Ok (a', b') /\ nr a' = n /\ nc a' = n /\ nr b' = n /\ nc b' = nc b /\
   (forall r c, el a' r c = if (r =? q)%nat && (S i <=? c)%nat && (c <? n)%nat then el a q c - el a p c * h else el a r c) /\
   (forall r c, el b' r c = if (r =? q)%nat && (0 <=? c)%nat && (c <? nc b)%nat then el b q c - el b p c * h else el b r c).
Proof.
  intros N Hp Hq Hi A1 A2 B1. unfold elim_row.
  match goal with |- context [for_ ?lo ?hi ?f a] =>
    destruct (row_loop a q lo hi f (fun c => el a q c - el a p c * h)) as (a' & E & D1 & D2 & Ea) end; try lia.
  { intros j m' Hj M1 M2 Hm. rewrite mget_ok by lia. cbn [bind]. rewrite mmod_ok by lia. rs. now rewrite !Hm by auto. }
  rewrite E. cbn [bind].
  match goal with |- context [for_ ?lo ?hi ?f b] =>
    destruct (row_loop b q lo hi f (fun c => el b q c - el b p c * h)) as (b' & E' & D1' & D2' & Eb) end; try lia.
  { intros j m' Hj M1 M2 Hm. rewrite mget_ok by lia. cbn [bind]. rewrite mmod_ok by lia. rs. now rewrite !Hm by auto. }
  rewrite E'. cbn [bind]. exists a', b'. split; [reflexivity|]. repeat split; auto; lia.
Qed.

(** effect of the body of the elimination loop, after pivoting *)
Record estep n i idx a b a' b' : Prop := {
  es_a : nr a' = n /\ nc a' = n; es_b : nr b' = n /\ nc b' = nc b;
  es_left : forall j c, (j < n)%nat -> (c < i)%nat -> el a' (pos idx j) c = el a (pos idx j) c;
  es_done : forall j c, (j < i)%nat -> el a' (pos idx j) c = el a (pos idx j) c;
  es_donb : forall j c, (j < i)%nat -> el b' (pos idx j) c = el b (pos idx j) c;
  es_pi : el a' (pos idx i) i = 1;
  es_p : forall c, (i < c < n)%nat -> el a (pos idx i) c = el a (pos idx i) i * el a' (pos idx i) c;
  es_pb : forall c, (c < nc b)%nat -> el b (pos idx i) c = el a (pos idx i) i * el b' (pos idx i) c;
  es_qi : forall j, (i < j < n)%nat -> el a' (pos idx j) i = 0;
  es_q : forall j c, (i < j < n)%nat -> (i < c < n)%nat ->
     el a' (pos idx j) c = el a (pos idx j) c - el a' (pos idx i) c * drop (el a (pos idx j) i);
  es_qb : forall j c, (i < j < n)%nat -> (c < nc b)%nat ->
     el b' (pos idx j) c = el b (pos idx j) c - el b' (pos idx i) c * drop (el a (pos idx j) i) }.

Definition gauss_body n i idx a b : res (fmat R * fmat R) :=
  let p := pos idx i in
  let ahead := 1 / el a p i in
  a <- mset a p i 1 ;;
  a <- for_ (S i) n (fun j a => mmod a p j (fun x => x * ahead)) a ;;
  b <- for_ 0 (nc b) (fun j b => mmod b p j (fun x => x * ahead)) b ;;
  for_ (S i) n (fun j ab =>
          q <- get idx j ;;
          ahead <- mget (fst ab) q i ;;
          ab <- (if is_tol tol ahead then Ok ab else elim_row n p q i ahead (fst ab) (snd ab)) ;;
          a <- mset (fst ab) q i 0 ;; Ok (a, snd ab)) (a, b).

Lemma gauss_body_ok n i idx a b : perm n idx -> (i < n)%nat -> nr a = n -> nc a = n -> nr b = n ->
  el a (pos idx i) i <> 0 ->
  exists a' b', gauss_body n i idx a b = Ok (a', b') /\ estep n i idx a b a' b'.
Proof.
  intros P Hi A1 A2 B1 NZ. unfold gauss_body. cbv zeta. set (p := pos idx i) in *. set (ahead := 1 / el a p i).
  assert (Hp : (p < n)%nat) by (apply perm_lt; auto).
  rewrite mset_ok by lia. cbn [bind].
  match goal with |- context [for_ ?lo ?hi ?f (FM ?x ?y ?z)] =>
    destruct (row_loop (FM x y z) p lo hi f (fun c => el a p c * ahead)) as (a1 & E & D1 & D2 & Ea) end; cbn [nr nc el] in *; try lia.
  { intros j m' Hj M1 M2 Hm. rewrite mmod_ok by lia. f_equal. rewrite Hm by auto. rewrite Nat.eqb_refl. nbts. }
  rewrite E. cbn [bind].
  match goal with |- context [for_ ?lo ?hi ?f b] =>
    destruct (row_loop b p lo hi f (fun c => el b p c * ahead)) as (b1 & E' & D1' & D2' & Eb) end; try lia.
  { intros j m' Hj M1 M2 Hm. rewrite mmod_ok by lia. f_equal. now rewrite Hm by auto. }
  rewrite E'. cbn [bind].
  assert (NQ : forall j, (j < n)%nat -> j <> i -> pos idx j <> p).
  { intros j Hj N0 E0. apply N0. eapply perm_inj; eauto. }
  match goal with |- context [for_ ?lo ?hi ?f (a1, b1)] =>
   destruct (for_inv (fun k ab => nr (fst ab) = n /\ nc (fst ab) = n /\ nr (snd ab) = n /\ nc (snd ab) = nc b /\
     (forall r c, (forall t, (i < t < k)%nat -> r <> pos idx t) -> el (fst ab) r c = el a1 r c) /\
     (forall r c, (forall t, (i < t < k)%nat -> r <> pos idx t) -> el (snd ab) r c = el b1 r c) /\
     (forall t c, (i < t < k)%nat -> el (fst ab) (pos idx t) c =
        if (c =? i)%nat then 0 else if (i <? c)%nat && (c <? n)%nat then el a1 (pos idx t) c - el a1 p c * drop (el a1 (pos idx t) i) else el a1 (pos idx t) c) /\
     (forall t c, (i < t < k)%nat -> (c < nc b)%nat -> el (snd ab) (pos idx t) c = el b1 (pos idx t) c - el b1 p c * drop (el a1 (pos idx t) i))) lo hi f (a1, b1)) as ([a2 b2] & E2 & H2) end.
  - lia.
  - cbn. repeat split; auto; try lia.
  - intros k [aa bb] Hk (I1 & I2 & I3 & I4 & I5 & I6 & I7 & I8). cbn [fst snd] in *.
    rewrite (perm_get n) by (auto; lia). cbn [bind]. set (q := pos idx k).
    assert (Hq : (q < n)%nat) by (apply perm_lt; auto; lia).
    assert (Nqp : q <> p) by (apply NQ; lia).
    assert (Hqt : forall t, (i < t < k)%nat -> q <> pos idx t).
    { intros t Ht E0. assert (k = t); [|lia]. eapply (perm_inj n idx); eauto; lia. }
    assert (Hpt : forall t, (i < t < k)%nat -> p <> pos idx t).
    { intros t Ht E0. apply (NQ t); auto; lia. }
    rewrite mget_ok by lia. cbn [bind]. rewrite (I5 q i Hqt).
    assert (exists aa' bb', (if is_tol tol (el a1 q i) then Ok (aa, bb) else elim_row n p q i (el a1 q i) aa bb) = Ok (aa', bb') /\
      nr aa' = n /\ nc aa' = n /\ nr bb' = n /\ nc bb' = nc b /\
      (forall r c, el aa' r c = if (r =? q)%nat && (S i <=? c)%nat && (c <? n)%nat then el aa q c - el aa p c * drop (el a1 q i) else el aa r c) /\
      (forall r c, el bb' r c = if (r =? q)%nat && (0 <=? c)%nat && (c <? nc b)%nat then el bb q c - el bb p c * drop (el a1 q i) else el bb r c)) as (aa' & bb' & EE & J1 & J2 & J3 & J4 & J5 & J6).
    { unfold drop. destruct (is_tol tol (el a1 q i)).
      - exists aa, bb. conjs; auto; intros; nbts; lra.
      - destruct (elim_row_ok n p q i (el a1 q i) aa bb) as (aa' & bb' & EE & J1 & J2 & J3 & J4 & J5 & J6); auto; try lia.
        rewrite I4 in *. exists aa', bb'. conjs; auto. }
    rewrite EE. cbn [bind fst snd]. rewrite mset_ok by lia. cbn [bind].
    eexists; split; [reflexivity|]. cbn [fst snd nr nc el]. conjs; auto.
    + intros r c Hr. rewrite J5. assert (r <> q) by (apply (Hr k); lia). rewrite (I5 r c) by (intros t0 Ht0; apply Hr; lia). nbts.
    + intros r c Hr. rewrite J6. assert (r <> q) by (apply (Hr k); lia). rewrite (I6 r c) by (intros t0 Ht0; apply Hr; lia). nbts.
    + intros t c Ht. rewrite J5. destruct (Nat.eq_dec t k) as [->|Nt].
      * fold q. rewrite Nat.eqb_refl, !I5 by auto. nbts.
      * assert (q <> pos idx t) by (apply Hqt; lia). rewrite (I7 t c) by lia. nbts.
    + intros t c Ht Hc. rewrite J6. destruct (Nat.eq_dec t k) as [->|Nt].
      * fold q. rewrite Nat.eqb_refl, !I6 by auto. nbts.
      * assert (q <> pos idx t) by (apply Hqt; lia). rewrite (I8 t c) by lia. nbts.
  - rewrite E2. exists a2, b2. split; auto. destruct H2 as (I1 & I2 & I3 & I4 & I5 & I6 & I7 & I8). cbn [fst snd] in *.
    assert (Hpt : forall j, (j <= i)%nat -> forall t, (i < t < n)%nat -> pos idx j <> pos idx t).
    { intros j Hj t Ht E0. assert (j = t); [|lia]. eapply (perm_inj n idx); eauto; lia. }
    assert (Ap : forall c, el a2 p c = el a1 p c) by (intros c; apply I5; intros t0 Ht0; apply (Hpt i); auto).
    assert (Bp : forall c, el b2 p c = el b1 p c) by (intros c; apply I6; intros t0 Ht0; apply (Hpt i); auto).
    assert (Aq : forall j c, (j < n)%nat -> j <> i -> el a1 (pos idx j) c = el a (pos idx j) c).
    { intros j c Hj Nj. specialize (NQ j Hj Nj). rewrite Ea. nbts. }
    assert (Bq : forall j c, (j < n)%nat -> j <> i -> el b1 (pos idx j) c = el b (pos idx j) c).
    { intros j c Hj Nj. specialize (NQ j Hj Nj). rewrite Eb. nbts. }
    constructor; fold p; auto.
    + intros j c Hj Hc. destruct (lt_eq_lt_dec j i) as [[H|H]|H].
      * rewrite I5, Aq; auto; try lia. intros t0 Ht0; apply Hpt; auto; lia.
      * subst j. fold p. rewrite Ap, Ea. nbts.
      * rewrite I7 by lia. rewrite Aq by lia. nbts.
    + intros j c Hj. rewrite I5, Aq; auto; try lia. intros t0 Ht0; apply Hpt; auto; lia.
    + intros j c Hj. rewrite I6, Bq; auto; try lia. intros t0 Ht0; apply Hpt; auto; lia.
    + rewrite Ap, Ea. nbts.
    + intros c Hc. rewrite Ap, Ea. nbts. unfold ahead. field. auto.
    + intros c Hc. rewrite Bp, Eb. nbts. unfold ahead. field. auto.
    + intros j Hj. rewrite I7 by lia. now rewrite Nat.eqb_refl.
    + intros j c Hj Hc. rewrite I7 by lia. rewrite Ap, !Aq by lia. nbts.
    + intros j c Hj Hc. rewrite I8 by lia. now rewrite Bp, !Aq, !Bq by lia.
Qed.
End Step.
