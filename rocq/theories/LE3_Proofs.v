(** Gaussian elimination, completed: back substitution, balancing, the answer. *)
From Verif Require Import Prelude Prelude_Proofs Scalar RealLib Fmat Fmat_Proofs LE_Model LE_Proofs LE2_Proofs.
Local Open Scope R_scope.
Implicit Types (a b ans : fmat R).

Lemma for_downto_sub (f g : nat -> R) lo hi x body : (lo <= hi)%nat ->
  (forall k y, (lo <= k < hi)%nat -> body k y = Ok (y - f k * g k)) ->
  for_downto lo hi body x = Ok (x - rsum (hi - lo) (fun t => f (lo + t)%nat * g (lo + t)%nat)).
Proof.
  intros L H. unfold for_downto.
  assert (forall d x, (d <= hi - lo)%nat -> for_down d (fun t => body (lo + t)%nat) x = Ok (x - rsum d (fun t => f (lo + t)%nat * g (lo + t)%nat))) as G; [|apply G; lia].
  induction d as [|d IH]; intros y Hd; cbn.
  - f_equal. lra.
  - rewrite H by lia. cbn. rewrite IH by lia. f_equal. lra.
Qed.
Lemma for_sub (f g : nat -> R) n x body :
  (forall k y, (k < n)%nat -> body k y = Ok (y - f k * g k)) ->
  for_ 0 n body x = Ok (x - rsum n (fun t => f t * g t)).
Proof.
  intros H. destruct (for_inv (fun k y => y = x - rsum k (fun t => f t * g t)) 0 n body x) as (y & E & ->); auto; try lia.
  - cbn. lra.
  - intros k y Hk ->. rewrite H by lia. eexists; split; eauto. cbn. lra.
Qed.

Lemma gauss_backward_ok n m a b idx ans : perm n idx -> nr a = n -> nc a = n -> nr b = n -> nc b = m ->
  nr ans = n -> (m <= nc ans)%nat ->
  exists ans', gauss_backward n a b idx ans = Ok ans' /\ nr ans' = n /\ nc ans' = nc ans /\
    forall i j, (i < n)%nat -> (j < m)%nat -> el ans' i j = el b (pos idx i) j - rsum (n - S i) (fun t => el a (pos idx i) (S i + t)%nat * el ans' (S i + t)%nat j).
Proof.
  intros P A1 A2 B1 B2 X1 X2. unfold gauss_backward.
  match goal with |- context [for_down ?nn ?f ?s00] =>
   destruct (for_down_inv (fun k ans' => nr ans' = n /\ nc ans' = nc ans /\
    forall i j, (k <= i < n)%nat -> (j < m)%nat -> el ans' i j = el b (pos idx i) j - rsum (n - S i) (fun t => el a (pos idx i) (S i + t)%nat * el ans' (S i + t)%nat j)) nn f s00) as (ans' & E & H) end.
  - conjs; auto. intros; lia.
  - intros k an Hk (I1 & I2 & I3). rewrite (perm_get n) by auto. cbn [bind].
    pose proof (perm_lt n idx k P Hk) as Hp.
    match goal with |- context [for_ ?lo ?hi ?f an] =>
     destruct (row_loop an k lo hi f (fun j => el b (pos idx k) j - rsum (n - S k) (fun t => el a (pos idx k) (S k + t)%nat * el an (S k + t)%nat j))) as (an' & E & D1 & D2 & D3) end; try lia.
    { intros j m' Hj M1 M2 Hm. rewrite mget_ok by lia. cbn [bind].
      rewrite (for_downto_sub (fun c => el a (pos idx k) c) (fun c => el an c j)); [cbn [bind]; auto|lia|].
      intros c y Hc. rewrite mget_ok, mget_ok by lia. cbn [bind]. rs. rewrite Hm; auto; lia. }
    exists an'. split; auto. conjs; try lia. intros i j Hi Hj. rewrite D3, B2.
    assert (rsum (n - S i) (fun t => el a (pos idx i) (S i + t)%nat * el an' (S i + t)%nat j) = rsum (n - S i) (fun t => el a (pos idx i) (S i + t)%nat * el an (S i + t)%nat j)) as ->.
    { apply rsum_ext. intros t Ht. f_equal. rewrite D3. nbts. }
    destruct (Nat.eqb_spec i k); [subst; nbts|]. cbn [andb]. rewrite I3 by lia. auto.
  - exists ans'. split; auto. destruct H as (H1 & H2 & H3). conjs; auto. intros; apply H3; lia.
Qed.

Section Triangular.
Variables (n : nat) (U : nat -> nat -> R).
Hypothesis U1 : forall k, (k < n)%nat -> U k k = 1.
Hypothesis U0 : forall k c, (k < n)%nat -> (c < k)%nat -> U k c = 0.
Lemma ut_row x i : (i < n)%nat -> rowdot n (U i) x = x i + rsum (n - S i) (fun t => U i (S i + t)%nat * x (S i + t)%nat).
Proof.
  intros Hi. unfold rowdot. rewrite (rsum_split n i) by auto. rewrite rsum_0 by (intros c Hc; rewrite U0 by auto; lra).
  rewrite U1 by auto. lra.
Qed.
Lemma ut_inj x : (forall i, (i < n)%nat -> rowdot n (U i) x = 0) -> forall i, (i < n)%nat -> x i = 0.
Proof.
  intros H. assert (forall d i, (n - d <= i < n)%nat -> x i = 0) as G.
  { induction d as [|d IH]; intros i Hi; [lia|]. pose proof (H i ltac:(lia)) as E. rewrite ut_row in E by lia.
    rewrite rsum_0 in E; [lra|]. intros t Ht. rewrite IH by lia. lra. }
  intros i Hi. apply (G n). lia.
Qed.
End Triangular.

Section Solve.
Variables (tol : R) (n m : nat) (A0 B0 : nat -> nat -> R).
Lemma finv_solve a b idx E S x j : finv tol n m A0 B0 n a b idx E S -> (j < m)%nat ->
  (forall i, (i < n)%nat -> x i = el b (pos idx i) j - rsum (n - Datatypes.S i) (fun t => el a (pos idx i) (Datatypes.S i + t)%nat * x (Datatypes.S i + t)%nat)) ->
  sat n A0 E x (fun r => B0 r j).
Proof.
  intros F Hj Hx r Hr. pose proof F as [Fp Fd F1 F0 FA FB FS0 FS1 FE FE0 FZ].
  destruct (perm_onto n idx r) as (p & Hp & <-); auto.
  rewrite (finv_dot _ _ _ _ _ _ _ _ _ _ _ x F) by auto. rewrite FB by auto.
  replace (n <=? p)%nat with false by nbts. f_equal. apply rsum_ext. intros k Hk. f_equal.
  rewrite (ut_row n (fun k => el a (pos idx k))) by (auto; intros; apply F0; lia). rewrite (Hx k) by auto. lra.
Qed.
Lemma finv_inj a b idx E S x : finv tol n m A0 B0 n a b idx E S -> sat n A0 E x (fun _ => 0) -> forall i, (i < n)%nat -> x i = 0.
Proof.
  intros F H. pose proof F as [Fp Fd F1 F0 FA FB FS0 FS1 FE FE0 FZ].
  apply (ut_inj n (fun k => el a (pos idx k))); auto. { intros; apply F0; lia. }
  intros i Hi. induction i as [i IH] using (well_founded_induction lt_wf).
  pose proof (H (pos idx i) (perm_lt n idx i Fp Hi)) as E1.
  rewrite (finv_dot _ _ _ _ _ _ _ _ _ _ _ x F) in E1 by auto. replace (n <=? i)%nat with false in E1 by nbts.
  rewrite (rsum_delta n i) in E1.
  - rewrite Rplus_0_l in E1. apply Rmult_integral in E1. destruct E1 as [E1|E1]; auto. now destruct (FS1 i Hi).
  - auto.
  - intros k Hk N. destruct (lt_dec k i).
    + rewrite IH by lia. lra.
    + rewrite FS0 by lia. lra.
Qed.
End Solve.

(** ** balancing *)
Lemma absmax_loop (f : nat -> R) n body : (0 < n)%nat ->
  (forall j s, (1 <= j < n)%nat -> body j s = if Rltb s (Rabs (f j)) then Ok (Rabs (f j)) else Ok s) ->
  exists M, for_ 1 n body (Rabs (f 0%nat)) = Ok M /\ (forall c, (c < n)%nat -> Rabs (f c) <= M) /\ exists c, (c < n)%nat /\ Rabs (f c) = M.
Proof.
  intros Hn Hb. destruct (for_inv (fun k M => (forall c, (c < k)%nat -> Rabs (f c) <= M) /\ exists c, (c < n)%nat /\ Rabs (f c) = M) 1 n body (Rabs (f 0%nat))) as (M & E & H); eauto.
  - split; [intros c Hc; replace c with 0%nat by lia; lra|exists 0%nat; auto].
  - intros k M Hk (H1 & c & Hc & H2). rewrite Hb by auto. destruct (Rltb_spec M (Rabs (f k))).
    + eexists; split; eauto. split; [|exists k; split; auto; lia]. intros c' Hc'. destruct (Nat.eq_dec c' k) as [->|]; [lra|]. specialize (H1 c' ltac:(lia)). lra.
    + eexists; split; eauto. split; [|exists c; auto]. intros c' Hc'. destruct (Nat.eq_dec c' k) as [->|]; [lra|]. apply H1; lia.
Qed.
Lemma row_absmax_ok (m : fmat R) i : (0 < nc m)%nat -> (i < nr m)%nat ->
  exists M, row_absmax m i = Ok M /\ (forall c, (c < nc m)%nat -> Rabs (el m i c) <= M) /\ exists c, (c < nc m)%nat /\ Rabs (el m i c) = M.
Proof.
  intros. unfold row_absmax. rewrite mget_ok by auto. cbn [bind]. rs. apply (absmax_loop (fun c => el m i c)); auto.
  intros j s Hj. rewrite mget_ok by lia. reflexivity.
Qed.
Lemma col_absmax_ok (m : fmat R) i : (0 < nr m)%nat -> (i < nc m)%nat ->
  exists M, col_absmax m i = Ok M /\ (forall c, (c < nr m)%nat -> Rabs (el m c i) <= M) /\ exists c, (c < nr m)%nat /\ Rabs (el m c i) = M.
Proof.
  intros. unfold col_absmax. rewrite mget_ok by auto. cbn [bind]. rs. apply (absmax_loop (fun c => el m c i)); auto.
  intros j s Hj. rewrite mget_ok by lia. reflexivity.
Qed.

(** scale factors of the rows: positive, the inverse of the largest magnitude in the
    row unless the row vanishes *)
Definition rowfac (m : fmat R) (d : nat -> R) : Prop := forall r, (r < nr m)%nat ->
  0 < d r /\ (((forall c, (c < nc m)%nat -> el m r c = 0) /\ d r = 1) \/
    (exists c, (c < nc m)%nat /\ d r = 1 / Rabs (el m r c) /\ el m r c <> 0 /\ forall c', (c' < nc m)%nat -> Rabs (el m r c') <= Rabs (el m r c))).
Lemma rowbal_ok (m1 m2 : fmat R) : nr m2 = nr m1 -> (0 < nc m1)%nat ->
  exists m1' m2' d, zMatMatRowBalancingDST m1 m2 = Ok (m1', m2') /\ nr m1' = nr m1 /\ nc m1' = nc m1 /\ nr m2' = nr m1 /\ nc m2' = nc m2 /\
   rowfac m1 d /\
   (forall r c, (r < nr m1)%nat -> (c < nc m1)%nat -> el m1' r c = el m1 r c * d r) /\
   (forall r c, (r < nr m1)%nat -> (c < nc m2)%nat -> el m2' r c = el m2 r c * d r).
Proof.
  intros N2 C1. unfold zMatMatRowBalancingDST.
  match goal with |- context [for_ ?lo ?hi ?f ?s00] =>
   destruct (for_inv (fun k mm => nr (fst mm) = nr m1 /\ nc (fst mm) = nc m1 /\ nr (snd mm) = nr m1 /\ nc (snd mm) = nc m2 /\
     exists d, rowfac (FM k (nc m1) (el m1)) d /\
     (forall r c, (r < k)%nat -> (c < nc m1)%nat -> el (fst mm) r c = el m1 r c * d r) /\
     (forall r c, (r < k)%nat -> (c < nc m2)%nat -> el (snd mm) r c = el m2 r c * d r) /\
     (forall r c, (k <= r)%nat -> el (fst mm) r c = el m1 r c) /\ (forall r c, (k <= r)%nat -> el (snd mm) r c = el m2 r c)) lo hi f s00) as ([m1' m2'] & E & H) end.
  - lia.
  - cbn. conjs; auto. exists (fun _ => 1). conjs; auto; try (intros; lia). intros r Hr. cbn in Hr. lia.
  - intros k [a b] Hk (D1 & D2 & D3 & D4 & d & F & I1 & I2 & I3 & I4). cbn [fst snd] in *.
    destruct (row_absmax_ok a k) as (M & EM & M1 & c0 & Hc0 & M2); try lia. rewrite EM. cbn [bind]. rs.
    rewrite I3 in M2 by lia. rewrite D2 in *.
    destruct (Reqb_spec M 0) as [Z|NZ].
    + eexists; split; [reflexivity|]. cbn [fst snd]. conjs; auto. exists (fun r => if (r =? k)%nat then 1 else d r). conjs.
      * intros r Hr. cbn [nr nc el] in *. destruct (Nat.eqb_spec r k) as [->|].
        -- split; [lra|]. left. split; auto. intros c Hc. specialize (M1 c Hc). rewrite I3, Z in M1 by lia.
           destruct (Req_dec (el m1 k c) 0) as [|N0]; auto. pose proof (Rabs_pos_lt _ N0). lra.
        -- apply F. cbn. lia.
      * intros r c Hr Hc. destruct (Nat.eqb_spec r k) as [->|]; [rewrite I3 by lia; lra|]. apply I1; lia.
      * intros r c Hr Hc. destruct (Nat.eqb_spec r k) as [->|]; [rewrite I4 by lia; lra|]. apply I2; lia.
      * intros; apply I3; lia.
      * intros; apply I4; lia.
    + match goal with |- context [for_ ?lo ?hi ?f a] =>
        destruct (row_loop a k lo hi f (fun c => el m1 k c * (1 / M))) as (a' & Ea & A1 & A2 & A3) end; try lia.
      { intros j m' Hj E1 E2 Hm. rewrite mmod_ok by lia. now rewrite Hm, I3 by (auto; lia). }
      rewrite Ea. cbn [bind].
      match goal with |- context [for_ ?lo ?hi ?f b] =>
        destruct (row_loop b k lo hi f (fun c => el m2 k c * (1 / M))) as (b' & Eb & B1 & B2 & B3) end; try lia.
      { intros j m' Hj E1 E2 Hm. rewrite mmod_ok by lia. now rewrite Hm, I4 by (auto; lia). }
      rewrite Eb. cbn [bind]. eexists; split; [reflexivity|]. cbn [fst snd]. conjs; try congruence; try lia.
      assert (0 < M). { assert (0 <= M) by (rewrite <- M2; apply Rabs_pos). lra. }
      exists (fun r => if (r =? k)%nat then 1 / M else d r). conjs.
      * intros r Hr. cbn [nr nc el] in *. destruct (Nat.eqb_spec r k) as [->|].
        -- split; [unfold Rdiv; rewrite Rmult_1_l; now apply Rinv_0_lt_compat|]. right. exists c0. rewrite M2. conjs; auto.
           ++ intros Z. rewrite Z, Rabs_R0 in M2. lra.
           ++ intros c' Hc'. specialize (M1 c' Hc'). now rewrite I3 in M1 by lia.
        -- apply F. cbn. lia.
      * intros r c Hr Hc. rewrite A3. destruct (Nat.eqb_spec r k) as [->|]; [nbts|]. cbn [andb]. apply I1; lia.
      * intros r c Hr Hc. rewrite B3. destruct (Nat.eqb_spec r k) as [->|]; [nbts|]. cbn [andb]. apply I2; lia.
      * intros r c Hr. rewrite A3, I3 by lia. nbts.
      * intros r c Hr. rewrite B3, I4 by lia. nbts.
  - exists m1', m2'. destruct H as (D1 & D2 & D3 & D4 & d & F & I1 & I2 & I3 & I4). exists d. cbn [fst snd] in *. conjs; auto.
Qed.

(** scale factors of the columns *)
Definition colfac (m : fmat R) (k s : nat -> R) : Prop := forall c, (c < nc m)%nat ->
  0 < k c /\ (((forall r, (r < nr m)%nat -> el m r c = 0) /\ k c = 1 /\ s c = 0) \/
    (exists r, (r < nr m)%nat /\ k c = 1 / Rabs (el m r c) /\ s c = k c /\ el m r c <> 0 /\ forall r', (r' < nr m)%nat -> Rabs (el m r' c) <= Rabs (el m r c))).
Lemma colbal_ok (m : fmat R) (s : fvec R) : (0 < nr m)%nat -> (nc m <= vlen s)%nat ->
  exists m' s' k, zMatColBalancingDST m s = Ok (m', s') /\ nr m' = nr m /\ nc m' = nc m /\ vlen s' = vlen s /\ colfac m k (vel s') /\
   (forall r c, (r < nr m)%nat -> (c < nc m)%nat -> el m' r c = el m r c * k c).
Proof.
  intros N1 C1. unfold zMatColBalancingDST.
  match goal with |- context [for_ ?lo ?hi ?f ?s00] =>
   destruct (for_inv (fun t ms => nr (fst ms) = nr m /\ nc (fst ms) = nc m /\ vlen (snd ms) = vlen s /\
     exists k, colfac (FM (nr m) t (el m)) k (vel (snd ms)) /\
     (forall r c, (r < nr m)%nat -> (c < t)%nat -> el (fst ms) r c = el m r c * k c) /\
     (forall r c, (t <= c)%nat -> el (fst ms) r c = el m r c)) lo hi f s00) as ([m' s'] & E & H) end.
  - lia.
  - cbn. conjs; auto. exists (fun _ => 1). conjs; auto; try (intros; lia). intros c Hc. cbn in Hc. lia.
  - intros t [a v] Hk (D1 & D2 & D3 & k & F & I1 & I3). cbn [fst snd] in *.
    destruct (col_absmax_ok a t) as (M & EM & M1 & r0 & Hr0 & M2); try lia. rewrite EM. cbn [bind]. rs.
    rewrite I3 in M2 by lia. rewrite D1 in *. rewrite vset_ok by lia. cbn [bind].
    destruct (Reqb_spec M 0) as [Z|NZ].
    + eexists; split; [reflexivity|]. cbn [fst snd vlen vel]. conjs; auto. exists (fun r => if (r =? t)%nat then 1 else k r). conjs.
      * intros r Hr. cbn [nr nc el] in *. destruct (Nat.eqb_spec r t) as [->|].
        -- split; [lra|]. left. conjs; auto. intros c Hc. specialize (M1 c Hc). rewrite I3, Z in M1 by lia.
           destruct (Req_dec (el m c t) 0) as [|N0]; auto. pose proof (Rabs_pos_lt _ N0). lra.
        -- apply F. cbn. lia.
      * intros r c Hr Hc. destruct (Nat.eqb_spec c t) as [->|]; [rewrite I3 by lia; lra|]. apply I1; lia.
      * intros; apply I3; lia.
    + rewrite vset_ok by (cbn; lia). cbn [bind]. rewrite vget_ok by (cbn; lia). cbn [bind vlen vel]. rewrite !Nat.eqb_refl.
      match goal with |- context [for_ ?lo ?hi ?f a] =>
        destruct (col_loop a t lo hi f (fun r => el m r t * (1 / M))) as (a' & Ea & A1 & A2 & A3) end; try lia.
      { intros j m' Hj E1 E2 Hm. rewrite mmod_ok by lia. now rewrite Hm, I3 by (auto; lia). }
      rewrite Ea. cbn [bind]. eexists; split; [reflexivity|]. cbn [fst snd vlen vel]. conjs; try congruence; try lia.
      assert (0 < M). { assert (0 <= M) by (rewrite <- M2; apply Rabs_pos). lra. }
      exists (fun r => if (r =? t)%nat then 1 / M else k r). conjs.
      * intros r Hr. cbn [nr nc el] in *. destruct (Nat.eqb_spec r t) as [->|].
        -- split; [unfold Rdiv; rewrite Rmult_1_l; now apply Rinv_0_lt_compat|]. right. exists r0. rewrite M2. conjs; auto.
           ++ intros Z. rewrite Z, Rabs_R0 in M2. lra.
           ++ intros c' Hc'. specialize (M1 c' Hc'). now rewrite I3 in M1 by lia.
        -- apply F. cbn. lia.
      * intros r c Hr Hc. rewrite A3. destruct (Nat.eqb_spec c t) as [->|]; [nbts|]. cbn [andb]. apply I1; lia.
      * intros r c Hr. rewrite A3, I3 by lia. nbts.
  - exists m', s'. destruct H as (D1 & D2 & D3 & k & F & I1 & I3). exists k. cbn [fst snd] in *. conjs; auto.
Qed.

Lemma rescale_ok n (s : fvec R) (x : fmat R) : (n <= vlen s)%nat -> nr x = n ->
  exists x', rescale n s x = Ok x' /\ nr x' = n /\ nc x' = nc x /\ forall i j, (i < n)%nat -> (j < nc x)%nat -> el x' i j = el x i j * vel s i.
Proof.
  intros Hs Hx. unfold rescale.
  match goal with |- context [for_ ?lo ?hi ?f ?s00] =>
   destruct (for_inv (fun t y => nr y = n /\ nc y = nc x /\ (forall i j, (i < t)%nat -> (j < nc x)%nat -> el y i j = el x i j * vel s i) /\
     forall i j, (t <= i)%nat -> el y i j = el x i j) lo hi f s00) as (x' & E & H) end.
  - lia.
  - conjs; auto. intros; lia.
  - intros k y Hk (D1 & D2 & I1 & I2). rewrite vget_ok by lia. cbn [bind].
    match goal with |- context [for_ ?lo ?hi ?f y] =>
        destruct (row_loop y k lo hi f (fun c => el x k c * vel s k)) as (y' & Ea & A1 & A2 & A3) end; try lia.
    { intros j m' Hj E1 E2 Hm. rewrite mmod_ok by lia. now rewrite Hm, I2 by (auto; lia). }
    exists y'. split; auto. conjs; try congruence.
    + intros i j Hi Hj. rewrite A3. destruct (Nat.eqb_spec i k) as [->|]; [nbts|]. cbn [andb]. apply I1; lia.
    + intros i j Hi. rewrite A3, I2 by lia. nbts.
  - exists x'. split; auto. destruct H as (D1 & D2 & I1 & I2). conjs; auto.
Qed.

(** the entries of [E] are negligible: at most tol times any bound of their column of [A] *)
Definition small (tol : R) n (A E : nat -> nat -> R) : Prop :=
  forall r c M, (r < n)%nat -> (c < n)%nat -> (forall r', (r' < n)%nat -> Rabs (A r' c) <= M) -> Rabs (E r c) <= tol * M.

Theorem mul_inv_ok tol n m (a b ans : fmat R) idx (s : fvec R) : 0 <= tol -> (0 < n)%nat -> perm n idx ->
  nr a = n -> nc a = n -> nr b = n -> nc b = m -> nr ans = n -> nc ans = m -> (n <= vlen s)%nat ->
  exists o, mul_inv_mat tol a b ans idx (Some s) = Ok o /\
   match o with
   | Some X => nr X = n /\ nc X = m /\ exists E, small tol n (el a) E /\
       (forall j, (j < m)%nat -> sat n (el a) E (fun c => el X c j) (fun r => el b r j)) /\
       (forall x, sat n (el a) E x (fun _ => 0) -> forall i, (i < n)%nat -> x i = 0)
   | None => exists E i x, small tol n (el a) E /\ (i < n)%nat /\ x i <> 0 /\ sat n (el a) E x (fun _ => 0)
   end.
Proof.
  intros Ht Hn P A1 A2 B1 B2 X1 X2 S1. unfold mul_inv_mat. rewrite X1. unfold zMatMatBalancingDST.
  destruct (colbal_ok a s) as (a1 & s1 & k & E1 & D1 & D2 & D3 & CF & CE); try lia. rewrite E1. cbn [rmap bind fst snd].
  destruct (rowbal_ok a1 b) as (a2 & b2 & d & E2 & R1 & R2 & R3 & R4 & RF & RE & RB); try lia. rewrite E2. cbn [bind fst snd].
  assert (AE : forall r c, (r < n)%nat -> (c < n)%nat -> el a2 r c = el a r c * (k c * d r)).
  { intros. rewrite RE, CE by lia. ring. }
  assert (KP : forall c, (c < n)%nat -> 0 < k c) by (intros c Hc; apply CF; lia).
  assert (DP : forall r, (r < n)%nat -> 0 < d r) by (intros r Hr; apply RF; lia).
  assert (LE1 : forall r c, (r < n)%nat -> (c < n)%nat -> Rabs (el a1 r c) <= 1).
  { intros r c Hr Hc. rewrite CE by lia. destruct (CF c) as (Hk & [(Z & K & _)|(r0 & Hr0 & K & _ & NZ & M)]); try lia.
    - rewrite Z, Rmult_0_l, Rabs_R0 by lia. lra.
    - rewrite Rabs_mult, (Rabs_pos_eq (k c)) by lra. rewrite K. pose proof (Rabs_pos_lt _ NZ). specialize (M r ltac:(lia)).
      replace (Rabs (el a r c) * (1 / Rabs (el a r0 c))) with (Rabs (el a r c) / Rabs (el a r0 c)) by (field; lra).
      apply Rmult_le_reg_r with (Rabs (el a r0 c)); auto. unfold Rdiv. rewrite Rmult_assoc, Rinv_l by lra. lra. }
  assert (DG : forall r, (r < n)%nat -> 1 <= d r).
  { intros r Hr. destruct (RF r) as (_ & [(_ & ->)|(c & Hc & -> & NZ & _)]); try lia; [lra|].
    specialize (LE1 r c Hr ltac:(lia)). pose proof (Rabs_pos_lt _ NZ).
    apply Rmult_le_reg_r with (Rabs (el a1 r c)); auto. replace (1 / Rabs (el a1 r c) * Rabs (el a1 r c)) with 1 by (field; lra). lra. }
  set (f := fun r c => k c * d r).
  assert (FP : forall r c, (r < n)%nat -> (c < n)%nat -> 0 < f r c) by (intros; apply Rmult_lt_0_compat; auto).
  assert (SM : forall E', (forall r c, Rabs (E' r c) <= tol) ->
     (forall c, (c < n)%nat -> (forall r, (r < n)%nat -> el a2 r c = 0) -> forall r, (r < n)%nat -> E' r c = 0) ->
     small tol n (el a) (fun r c => E' r c / f r c)).
  { intros E' EB EZ r c M Hr Hc HM. pose proof (FP r c Hr Hc). specialize (EB r c).
    destruct (CF c) as (Hk & [(Z & K & _)|(r0 & Hr0 & K & _ & NZ & Mx)]); try lia.
    - rewrite (EZ c Hc) by (auto; intros; rewrite AE, Z by lia; ring).
      unfold Rdiv. rewrite Rmult_0_l, Rabs_R0. apply Rmult_le_pos; auto. eapply Rle_trans; [apply Rabs_pos|apply (HM 0%nat Hn)].
    - unfold Rdiv. rewrite Rabs_mult, (Rabs_pos_eq (/ f r c)) by (left; now apply Rinv_0_lt_compat).
      specialize (HM r0 ltac:(lia)). pose proof (Rabs_pos_lt _ NZ).
      assert (/ f r c <= M).
      { apply Rle_trans with (Rabs (el a r0 c)); auto. unfold f. rewrite Rinv_mult.
        replace (/ k c) with (Rabs (el a r0 c)) by (rewrite K; field; lra).
        rewrite <- (Rmult_1_r (Rabs (el a r0 c))) at 2. apply Rmult_le_compat_l; [lra|].
        rewrite <- Rinv_1. apply Rinv_le_contravar; [lra|]. auto. }
      apply Rmult_le_compat; auto using Rabs_pos. left. now apply Rinv_0_lt_compat. }
  assert (TR : forall E' x y, sat n (el a2) E' x y -> sat n (el a) (fun r c => E' r c / f r c) (fun c => x c * k c) (fun r => y r / d r)).
  { intros E' x y H r Hr. rewrite <- (H r Hr). unfold Rdiv at 2. rewrite <- rsum_scal_r. apply rsum_ext. intros c Hc. rewrite AE by auto.
    unfold f. pose proof (DP r Hr). pose proof (KP c Hc). field. lra. }
  destruct (gauss_forward_ok tol n m a2 b2 idx) as (o & E3 & HO); auto; try lia.
  rewrite E3. cbn [bind]. destruct o as [[[a3 b3] idx3]|u].
  - destruct HO as (E' & S & F). pose proof F as [Fp Fd F1 F0 FA FB FS0 FS1 FE FE0 FZ]. destruct Fd as (G1 & G2 & G3 & G4).
    destruct (gauss_backward_ok n m a3 b3 idx3 ans) as (X & EX & Y1 & Y2 & HX); auto; try lia. rewrite EX. cbn [bind].
    destruct (rescale_ok n s1 X) as (X' & EX' & Z1 & Z2 & HX'); auto; try lia. rewrite EX'. cbn [rmap].
    eexists; split; [reflexivity|]. split; auto. split; [lia|].
    assert (NZ : forall c, (c < n)%nat -> vel s1 c = k c).
    { intros c Hc. destruct (CF c) as (Hk & [(Z & K & _)|(r0 & Hr0 & K & -> & _)]); try lia; auto. exfalso.
      destruct (FZ c Hc) with (r := pos idx3 c) as (Z0 & _).
      { intros r Hr. rewrite AE, Z by lia. ring. } { eapply perm_lt; eauto. } rewrite F1 in Z0 by auto. lra. }
    exists (fun r c => E' r c / f r c). conjs.
    + apply SM; auto. intros; apply FZ; auto.
    + intros j Hj r Hr.
      rewrite (rsum_ext n _ (fun c => (el a r c + E' r c / f r c) * (el X c j * k c))).
      2:{ intros c Hc. rewrite HX', NZ by lia. auto. }
      rewrite (TR E' (fun c => el X c j) (fun r => el b2 r j)); auto.
      * rewrite RB by lia. pose proof (DP r Hr). field. lra.
      * eapply finv_solve; eauto.
    + intros x Hx i Hi. assert (x i / k i = 0) as Q.
      { apply (finv_inj tol n m (el a2) (el b2) a3 b3 idx3 E' S (fun c => x c / k c) F); auto.
        intros r Hr. apply Rmult_eq_reg_r with (/ d r). 2:{ pose proof (DP r Hr). apply Rinv_neq_0_compat. lra. }
        rewrite Rmult_0_l. rewrite <- (Hx r Hr). rewrite <- rsum_scal_r. apply rsum_ext. intros c Hc. rewrite AE by auto.
        unfold f. pose proof (DP r Hr). pose proof (KP c Hc). field. lra. }
      pose proof (KP i Hi). unfold Rdiv in Q. apply Rmult_integral in Q. destruct Q as [|Q]; auto.
      exfalso. apply (Rinv_neq_0_compat (k i)); lra.
  - destruct HO as (E' & i & x & EB & EZ & Hi & Hx & HS). eexists; split; [reflexivity|].
    exists (fun r c => E' r c / f r c), i, (fun c => x c * k c). conjs; auto.
    + pose proof (KP i Hi). apply Rmult_integral_contrapositive. split; auto. lra.
    + intros r Hr. rewrite (TR E' x (fun _ => 0)); auto. lra.
Qed.
