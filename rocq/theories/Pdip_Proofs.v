(** Lemmas for C106. *)
From Coq Require Import Reals Lra Lia List Psatz.
From Verif Require Import Prelude Prelude_Proofs Scalar RealLib Fmat Fmat_Proofs LE_Model LE_Spec LE_Props IP_Model IP_Proofs Vop Root_Model Stat_Model Stat_Proofs Qp_Spec Qp_Proofs Asm_Model Asm_Proofs Gen_Model Gen_Spec Gen_Proofs Gen2_Proofs Lcpip_Model Lcpip_Proofs Pdip_Model Pdip_Spec.
Import ListNotations.
Local Open Scope R_scope.

(** ** the step length *)
Section Step.
  Variables (p : nat) (t : R) (x dx : fvec R).
  Hypothesis Ht : 0 <= t.
  Hypothesis X : vlen x = p.
  Hypothesis D : vlen dx = p.
  Hypothesis P : positive p (vel x).
  Let ratio j := - vel x j / vel dx j.
  Definition upper (k : nat) (m : option R) : Prop :=
    match m with
    | None => forall j, (j < k)%nat -> - t <= vel dx j
    | Some m => (exists j, (j < k)%nat /\ vel dx j < - t /\ m = - vel x j / vel dx j) /\ forall j, (j < k)%nat -> vel dx j < - t -> m <= - vel x j / vel dx j
    end.
  Lemma ratio_pos j : (j < p)%nat -> vel dx j < - t -> 0 < - vel x j / vel dx j.
  Proof.
    intros Hj L. specialize (P j Hj). replace (- vel x j / vel dx j) with (vel x j * / - vel dx j) by (field; lra). apply Rmult_lt_0_compat; auto. apply Rinv_0_lt_compat. lra.
  Qed.
  Lemma ratio_neg j : (j < p)%nat -> t < vel dx j -> - vel x j / vel dx j < 0.
  Proof.
    intros Hj L. specialize (P j Hj). replace (- vel x j / vel dx j) with (- (vel x j * / vel dx j)) by (field; lra).
    assert (0 < vel x j * / vel dx j) by (apply Rmult_lt_0_compat; auto; apply Rinv_0_lt_compat; lra). lra.
  Qed.
  Lemma scan_ok : exists m mn, forb 0 p (step_scan t x dx) (None, None) = Ok (inl (m, mn)) /\ upper p m /\ match mn with Some v => v < 0 | None => True end.
  Proof.
    destruct (forb_inv (fun k s => upper k (fst s) /\ match snd s with Some v => v < 0 | None => True end) (fun _ : unit => False) 0 p (step_scan t x dx) (None, None)) as (o & E & H).
    - lia.
    - cbn. split; auto. intros; lia.
    - intros k [m mn] Hk (U & L). cbn [fst snd] in *. unfold step_scan. rewrite (vget_ok dx), (vget_ok x) by lia. cbn [bind]. rs.
      pose proof (P k ltac:(lia)) as PK. rewrite (proj2 (Bool.andb_false_iff _ _)) by (right; destruct (Rltb_spec (vel x k) (- t)); auto; lra).
      eexists. split; [reflexivity|]. destruct (Rltb_spec (vel dx k) (- t)) as [N|N]; cbn [fst snd].
      + split; auto. destruct m as [m|].
        * destruct U as ((j & Hj & Dj & ->) & U). destruct (Rltb_spec (- vel x k / vel dx k) (- vel x j / vel dx j)) as [C|C].
          -- split; [exists k; auto|]. intros i Hi Di. assert (i = k \/ (i < k)%nat) as [->|Hi'] by lia; [lra|]. specialize (U i Hi' Di). lra.
          -- split; [exists j; auto|]. intros i Hi Di. assert (i = k \/ (i < k)%nat) as [->|Hi'] by lia; [lra|auto].
        * cbn in *. split; [exists k; auto|]. intros i Hi Di. assert (i = k \/ (i < k)%nat) as [->|Hi'] by lia; [lra|]. specialize (U i Hi'). lra.
      + assert (UK : upper (S k) m).
        { destruct m as [m|]; cbn in *.
          - destruct U as ((j & Hj & Dj & ->) & U). split; [exists j; auto|]. intros i Hi Di. assert (i = k \/ (i < k)%nat) as [->|Hi'] by lia; [lra|auto].
          - intros j Hj. assert (j = k \/ (j < k)%nat) as [->|Hi'] by lia; [lra|auto]. }
        destruct (Rltb_spec t (vel dx k)) as [G|G]; cbn [fst snd]; auto. split; auto. pose proof (ratio_neg k ltac:(lia) G) as RN.
        destruct mn as [v|]; auto. destruct (Rltb_spec v (- vel x k / vel dx k)); auto.
    - destruct o as [[m mn]|u]; [|contradiction]. exists m, mn. cbn in H. destruct H. auto.
  Qed.
  Lemma step_ok : exists m, _zLP_PDIP_PCStep t x dx = Ok m /\ 0 <= m /\ (forall k, (k < p)%nat -> vel dx k < - t -> 0 <= vel x k + m * vel dx k) /\
    ((forall k, (k < p)%nat -> - t <= vel dx k) -> m = 0) /\ ((exists k, (k < p)%nat /\ vel dx k < - t) -> 0 < m /\ exists k, (k < p)%nat /\ vel dx k < - t /\ vel x k + m * vel dx k = 0).
  Proof.
    unfold _zLP_PDIP_PCStep. rewrite D. destruct scan_ok as (m & mn & E & U & N). rewrite E. cbn [bind]. cbv zeta. rs. destruct m as [m|]; cbn in U.
    - destruct U as ((j & Hj & Dj & M) & U). pose proof (ratio_pos j Hj Dj) as MP. rewrite <- M in MP.
      destruct (Rltb_spec m (match mn with Some v => v | None => 0 end)) as [C|C]; [destruct mn; lra|].
      exists m. conjs; auto; try lra.
      + intros k Hk Dk. specialize (U k Hk Dk). assert (EQ : vel x k = - (- vel x k / vel dx k) * vel dx k) by (field; lra). rewrite EQ. nra.
      + intros G. specialize (G j Hj). lra.
      + intros _. split; auto. exists j. conjs; auto. rewrite M. field. lra.
    - destruct (Rltb_spec 0 (match mn with Some v => v | None => 0 end)) as [C|C]; [destruct mn; lra|]. exists 0. conjs; auto; try lra.
      + intros k Hk Dk. specialize (U k Hk). lra.
      + intros (k & Hk & Dk). specialize (U k Hk). lra.
  Qed.
  (** the length that is used: it keeps a hundredth of each component *)
  Lemma len_ok : exists a, step_len t x dx = Ok a /\ 0 <= a <= 1 /\ forall k, (k < p)%nat -> vel dx k < - t \/ 0 <= vel dx k -> vel x k / 100 <= vel x k + a * vel dx k.
  Proof.
    unfold step_len. destruct step_ok as (m & E & M & S & _). rewrite E. cbn [bind]. cbv zeta. unfold PCSTEP_MUL. rs. replace (IZR 99 / IZR 100) with (99 / 100) by reflexivity.
    destruct (Rltb_spec 1 (99 / 100 * m)) as [L|L]; (eexists; split; [reflexivity|]; split; [lra|]); intros k Hk [Dk|Dk]; specialize (P k Hk); try nra.
    - specialize (S k Hk Dk). assert (1 * vel dx k >= 99 / 100 * m * vel dx k) by nra. lra.
    - specialize (S k Hk Dk). lra.
  Qed.
End Step.

(** ** Newton's equations *)
Definition optv (v : option (fvec R)) (i : nat) : R := match v with Some v => vel v i | None => 0 end.
Definition optl (n : nat) (v : option (fvec R)) : Prop := match v with Some v => vlen v = n | None => True end.
Section Newton.
  Variables (n p : nat) (a : fmat R).
  Hypothesis A1 : nr a = n.
  Hypothesis A2 : nc a = p.
  Lemma decomp_ok x z : (0 < n)%nat -> rows_indep n p (el a) -> vlen x = p -> vlen z = p -> positive p (vel x) -> positive p (vel z) ->
    exists l u idx, _zLP_PDIPEqLUDecomp 0 a x z = Ok (Some (l, u, idx, n)) /\
      forall b ans, vlen b = n -> vlen ans = n -> exists y, zLESolveLU l u b ans idx = Ok (Some y) /\ vlen y = n /\
        forall i, (i < n)%nat -> rsum n (fun j => rsum p (fun k => vel x k / vel z k * el a i k * el a j k) * vel y j) = vel b i.
  Proof.
    intros Hn RI X Z PX PZ. unfold _zLP_PDIPEqLUDecomp, zVecDemNC. rewrite vop2_ok by (cbn; congruence). cbn [bind vlen vzero]. rewrite A1.
    match goal with |- context [store ?v] => destruct (store_ok v) as (W1 & W2); set (w := store v) in *; clearbody w end. cbn [vlen vel] in *.
    destruct (quad_ok n p (fun i k => mget a i k) (el a) (Some w) ltac:(intros; apply mget_ok; lia) ltac:(cbn; congruence) (zmat n n)) as (q & E & Q1 & Q2 & Q3); auto.
    unfold zMatQuadNC. rewrite A1, A2, E. cbn [bind]. destruct (mstore_ok q) as (S1 & S2 & S3). set (Q := mstore q) in *. clearbody Q. cbn [nr nc zmat] in *. rewrite Q1 in *. rewrite Q2 in *.
    assert (W : forall k, (k < p)%nat -> wt (Some w) k = vel x k / vel z k). { intros k Hk. cbn [wt]. rewrite W2 by lia. rs. reflexivity. }
    assert (NS : nonsingular n (el Q)).
    { apply (back_nonsingular n p (el a) (wt (Some w))); auto.
      - intros k Hk. rewrite W by auto. specialize (PX k Hk). specialize (PZ k Hk). unfold Rdiv. apply Rmult_lt_0_compat; auto. now apply Rinv_0_lt_compat.
      - intros i j Hi Hj. rewrite S3 by lia. auto. }
    destruct (C25_full_rank n n Q (zmat n n) (zmat n n) (List.seq 0 n)) as (l & u & idx & EL & PM & TL & DL & TU & DU & HM); auto; [now rewrite seq_length|].
    destruct (C25_lu_partial 0 n n Q (zmat n n) (zmat n n) (List.seq 0 n)) as (l' & u' & idx' & rk & EL' & P' & _ & K1 & K2 & K3 & K4 & _); auto; try lra; [now rewrite seq_length|].
    rewrite EL in EL'. injection EL' as <- <- <- <-. exists l, u, idx. split; auto. intros b ans B AN.
    destruct (C24_lu n l u b ans idx) as (y & Ey & Vy & Hy); auto. { intros i j Hi Hj. apply TL; lia. }
    exists y. conjs; auto. intros i Hi. rewrite <- (Hy i Hi). apply rsum_ext. intros j Hj. rewrite <- HM by auto. rewrite S3, Q3 by lia. f_equal. apply rsum_ext. intros k Hk. now rewrite W.
  Qed.
  Lemma eqlu_ok x z l u idx v1 v2 v3 dy : vlen x = p -> vlen z = p -> positive p (vel z) -> optl n v1 -> optl p v2 -> vlen v3 = p -> vlen dy = n ->
    (forall b ans, vlen b = n -> vlen ans = n -> exists y, zLESolveLU l u b ans idx = Ok (Some y) /\ vlen y = n /\
        forall i, (i < n)%nat -> rsum n (fun j => rsum p (fun k => vel x k / vel z k * el a i k * el a j k) * vel y j) = vel b i) ->
    exists DX DY DZ, _zLP_PDIPEqLU 0 a x z (l, u, idx, n) v1 v2 v3 dy = Ok (DX, DY, DZ) /\ vlen DX = p /\ vlen DY = n /\ vlen DZ = p /\
      newton n p (el a) (vel x) (vel z) (optv v1) (optv v2) (vel v3) (vel DX) (vel DY) (vel DZ).
  Proof.
    intros X Z PZ O1 O2 V3 DYL HS. unfold _zLP_PDIPEqLU.
    assert (B0 : exists d, match v2 with Some v => zVecAmpNC v x (vzero (vlen z)) | None => Ok (vzero (vlen z)) end = Ok d /\ vlen d = p /\ forall k, (k < p)%nat -> vel d k = optv v2 k * vel x k).
    { destruct v2 as [v|]; cbn in O2; [unfold zVecAmpNC; rewrite vop2_ok by (cbn; congruence)|]; eexists; (split; [reflexivity|]); cbn [vlen vel optv vzero]; split; auto; intros; rs; ring. }
    destruct B0 as (d0 & -> & D01 & D02). cbn [bind]. unfold zVecSubNC. rewrite vop2_ok by (cbn; congruence). cbn [bind]. unfold zVecDemNC. rewrite vop2_ok by (cbn; congruence). cbn [bind vlen vel].
    match goal with |- context [zMulMatVecNC a ?d ?v] => destruct (mulmv_R a d v) as (t0 & -> & T01 & T02); cbn [vlen vel vzero] in *; try congruence end. cbn [bind].
    rewrite D01 in T02. cbn [vlen vzero] in T01, T02. rewrite DYL in T01, T02.
    assert (B1 : exists tt, match v1 with Some v => zVecAddNC t0 v t0 | None => Ok t0 end = Ok tt /\ vlen tt = n /\ forall i, (i < n)%nat -> vel tt i = vel t0 i + optv v1 i).
    { destruct v1 as [v|]; cbn in O1; [unfold zVecAddNC; rewrite vop2_ok by (cbn; congruence)|]; eexists; (split; [reflexivity|]); cbn [vlen vel optv]; split; auto; intros; rs; ring. }
    destruct B1 as (t1 & -> & T11 & T12). cbn [bind]. unfold zVecRevDRC. rewrite vop1_ok by reflexivity. cbn [bind].
    match goal with |- context [store ?v] => destruct (store_ok v) as (W1 & W2); set (tmp := store v) in *; clearbody tmp end. cbn [vlen vel] in *. rewrite A1, Nat.eqb_refl.
    destruct (HS tmp dy) as (y & EY & Y1 & Y2); try congruence. rewrite EY. cbn [bind].
    destruct (store_ok y) as (S1 & S2). set (DY := store y) in *. clearbody DY.
    match goal with |- context [zMulMatTVecNC a ?d ?v] => destruct (mulmtv_R a d v) as (z0 & -> & Z01 & Z02); cbn [vlen vel vzero] in *; try congruence end. cbn [bind].
    rewrite D01 in Z01, Z02. rewrite A1 in Z02.
    assert (B2 : exists tt, match v2 with Some v => zVecAddNC z0 v z0 | None => Ok z0 end = Ok tt /\ vlen tt = p /\ forall i, (i < p)%nat -> vel tt i = vel z0 i + optv v2 i).
    { destruct v2 as [v|]; cbn in O2; [unfold zVecAddNC; rewrite vop2_ok by (cbn; congruence)|]; eexists; (split; [reflexivity|]); cbn [vlen vel optv]; split; auto; intros; rs; ring. }
    destruct B2 as (z1 & -> & Z11 & Z12). cbn [bind]. rewrite vop1_ok by reflexivity. cbn [bind].
    match goal with |- context [store ?v] => destruct (store_ok v) as (DZ1 & DZ2); set (DZ := store v) in *; clearbody DZ end. cbn [vlen vel] in *.
    unfold zVecAmpNC, zVecAddNC. rewrite vop2_ok by (cbn; congruence). cbn [bind]. rewrite vop2_ok by (cbn; congruence). cbn [bind]. rewrite vop2_ok by (cbn; congruence). cbn [bind].
    rewrite vop1_ok by reflexivity. cbn [bind vlen vel vzero].
    match goal with |- context [store ?v] => destruct (store_ok v) as (DX1 & DX2); set (DX := store v) in *; clearbody DX end. cbn [vlen vel] in *.
    assert (F2 : forall k, (k < p)%nat -> vel DZ k = - (rsum n (fun i => el a i k * vel DY i) + optv v2 k)). { intros k Hk. rewrite DZ2 by lia. rs. now rewrite Z12, Z02 by lia. }
    assert (F3 : forall k, (k < p)%nat -> vel DX k = - ((vel x k * vel DZ k + vel v3 k) / vel z k)). { intros k Hk. rewrite DX2 by lia. rs. reflexivity. }
    exists DX, DY, DZ. conjs; auto; try congruence. split; [|split].
    - intros i Hi. unfold mulv. specialize (Y2 i Hi). rewrite W2, T12, T02 in Y2 by lia. rs. unfold mulv in Y2.
      assert (G : rsum p (fun k => el a i k * vel DX k) = rsum n (fun j => rsum p (fun k => vel x k / vel z k * el a i k * el a j k) * vel y j) + rsum p (fun k => el a i k * ((vel d0 k - vel v3 k) / vel z k))).
      { rewrite (rsum_ext n _ (fun j => rsum p (fun k => vel x k / vel z k * el a i k * el a j k * vel y j))) by (intros j Hj; rewrite <- rsum_scal_r; reflexivity).
        rewrite rsum_swap, <- rsum_add. apply rsum_ext. intros k Hk. rewrite F3, F2, D02 by auto. specialize (PZ k Hk).
        rewrite (rsum_ext n (fun i0 => el a i0 k * vel DY i0) (fun j => el a j k * vel y j)) by (intros j Hj; rewrite S2 by lia; reflexivity).
        rewrite (rsum_ext n (fun j => vel x k / vel z k * el a i k * el a j k * vel y j) (fun j => (vel x k / vel z k * el a i k) * (el a j k * vel y j))) by (intros; ring).
        rewrite rsum_scal. field. lra. }
      rewrite G, Y2. ring.
    - intros k Hk. rewrite F2 by auto. ring.
    - intros k Hk. rewrite F3 by auto. specialize (PZ k Hk). field. lra.
  Qed.
End Newton.

(** ** one iteration *)
Lemma lift_pos ztol v : 0 < ztol -> (0 < vlen v)%nat -> exists w s, lift ztol v = Ok w /\ vlen w = vlen v /\ positive (vlen v) (vel w) /\ 0 <= s /\ forall k, (k < vlen v)%nat -> vel w k = vel v k + s.
Proof.
  intros Ht Hv. unfold lift. assert (L : length (to_list v) = vlen v) by (unfold to_list; now rewrite map_length, seq_length).
  assert (NT : forall j, (j < vlen v)%nat -> nth j (to_list v) 0 = vel v j). { intros j Hj. unfold to_list. rewrite (nth_indep _ _ (vel v O)) by (rewrite map_length, seq_length; auto). now rewrite map_nth, seq_nth by auto. }
  destruct (extremum_ok (fun y => y) (fun y m => slt y m) (fun a b => b < a)) with (data := to_list v) (size := vlen v) as ([m i] & E & (B1 & B2 & B3 & _)).
  all: try (intros; rs; lra).
  - intros y m. rs. destruct (Rltb_spec y m); split; intros; try discriminate; auto; lra.
  - lia.
  - unfold zDataMin. rs. rewrite E. cbn [bind]. destruct (Rleb_spec m ztol) as [C|C].
    + eexists. exists (- m + ztol). split; [reflexivity|]. unfold zVecShiftDRC. cbn [vlen vel]. split; auto. split; [|split; [lra|reflexivity]]. intros k Hk. rs. cbn in B3. specialize (B3 k Hk). rewrite NT in B3 by auto. cbn in *. lra.
    + eexists. exists 0. split; [reflexivity|]. split; auto. split; [|split; [lra|intros; ring]]. intros k Hk. specialize (B3 k Hk). rewrite NT in B3 by auto. cbn in *. lra.
Qed.

(** the state of the loop: x and z are positive; the errors are those at the start, reduced *)
Section Loop.
  Variables (n p : nat) (a : fmat R) (b c : fvec R) (ztol : R) (x0 y0 z0 : nat -> R).
  Hypothesis Hn : (0 < n)%nat.
  Hypothesis Hp : (0 < p)%nat.
  Hypothesis A1 : nr a = n.
  Hypothesis A2 : nc a = p.
  Hypothesis B : vlen b = n.
  Hypothesis C : vlen c = p.
  Hypothesis RI : rows_indep n p (el a).
  Definition pinv (x y z : fvec R) (st : list (R * R)) : Prop :=
    vlen x = p /\ vlen y = n /\ vlen z = p /\ positive p (vel x) /\ positive p (vel z) /\
    (forall i, (i < n)%nat -> primal p (el a) (vel b) (vel x) i = left_of (map fst st) * primal p (el a) (vel b) x0 i) /\
    (forall k, (k < p)%nat -> dual n (el a) (vel c) (vel y) (vel z) k = left_of (map snd st) * dual n (el a) (vel c) y0 z0 k) /\
    (forall s, In s st -> 0 <= fst s <= 1 /\ 0 <= snd s <= 1).
  Lemma err_ok x y z : vlen x = p -> vlen y = n -> vlen z = p ->
    exists v1 v2 v3 e, _zLP_PDIP_PCErr a b c x y z = Ok (v1, v2, v3, e) /\ vlen v1 = n /\ vlen v2 = p /\ vlen v3 = p /\ (forall i, (i < n)%nat -> vel v1 i = primal p (el a) (vel b) (vel x) i) /\ (forall k, (k < p)%nat -> vel v2 k = dual n (el a) (vel c) (vel y) (vel z) k) /\ (forall k, (k < p)%nat -> vel v3 k = vel x k * vel z k) /\ e = dot p (vel x) (vel z).
  Proof.
    intros X Y Z. unfold _zLP_PDIP_PCErr. destruct (mulmv_R a x (vzero (vlen b))) as (t1 & -> & T11 & T12); cbn [vlen vzero] in *; try congruence. cbn [bind].
    unfold zVecSubNC, zVecAddNC, zVecAmpNC. rewrite vop2_ok by (cbn; congruence). cbn [bind].
    destruct (mulmtv_R a y (vzero (vlen c))) as (t2 & -> & T21 & T22); cbn [vlen vzero] in *; try congruence. cbn [bind].
    rewrite vop2_ok by (cbn; congruence). cbn [bind]. rewrite vop2_ok by (cbn; congruence). cbn [bind]. rewrite vop2_ok by (cbn; congruence). cbn [bind vlen vel].
    match goal with |- context [zDataSum ?l ?k] => rewrite (zDataSum_ok l k) by (unfold to_list; rewrite map_length, seq_length; reflexivity) end. cbn [bind].
    match goal with |- context [Ok (store ?u, store ?v, store ?w, _)] => destruct (store_ok u) as (S11 & S12); destruct (store_ok v) as (S21 & S22); destruct (store_ok w) as (S31 & S32) end.
    do 4 eexists. split; [reflexivity|]. cbn [vlen vel vzero] in *. conjs; try congruence.
    - intros i Hi. rewrite S12 by lia. rs. rewrite T12 by lia. unfold primal. now rewrite X.
    - intros k Hk. rewrite S22 by lia. rs. rewrite T22 by lia. unfold dual. now rewrite A1.
    - intros k Hk. rewrite S32 by lia. rs. reflexivity.
    - unfold dot. rewrite C. apply rsum_ext. intros k Hk. unfold to_list. cbn [vlen vel]. rewrite (nth_indep _ _ (vel x 0%nat * vel z 0%nat)) by (rewrite map_length, seq_length; lia).
      rewrite (map_nth (fun i => vel x i * vel z i)), seq_nth by lia. reflexivity.
  Qed.
  Lemma correct_ok x z dx dz ap ad e : vlen x = p -> vlen z = p -> vlen dx = p -> vlen dz = p -> exists v, _zLP_PDIP_PCCorrect x z dx dz ap ad e = Ok v /\ vlen v = p.
  Proof.
    intros X Z DX DZ. unfold _zLP_PDIP_PCCorrect, zVecAmpNC, zVecCatNC. rewrite vop2_ok by (cbn; congruence). cbn [bind]. rewrite vop2_ok by (cbn; congruence). cbn [bind]. rewrite vop2_ok by (cbn; congruence). cbn [bind].
    eexists. split; [reflexivity|]. match goal with |- context [store ?u] => destruct (store_ok u) as (S11 & S12) end. rewrite S11. cbn. congruence.
  Qed.
  Lemma directions_ok v1 v2 v3 x z dy dy2 e : vlen x = p -> vlen z = p -> positive p (vel x) -> positive p (vel z) -> vlen v1 = n -> vlen v2 = p -> vlen v3 = p -> vlen dy = n -> vlen dy2 = n ->
    exists o, directions ztol 0 0 a v1 v2 v3 x z dy dy2 e = Ok o /\
      match o with
      | Some (DX, DY, DZ, DY2, v) => vlen DX = p /\ vlen DY = n /\ vlen DZ = p /\ vlen DY2 = n /\
          (exists w, newton n p (el a) (vel x) (vel z) (vel v1) (vel v2) w (vel DX) (vel DY) (vel DZ))
      | None => True
      end.
  Proof.
    intros X Z PX PZ V1 V2 V3 L1 L2. unfold directions. destruct (decomp_ok n p a A1 A2 x z) as (l & u & idx & E & HS); auto. rewrite E. cbn [bind].
    destruct (eqlu_ok n p a A1 A2 x z l u idx (Some v1) (Some v2) v3 dy) as (DX & DY & DZ & EQ & D1 & D2 & D3 & N1); auto. rewrite EQ. cbn [bind].
    destruct (step_ok p 0 x DX) as (ap & -> & _); auto; try lra. destruct (step_ok p 0 z DZ) as (ad & -> & _); auto; try lra. cbn [bind].
    destruct (_ && _); [eexists; split; [reflexivity|exact I]|].
    destruct (correct_ok x z DX DZ ap ad e) as (v & -> & VL); auto. cbn [bind].
    destruct (eqlu_ok n p a A1 A2 x z l u idx None None v dy2) as (DX2 & DY2 & DZ2 & EQ2 & D12 & D22 & D32 & N2); auto; try exact I. rewrite EQ2. cbn [bind].
    unfold zVecAddNC. rewrite vop2_ok by (cbn; congruence). cbn [bind]. rewrite vop2_ok by (cbn; congruence). cbn [bind]. rewrite vop2_ok by (cbn; congruence). cbn [bind].
    eexists. split; [reflexivity|]. match goal with |- context [Some (store ?u, store ?v, store ?w, _, _)] => destruct (store_ok u) as (S11 & S12); destruct (store_ok v) as (S21 & S22); destruct (store_ok w) as (S31 & S32);
      set (ux := store u) in *; set (uy := store v) in *; set (uz := store w) in *; clearbody ux uy uz end. cbn [vlen vel] in *.
    conjs; try congruence. exists (fun k => vel v3 k + vel v k). destruct N1 as (N11 & N12 & N13). destruct N2 as (N21 & N22 & N23). cbn [optv] in *. split; [|split].
    - intros i Hi. specialize (N11 i Hi). specialize (N21 i Hi). unfold mulv in *. rewrite (rsum_ext p _ (fun k => el a i k * vel DX k + el a i k * vel DX2 k)) by (intros k Hk; rewrite S12 by lia; rs; ring). rewrite rsum_add. lra.
    - intros k Hk. specialize (N12 k Hk). specialize (N22 k Hk). rewrite (rsum_ext n _ (fun i => el a i k * vel DY i + el a i k * vel DY2 i)) by (intros i Hi; rewrite S22 by lia; rs; ring). rewrite rsum_add, S32 by lia. rs. lra.
    - intros k Hk. specialize (N13 k Hk). specialize (N23 k Hk). rewrite S12, S32 by lia. rs. lra.
  Qed.
  Lemma loop_ok k : forall x y z dy dy2 st, vlen dy = n -> vlen dy2 = n -> pinv x y z st ->
    exists o, pdip_loop ztol 0 0 k a b c x y z dy dy2 st = Ok o /\ pinv (px o) (py o) (pz o) (psteps o) /\
      (pend o = Converged -> (forall i, (i < n)%nat -> Rabs (primal p (el a) (vel b) (vel (px o)) i) <= ztol) /\
         (forall j, (j < p)%nat -> Rabs (dual n (el a) (vel c) (vel (py o)) (vel (pz o)) j) <= ztol) /\ Rabs (dot p (vel (px o)) (vel (pz o))) <= ztol).
  Proof.
    induction k as [|k IH]; intros x y z dy dy2 st L1 L2 I; cbn [pdip_loop].
    { eexists. split; [reflexivity|]. cbn. split; auto. discriminate. }
    pose proof I as (X & Y & Z & PX & PZ & IP & ID & IS). destruct (err_ok x y z) as (v1 & v2 & v3 & e & -> & V1 & V2 & V3 & E1 & E2 & E3 & E4); auto. cbn [bind].
    destruct (zVecIsTol ztol v1 && zVecIsTol ztol v2 && is_tol ztol e) eqn:T.
    { eexists. split; [reflexivity|]. cbn. split; auto. intros _. apply andb_prop in T. destruct T as (T & T3). apply andb_prop in T. destruct T as (T1 & T2).
      pose proof (istol_R _ _ T1) as I1. pose proof (istol_R _ _ T2) as I2. split; [|split].
      - intros i Hi. rewrite <- E1 by auto. apply I1. lia.
      - intros j Hj. rewrite <- E2 by auto. apply I2. lia.
      - rewrite is_tol_R in T3. rewrite <- E4. destruct (Rleb_spec (Rabs e) ztol); auto; discriminate. }
    destruct (directions_ok v1 v2 v3 x z dy dy2 e) as (o & -> & HO); auto. cbn [bind]. destruct o as [[[[[DX DY] DZ] DY2] v]|]; [|eexists; split; [reflexivity|]; cbn; split; auto; discriminate].
    destruct HO as (D1 & D2 & D3 & D4 & w & N1 & N2 & N3).
    destruct (len_ok p 0 x DX) as (ap & -> & AP & XP); auto; try lra. destruct (len_ok p 0 z DZ) as (ad & -> & AD & ZP); auto; try lra. cbn [bind].
    clear T. destruct (_ && _); [eexists; split; [reflexivity|]; cbn; split; auto; discriminate|].
    unfold zVecCatNC. rewrite vop2_ok by (cbn; congruence). cbn [bind]. rewrite vop2_ok by (cbn; congruence). cbn [bind]. rewrite vop2_ok by (cbn; congruence). cbn [bind].
    match goal with |- context [pdip_loop _ _ _ _ _ _ _ (store ?u) (store ?v) (store ?w)] => destruct (store_ok u) as (S11 & S12); destruct (store_ok v) as (S21 & S22); destruct (store_ok w) as (S31 & S32);
      set (ux := store u) in *; set (uy := store v) in *; set (uz := store w) in *; clearbody ux uy uz end. cbn [vlen vel] in *.
    apply IH; auto. unfold pinv. conjs; try congruence.
    - intros j Hj. rewrite S12 by lia. rs. specialize (XP j Hj). specialize (PX j Hj). assert (vel DX j < - 0 \/ 0 <= vel DX j) by (destruct (Rlt_le_dec (vel DX j) 0); lra). specialize (XP H). lra.
    - intros j Hj. rewrite S32 by lia. rs. specialize (ZP j Hj). specialize (PZ j Hj). assert (vel DZ j < - 0 \/ 0 <= vel DZ j) by (destruct (Rlt_le_dec (vel DZ j) 0); lra). specialize (ZP H). lra.
    - intros i Hi. cbn [map fst left_of]. specialize (N1 i Hi). rewrite E1 in N1 by auto. rewrite Rmult_assoc, <- IP by auto. unfold primal in *. unfold mulv in *.
      rewrite (rsum_ext p (fun j => el a i j * vel ux j) (fun j => el a i j * vel x j + ap * (el a i j * vel DX j))) by (intros j Hj; rewrite S12 by lia; rs; ring). rewrite rsum_add, rsum_scal, N1. ring.
    - intros j Hj. cbn [map snd left_of]. specialize (N2 j Hj). rewrite E2 in N2 by auto. rewrite Rmult_assoc, <- ID by auto. unfold dual in *.
      rewrite (rsum_ext n (fun i => el a i j * vel uy i) (fun i => el a i j * vel y i + ad * (el a i j * vel DY i))) by (intros i Hi; rewrite S22 by lia; rs; ring). rewrite rsum_add, rsum_scal, S32 by lia. rs.
      replace (vel DZ j) with (- (rsum n (fun i => el a i j * vel y i) + vel z j - vel c j) - rsum n (fun i => el a i j * vel DY i)) by lra. ring.
    - intros s [<-|Hs]; auto.
  Qed.
End Loop.
