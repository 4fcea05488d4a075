(** Proofs about the simplex method (C43). *)
From Coq Require Import Reals Lra Lia List Permutation.
From Verif Require Import Prelude Prelude_Proofs Scalar RealLib Fmat Fmat_Proofs LE_Model IP_Model Vop Lp_Model Lp_Proofs Lp2_Proofs Lp3_Proofs Lp4_Proofs.
Import ListNotations.
Local Open Scope R_scope.

Lemma vidx_loop {T} (v : fvec T) L f (F : nat -> T) : NoDup L -> (forall c, In c L -> (c < vlen v)%nat) ->
  (forall j v', (j < length L)%nat -> vlen v' = vlen v ->
     (forall c, ~ In c (firstn j L) -> vel v' c = vel v c) -> f j v' = vset v' (nth j L O) (F (nth j L O))) ->
  exists v', for_ 0 (length L) f v = Ok v' /\ vlen v' = vlen v /\
    (forall c, In c L -> vel v' c = F c) /\ (forall c, ~ In c L -> vel v' c = vel v c).
Proof.
  intros ND B Hf.
  destruct (for_inv (fun k v' => vlen v' = vlen v /\ (forall c, In c (firstn k L) -> vel v' c = F c) /\
      (forall c, ~ In c (firstn k L) -> vel v' c = vel v c)) 0 (length L) f v) as (m' & E & P); [lia| | |].
  - cbn. conjs; auto. intros c [].
  - intros k s Hk (A1 & A3 & A4). rewrite Hf by (auto; lia).
    assert (Bk : (nth k L O < vlen v)%nat) by (apply B; apply nth_In; lia).
    rewrite vset_ok by lia. eexists. split; [reflexivity|]. cbn [vlen vel].
    assert (FS : firstn (S k) L = firstn k L ++ [nth k L O]).
    { clear - Hk. destruct Hk as (_ & Hk). revert k Hk. induction L as [|x L IH]; intros [|k] Hk; cbn in *; try lia; auto. f_equal. apply IH. lia. }
    rewrite FS. conjs; auto.
    + intros c Hc. destruct (Nat.eqb_spec c (nth k L O)); [subst; auto|].
      apply in_app_or in Hc. destruct Hc as [Hc|[Hc|[]]]; [auto|congruence].
    + intros c Hc. destruct (Nat.eqb_spec c (nth k L O)).
      * exfalso. apply Hc. apply in_or_app. right. subst. now left.
      * apply A4. intros I. apply Hc. apply in_or_app. now left.
  - exists m'. split; auto. rewrite firstn_all in P. exact P.
Qed.

(** sizes and indices of a tableau of m rows whose live columns are 0..N-1 *)
Record swf (m N : nat) (t : @tableau R) : Prop := {
  s_r : nr (ta t) = m; s_c : (N <= nc (ta t))%nat; s_b : vlen (tb t) = m; s_vc : (N <= vlen (tc t))%nat;
  s_ir : tir t = List.seq 0 m; s_ib : length (tib t) = m;
  s_perm : Permutation (tib t ++ tin t) (List.seq 0 N) }.
Lemma swf_nodup m N t : swf m N t -> NoDup (tib t ++ tin t).
Proof. intros W. eapply Permutation_NoDup; [apply Permutation_sym, (s_perm _ _ _ W)|apply seq_NoDup]. Qed.
Lemma swf_in m N t c : swf m N t -> (In c (tib t ++ tin t) <-> (c < N)%nat).
Proof.
  intros W. split; intros H.
  - apply (Permutation_in _ (s_perm _ _ _ W)) in H. apply in_seq in H. lia.
  - apply (Permutation_in _ (Permutation_sym (s_perm _ _ _ W))). apply in_seq. lia.
Qed.
Lemma get_seq m i : (i < m)%nat -> get (List.seq 0 m) i = Ok i.
Proof. intros. rewrite (get_ok _ _ O) by now rewrite seq_length. now rewrite seq_nth. Qed.

Section Simplex.
  Context (m N : nat) (T0 : nat -> nat -> R) (p0 : nat -> R).
  Definition sval (t : @tableau R) : Prop := valid m N T0 p0 (tib t) (el (ta t)) (vel (tb t)).

  Lemma sweepA_ok t np na : swf m N t -> sval t -> (np < m)%nat -> (na < length (tin t))%nat -> el (ta t) np (nth na (tin t) O) <> 0 ->
    exists a b, _zLPTableauSweepA t np na = Ok (Tab a b (tc t) (td t) (tib t) (tin t) (tir t)) /\ nr a = m /\ nc a = nc (ta t) /\ vlen b = m /\
      (forall i j, (i < m)%nat -> (j < N)%nat -> el a i j = pivT (el (ta t)) np (nth na (tin t) O) i j) /\
      (forall i, (i < m)%nat -> vel b i = pivp (el (ta t)) (vel (tb t)) np (nth na (tin t) O) i).
  Proof.
    intros W V Hp Hna D. pose proof (swf_nodup _ _ _ W) as ND. pose proof (fun c => swf_in m N t c W) as IN. destruct W as [W1 W2 W3 _ W5 W4 _].
    pose proof (v_unit _ _ _ _ _ _ _ V) as U. clear V.
    destruct t as [A b c d ib inn ir]; cbn [ta tb tc td tib tin tir] in *. subst ir. set (T := el A) in *. set (s := nth na inn O) in *.
    assert (NDi : NoDup inn) by (eapply nodup_app_r; eauto).
    assert (Li : forall c, In c inn -> (c < nc A)%nat) by (intros k Hk; assert (k < N)%nat by (apply IN; apply in_or_app; auto); lia).
    assert (Is : In s inn) by now apply nth_In.
    assert (Hpb : (np < length ib)%nat) by lia.
    set (q := bc ib np). assert (Iq : In q ib) by now apply bc_in.
    assert (Lq : (q < nc A)%nat) by (assert (q < N)%nat by (apply IN; apply in_or_app; auto); lia).
    assert (Nq : ~ In q inn) by (eapply nodup_app_dis; eauto).
    assert (OT : forall i k, (i < m)%nat -> (k < N)%nat -> k <> q -> ~ In k inn -> T i k = pivT T np s i k).
    { intros i k Hi Hc N2 N3. assert (I : In k ib). { apply IN in Hc. apply in_app_or in Hc. tauto. }
      apply in_bc in I. destruct I as (l & Hl & E). assert (l <> np) by (intros ->; apply N2; symmetry; exact E). subst k. unfold pivT. rewrite (U np l) by lia. nbt; try lia.
      - subst i. rewrite (U np l) by lia. nbt; try lia. unfold Rdiv. ring.
      - unfold Rdiv. ring. }
    unfold _zLPTableauSweepA. cbn [ta tb tc td tib tin tir]. rewrite get_seq by auto. cbn [bind].
    rewrite (get_ok inn na O) by auto. cbn [bind]. fold s. rewrite (get_ok ib np O) by auto. cbn [bind]. change (nth np ib O) with q.
    rewrite mget_ok by (rewrite ?W1; auto). cbn [bind]. fold T.
    match goal with |- context [for_ 0 (length inn) ?f A] => destruct (idx_loop A np inn f (fun c => T np c / T np s)) as (a1 & E1 & S1 & S2 & P1 & P2); auto end.
    { lia. }
    { intros j m' Hj R1 R2 R3. rewrite (get_ok inn j O) by auto. cbn [bind]. assert (In (nth j inn O) inn) by now apply nth_In.
      rewrite mmod_ok by (rewrite ?R1, ?R2; auto; lia). rewrite R3 by (right; now apply nodup_firstn). reflexivity. }
    rewrite E1. cbn [bind].
    rewrite mmod_ok, mset_ok by lia. cbn [bind]. 
    rewrite vmod_ok, vset_ok by lia. cbn [bind]. rewrite seq_length.
    match goal with |- context [for_ 0 m ?f (?a0, ?b0)] => set (a2 := a0); set (b2 := b0);
      destruct (for_inv (fun k (ab : fmat R * fvec R) => nr (fst ab) = m /\ nc (fst ab) = nc A /\ vlen (snd ab) = m /\
        (forall i c, (i < m)%nat -> (c < N)%nat -> el (fst ab) i c = if (i =? np)%nat || (i <? k)%nat then pivT T np s i c else T i c) /\
        (forall i, (i < m)%nat -> vel (snd ab) i = if (i =? np)%nat || (i <? k)%nat then pivp T (vel b) np s i else vel b i)) 0 m f (a2, b2)) as ((a3 & b3) & E3 & Q); [lia| | |] end.
    - unfold a2, b2. cbn [fst snd nr nc el vlen vel]. conjs; auto; try lia.
      + intros i k Hi Hc. destruct (Nat.eqb_spec i np) as [->|Ni]; cbn [andb orb Nat.ltb Nat.leb].
        * destruct (Nat.eqb_spec k q) as [->|Nc2]; cbn [andb].
          { rewrite P2 by (right; auto). unfold pivT. rewrite Nat.eqb_refl. reflexivity. }
          destruct (in_dec Nat.eq_dec k inn).
          { rewrite P1 by auto. unfold pivT. rewrite Nat.eqb_refl. reflexivity. }
          rewrite P2 by (right; auto). now apply OT.
        * rewrite P2 by (left; auto). reflexivity.
      + intros i Hi. unfold pivp. nbt; subst; cbn [orb]; auto; rs; auto; lia.
    - intros k (a & b') Hk (I1 & I2 & I3 & I4 & I5). cbn [fst snd] in *.
      destruct (Nat.eqb_spec k np) as [->|Nk].
      { eexists. split; [reflexivity|]. cbn [fst snd]. conjs; auto.
        - intros i k Hi Hc. rewrite I4 by auto. nbp.
        - intros i Hi. rewrite I5 by auto. nbp. }
      rewrite get_seq by lia. cbn [bind].
      assert (Ls : (s < N)%nat) by (apply IN; apply in_or_app; auto).
      rewrite mget_ok by lia. cbn [bind].
      assert (Ks : el a k s = T k s). { rewrite I4 by (auto; lia). nbp. }
      rewrite Ks.
      match goal with |- context [for_ 0 (length inn) ?f a] => destruct (idx_loop a k inn f (fun c => pivT T np s k c)) as (a4 & E4 & S3 & S4 & P3 & P4); auto end.
      { intros; rewrite I2; auto. } { lia. }
      { intros j m' Hj R1 R2 R3. rewrite (get_ok inn j O) by auto. cbn [bind]. assert (Ij : In (nth j inn O) inn) by now apply nth_In.
        pose proof (Li _ Ij) as Lj. assert (nth j inn O < N)%nat by (apply IN; apply in_or_app; auto).
        rewrite mget_ok by (rewrite ?R1, ?R2; lia). cbn [bind]. rewrite (R3 np) by (left; auto).
        rewrite mmod_ok by (rewrite ?R1, ?R2; lia). rewrite (R3 k) by (right; now apply nodup_firstn).
        rewrite !I4 by lia. rewrite Nat.eqb_refl. cbn [orb]. unfold pivT. rewrite Nat.eqb_refl. nbp. }
      rewrite E4. cbn [bind]. rewrite mget_ok by lia. cbn [bind]. rewrite mmod_ok, mset_ok by lia. cbn [bind].
      rewrite vget_ok by lia. cbn [bind]. rewrite vmod_ok, vset_ok by lia. cbn [bind].
      assert (LqN : (q < N)%nat) by (apply IN; apply in_or_app; auto).
      eexists. split; [reflexivity|]. cbn [fst snd nr nc el vlen vel]. conjs; auto; try lia.
      + intros i l Hi Hc. destruct (Nat.eqb_spec i k) as [->|Ni]; cbn [andb].
        * replace ((k =? np)%nat || (k <? S k)%nat) with true by nbp.
          destruct (Nat.eqb_spec l q) as [->|Nc2].
          { rewrite !P4 by auto. rewrite !I4 by lia. rewrite Nat.eqb_refl. cbn [orb]. replace ((k =? np)%nat || (k <? k)%nat) with false by nbp.
            unfold pivT. rewrite Nat.eqb_refl. nbt; try lia. rs. reflexivity. }
          destruct (in_dec Nat.eq_dec l inn).
          { now rewrite P3. }
          rewrite P4 by (right; auto). rewrite I4 by lia. replace ((k =? np)%nat || (k <? k)%nat) with false by nbp. now apply OT.
        * rewrite P4 by (left; auto). rewrite I4 by lia. nbp.
      + intros i Hi. destruct (Nat.eqb_spec i k) as [->|Ni].
        * rewrite !I5 by lia. rewrite Nat.eqb_refl. cbn [orb]. unfold pivp. rewrite Nat.eqb_refl. rs. nbp.
        * rewrite I5 by lia. nbp.
    - rewrite E3. cbn [bind]. exists a3, b3. destruct Q as (I1 & I2 & I3 & I4 & I5). cbn [fst snd] in *. split; [reflexivity|]. conjs; auto; try lia.
      + intros i j Hi Hj. rewrite I4 by lia. replace (i <? m)%nat with true by nbp. now rewrite Bool.orb_true_r.
      + intros i Hi. rewrite I5 by lia. replace (i <? m)%nat with true by nbp. now rewrite Bool.orb_true_r.
  Qed.

  (** elimination and exchange *)
  Lemma exchange_ok t np na : swf m N t -> sval t -> (np < m)%nat -> (na < length (tin t))%nat -> el (ta t) np (nth na (tin t) O) <> 0 ->
    exists t1 t2, _zLPTableauSweepA t np na = Ok t1 /\ _zLPTableauSwapPivot t1 np na = Ok t2 /\ swf m N t2 /\ sval t2 /\
      tc t2 = tc t /\ td t2 = td t /\ nc (ta t2) = nc (ta t) /\ length (tin t2) = length (tin t) /\
      tib t2 = upd (tib t) np (nth na (tin t) O) /\
      (forall i j, (i < m)%nat -> (j < N)%nat -> el (ta t2) i j = pivT (el (ta t)) np (nth na (tin t) O) i j) /\
      (forall i, (i < m)%nat -> vel (tb t2) i = pivp (el (ta t)) (vel (tb t)) np (nth na (tin t) O) i).
  Proof.
    intros W V Hp Hna D. destruct (sweepA_ok t np na W V Hp Hna D) as (a & b & E & S1 & S2 & S3 & Ea & Eb).
    pose proof (swf_in m N t (nth na (tin t) O) W) as IN. pose proof (swf_nodup _ _ _ W) as ND.
    destruct W as [W1 W2 W3 W4 W5 W6 W7].
    eexists _, _. split; [exact E|]. unfold _zLPTableauSwapPivot. cbn [ta tb tc td tib tin tir].
    rewrite (get_ok _ na O) by auto. cbn [bind]. rewrite (get_ok _ np O) by lia. cbn [bind]. rewrite !set_ok by lia. cbn [bind].
    split; [reflexivity|]. cbn [ta tb tc td tib tin tir]. conjs; auto.
    - split; cbn [ta tb tc td tib tin tir]; auto; try lia. { now rewrite upd_length. }
      eapply perm_trans; [|exact W7]. set (s := nth na (tin t) O) in *. set (v := nth np (tib t) O).
      pose proof (upd_perm (tib t) np s ltac:(lia)) as P1. pose proof (upd_perm (tin t) na v ltac:(lia)) as P2. fold s in P2. fold v in P1.
      apply Permutation_cons_inv with (a := s). symmetry.
      change (s :: tib t ++ tin t) with ((s :: tib t) ++ tin t).
      eapply perm_trans; [apply Permutation_app_tail, P1|]. cbn [app]. eapply perm_trans; [apply Permutation_middle|].
      eapply perm_trans; [apply Permutation_app_head, P2|]. symmetry. apply Permutation_middle.
    - unfold sval. cbn [ta tb tib]. apply valid_ext with (T := pivT (el (ta t)) np (nth na (tin t) O)) (p := pivp (el (ta t)) (vel (tb t)) np (nth na (tin t) O)); auto.
      apply piv_valid; auto. apply IN. apply in_or_app. right. now apply nth_In.
    - now rewrite upd_length.
  Qed.

  Lemma sweepC1_ok t p : swf m N t -> sval t -> (p < m)%nat -> exists c d, _zLPTableauSweepC1 t p = Ok (Tab (ta t) (tb t) c d (tib t) (tin t) (tir t)) /\
    vlen c = vlen (tc t) /\ (forall j, (j < N)%nat -> vel c j = vel (tc t) j - el (ta t) p j * vel (tc t) (bc (tib t) p)) /\
    d = td t + vel (tb t) p * vel (tc t) (bc (tib t) p).
  Proof.
    intros W V Hp. pose proof (swf_nodup _ _ _ W) as ND. pose proof (fun c => swf_in m N t c W) as IN. destruct W as [W1 W2 W3 W4 W5 W6 _].
    pose proof (v_unit _ _ _ _ _ _ _ V) as U.
    unfold _zLPTableauSweepC1. rewrite (get_ok _ p O) by lia. cbn [bind]. rewrite W5, get_seq by auto. cbn [bind].
    change (nth p (tib t) O) with (bc (tib t) p). set (q := bc (tib t) p).
    assert (Iq : In q (tib t)) by (apply bc_in; lia). assert (Lq : (q < N)%nat) by (apply IN; apply in_or_app; auto).
    assert (Li : forall c, In c (tin t) -> (c < N)%nat) by (intros; apply IN; apply in_or_app; auto).
    rewrite vget_ok by lia. cbn [bind].
    match goal with |- context [for_ 0 (length (tin t)) ?f (tc t)] => destruct (vidx_loop (tc t) (tin t) f (fun j => vel (tc t) j - el (ta t) p j * vel (tc t) q)) as (c & E & L & P1 & P2); auto end.
    { eapply nodup_app_r; eauto. } { intros c Hc. specialize (Li c Hc). lia. }
    { intros j v' Hj Lv R. rewrite (get_ok _ j O) by auto. cbn [bind]. assert (Ij : In (nth j (tin t) O) (tin t)) by now apply nth_In. specialize (Li _ Ij).
      rewrite mget_ok by lia. cbn [bind]. rewrite vmod_ok by lia. rewrite R by (apply nodup_firstn; auto; eapply nodup_app_r; eauto). reflexivity. }
    rewrite E. cbn [bind]. rewrite vget_ok by lia. cbn [bind]. rewrite vset_ok by lia. cbn [bind].
    eexists _, _. split; [reflexivity|]. cbn [vlen vel]. conjs; auto.
    intros j Hj. destruct (Nat.eqb_spec j q) as [->|Nj].
    - unfold q. rewrite U by auto. rewrite Nat.eqb_refl. rs. ring.
    - destruct (in_dec Nat.eq_dec j (tin t)); [now rewrite P1|]. rewrite P2 by auto.
      assert (I : In j (tib t)). { apply IN in Hj. apply in_app_or in Hj. tauto. }
      apply in_bc in I. destruct I as (k & Hk & Ek). rewrite <- Ek. rewrite U by lia. destruct (Nat.eqb_spec p k); [subst; exfalso; apply Nj; reflexivity|]. ring.
  Qed.

  (** the cost of the solutions is kept *)
  Lemma sweepC1_costs t p c0 c : sval t -> (p < m)%nat -> costs m N (el (ta t)) (vel (tb t)) c0 (vel (tc t)) (td t) ->
    (forall j, (j < N)%nat -> vel c j = vel (tc t) j - el (ta t) p j * vel (tc t) (bc (tib t) p)) ->
    costs m N (el (ta t)) (vel (tb t)) c0 (vel c) (td t + vel (tb t) p * vel (tc t) (bc (tib t) p)).
  Proof.
    intros V Hp C H x S. rewrite (C x S). rewrite (rsum_ext N (fun j => vel c j * x j) (fun j => vel (tc t) j * x j - vel (tc t) (bc (tib t) p) * (el (ta t) p j * x j))).
    - rewrite rsum_sub, rsum_scal, (S p Hp). ring.
    - intros j Hj. rewrite H by auto. ring.
  Qed.
  Definition swept (t : @tableau R) (k : nat) : Prop := forall i, (i < k)%nat -> vel (tc t) (bc (tib t) i) = 0.
  Lemma sweepC_ok t c0 : swf m N t -> sval t -> costs m N (el (ta t)) (vel (tb t)) c0 (vel (tc t)) (td t) ->
    exists c d, _zLPTableauSweepC t = Ok (Tab (ta t) (tb t) c d (tib t) (tin t) (tir t)) /\ vlen c = vlen (tc t) /\
      costs m N (el (ta t)) (vel (tb t)) c0 (vel c) d /\ forall i, (i < m)%nat -> vel c (bc (tib t) i) = 0.
  Proof.
    intros W V C. unfold _zLPTableauSweepC. rewrite (s_ib _ _ _ W).
    destruct (for_inv (fun k t' => exists c d, t' = Tab (ta t) (tb t) c d (tib t) (tin t) (tir t) /\ vlen c = vlen (tc t) /\
      costs m N (el (ta t)) (vel (tb t)) c0 (vel c) d /\ forall i, (i < k)%nat -> vel c (bc (tib t) i) = 0) 0 m (fun i tab => _zLPTableauSweepC1 tab i) t) as (t' & E & c & d & -> & P); [lia| | |].
    - exists (tc t), (td t). destruct t; conjs; auto. intros; lia.
    - intros k t' Hk (c & d & -> & L & C1 & Z). set (t1 := Tab (ta t) (tb t) c d (tib t) (tin t) (tir t)).
      assert (W1 : swf m N t1) by (destruct W; split; auto; cbn; lia).
      destruct (sweepC1_ok t1 k W1 V) as (c' & d' & E' & L' & P & ->); [lia|].
      cbn [t1 ta tb tc td tib tin tir] in *.
      eexists. split; [exact E'|]. eexists _, _. split; [reflexivity|]. conjs; [lia| |].
      + apply (sweepC1_costs t1 k c0 c' V); auto; lia.
      + intros i Hi. rewrite P by (apply (v_lt _ _ _ _ _ _ _ V); lia). rewrite (v_unit _ _ _ _ _ _ _ V) by lia.
        destruct (Nat.eqb_spec k i); [subst; ring|]. rewrite (Z i) by lia. ring.
    - rewrite E. exists c, d. tauto.
  Qed.
End Simplex.
