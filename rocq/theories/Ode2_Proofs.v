(** Consequences of the Runge-Kutta equations: polynomials and linear systems; checking of tableaux. *)
From Coq Require Import Reals Lra Lia Psatz QArith Qreals.
From Coquelicot Require Import Coquelicot.
From Verif Require Import Prelude Prelude_Proofs Scalar RealLib Fmat Fmat_Proofs Pex_Spec Pex_Proofs Ode_Model Ode_Spec Ode_Proofs.
Local Open Scope R_scope.

(** *** polynomial right-hand sides *)
Lemma shift_coef t dt p : exists g : nat -> R, forall s, peval p (t + s * dt) = rsum (length p) (fun k => g k * s ^ k).
Proof.
  induction p as [|a p (g & IH)].
  - exists (fun _ => 0). intros s. reflexivity.
  - exists (fun k => (if (k =? 0)%nat then a else 0) + (if (k <? length p)%nat then t * g k else 0)
                     + match k with O => 0 | S k => dt * g k end).
    intros s. rewrite peval_cons, IH. cbn [length].
    transitivity (rsum (S (length p)) (fun k => (if (k =? 0)%nat then a else 0) * s ^ k)
       + rsum (S (length p)) (fun k => (if (k <? length p)%nat then t * g k else 0) * s ^ k)
       + rsum (S (length p)) (fun k => match k with O => 0 | S k => dt * g k end * s ^ k)).
    2:{ rewrite <- !rsum_add. apply rsum_ext. intros; ring. }
    rewrite (rsum_S_l (length p) (fun k => (if (k =? 0)%nat then a else 0) * s ^ k)).
    rewrite (rsum_S_l (length p) (fun k => match k with O => 0 | S k => dt * g k end * s ^ k)).
    rewrite (rsum_cut (S (length p)) (length p) (fun k => (if (k <? length p)%nat then t * g k else 0) * s ^ k)); [|lia|].
    2:{ intros i Hi. destruct (Nat.ltb_spec i (length p)); [lia|ring]. }
    rewrite (rsum_0 (length p) (fun k => (if (S k =? 0)%nat then a else 0) * s ^ S k)) by (intros; cbn; ring).
    rewrite (rsum_ext (length p) (fun k => (if (k <? length p)%nat then t * g k else 0) * s ^ k) (fun k => t * (g k * s ^ k))).
    2:{ intros i Hi. destruct (Nat.ltb_spec i (length p)); [ring|lia]. }
    rewrite (rsum_ext (length p) (fun k => dt * g k * s ^ S k) (fun k => (s * dt) * (g k * s ^ k))) by (intros; cbn; ring).
    rewrite !rsum_scal. cbn [Nat.eqb pow]. ring.
Qed.
Lemma int_pow k : is_RInt (fun y => y ^ k) 0 1 (1 / INR (S k)).
Proof.
  assert (H0 : INR (S k) <> 0) by (apply not_0_INR; lia).
  replace (1 / INR (S k)) with (1 ^ S k / INR (S k) - 0 ^ S k / INR (S k)).
  2:{ rewrite pow1. cbn [pow]. field. auto. }
  apply (is_RInt_derive (fun y => y ^ S k / INR (S k))).
  - intros x _. apply (is_derive_ext (fun y => / INR (S k) * y ^ S k)). { intros y. unfold Rdiv. apply Rmult_comm. }
    replace (x ^ k) with (/ INR (S k) * (INR (S k) * x ^ k)) by (rewrite <- Rmult_assoc, Rinv_l by auto; apply Rmult_1_l).
    apply is_derive_scal. apply is_derive_Reals. exact (derivable_pt_lim_pow x (S k)).
  - intros x _. apply continuity_pt_filterlim. apply derivable_continuous_pt. apply derivable_pt_pow.
Qed.

Lemma int_sum N g : is_RInt (fun y => rsum N (fun k => g k * y ^ k)) 0 1 (rsum N (fun k => g k * (1 / INR (S k)))).
Proof.
  induction N.
  - cbn. refine (eq_ind _ (fun v : R => is_RInt (fun _ : R => 0) 0 1 v) (is_RInt_const (V:=R_NormedModule) 0 1 0) 0 _).
    apply Rmult_0_r.
  - cbn [rsum]. apply (is_RInt_plus (V:=R_NormedModule)); [exact IHN|].
    apply (is_RInt_scal (V:=R_NormedModule) (fun y => y ^ N) 0 1 (g N) (1 / INR (S N))). apply int_pow.
Qed.
Lemma cont_peval p x : continuous (peval p) x.
Proof.
  apply (ex_derive_continuous (peval p)). eexists. apply is_derive_peval.
Qed.
Lemma quad_exact (s q : nat) (b c : nat -> R) p t dt :
  (forall k, (k < q)%nat -> rsum s (fun j => b j * c j ^ k) = 1 / INR (S k)) -> (length p <= q)%nat ->
  dt * rsum s (fun j => b j * peval p (t + c j * dt)) = RInt (peval p) t (t + dt).
Proof.
  intros Q L. destruct (shift_coef t dt p) as (g & G).
  rewrite (rsum_ext s (fun j => b j * peval p (t + c j * dt))
             (fun j => rsum (length p) (fun k => g k * (b j * c j ^ k)))).
  2:{ intros j Hj. rewrite G, <- rsum_scal. apply rsum_ext. intros; ring. }
  rewrite rsum_swap.
  rewrite (rsum_ext (length p) _ (fun k => g k * (1 / INR (S k)))).
  2:{ intros k Hk. rewrite rsum_scal, Q by lia. reflexivity. }
  rewrite <- (is_RInt_unique _ _ _ _ (int_sum (length p) g)).
  replace t with (dt * 0 + t) at 1 by ring. replace (t + dt) with (dt * 1 + t) by ring.
  rewrite <- (RInt_comp_lin (peval p) dt t 0 1).
  2:{ apply (ex_RInt_continuous (peval p)). intros z _. apply cont_peval. }
  rewrite (RInt_scal (V:=R_CompleteNormedModule) (fun y => peval p (dt * y + t))).
  2:{ apply (ex_RInt_continuous (V:=R_CompleteNormedModule)). intros z _.
      apply (continuous_comp (fun y => dt * y + t) (peval p)); [|apply cont_peval].
      apply (ex_derive_continuous (fun y => dt * y + t)). auto_derive. auto. }
  change scal with Rmult. f_equal.
  apply RInt_ext. intros y _. rewrite Rplus_comm, (Rmult_comm dt y). symmetry. apply G.
Qed.
Lemma rk_poly n m q p t x dt x' :
  (forall k, (k < q)%nat -> bdot m (fun j => tc m j ^ k) = 1 / INR (S k)) ->
  (forall i, (i < n)%nat -> (length (p i) <= q)%nat) ->
  rk_step n (poly_rhs n p) m t x dt x' ->
  forall i, (i < n)%nat -> vel x' i = vel x i + RInt (peval (p i)) t (t + dt).
Proof.
  intros Q L (k & HK & HX) i Hi. rewrite HX by auto. f_equal.
  rewrite <- (quad_exact (stages m) q (tb m) (tc m) (p i) t dt Q (L i Hi)). f_equal.
  apply rsum_ext. intros j Hj. rewrite (HK j Hj i Hi). reflexivity.
Qed.
Lemma order_quad m p : match p with 1 => order1 m | 2 => order2 m | 3 => order3 m | 4 => order4 m | 5 => order5 m | _ => False end%nat ->
  forall k, (k < p)%nat -> bdot m (fun j => tc m j ^ k) = 1 / INR (S k).
Proof.
  assert (E0 : bdot m (fun j => tc m j ^ 0) = bdot m (fun _ => 1)) by (apply rsum_ext; intros; reflexivity).
  assert (E1 : bdot m (fun j => tc m j ^ 1) = bdot m (tc m)) by (apply rsum_ext; intros; f_equal; apply pow_1).
  destruct p as [|[|[|[|[|[|p]]]]]]; try contradiction; unfold order5, order4, order3, order2, order1; intros H k Hk;
   repeat (destruct k as [|k]; [try (rewrite E0); try (rewrite E1); cbn [INR]; lra|]); lia.
Qed.

(** *** linear systems *)
Fixpoint amp (m : tableau) (q : nat) : nat -> R := match q with O => fun _ => 1 | S q => am m (amp m q) end.
Definition explicit (m : tableau) : Prop :=
  forall i j, (i < stages m)%nat -> (i <= j)%nat -> (j < stages m)%nat -> ta m i j = 0.
Lemma amp_low m q j : explicit m -> (j < stages m)%nat -> (j < q)%nat -> amp m q j = 0.
Proof.
  intros X. revert j. induction q; [lia|]. intros j Hj Hq. cbn. unfold am. apply rsum_0. intros l Hl.
  destruct (le_lt_dec j l).
  - rewrite X by lia. ring.
  - rewrite IHq by lia. ring.
Qed.
Lemma rk_linear n A m t x dt x' : explicit m -> rk_step n (lin_rhs n A) m t x dt x' ->
  forall i, (i < n)%nat ->
    vel x' i = vel x i + rsum (stages m) (fun q => dt ^ S q * bdot m (amp m q) * apow n A (S q) (vel x) i).
Proof.
  intros X (k & HK & HX).
  set (U := fun q => apow n A q (vel x)).
  assert (KE : forall j, (j < stages m)%nat -> forall i, (i < n)%nat ->
      vel (k j) i = rsum (stages m) (fun q => dt ^ q * amp m q j * U (S q) i)).
  { intros j. induction j as [j IH] using (well_founded_induction lt_wf). intros Hj i Hi.
    rewrite (HK j Hj i Hi). cbn [lin_rhs vel].
    rewrite (rsum_ext n _ (fun r => A i r * vel x r + dt * rsum (stages m) (fun l => ta m j l * (A i r * vel (k l) r)))).
    2:{ intros r Hr. rewrite Rmult_plus_distr_l. f_equal.
        transitivity (dt * (A i r * rsum (stages m) (fun l => ta m j l * vel (k l) r))); [ring|]. f_equal.
        rewrite <- rsum_scal. apply rsum_ext. intros; ring. }
    rewrite rsum_add, rsum_scal, rsum_swap.
    rewrite (rsum_ext (stages m) _ (fun l => rsum (stages m) (fun q => dt ^ q * (ta m j l * amp m q l) * U (S (S q)) i))).
    2:{ intros l Hl. rewrite rsum_scal. destruct (le_lt_dec j l).
        - rewrite X by lia. rewrite Rmult_0_l. symmetry. apply rsum_0. intros; ring.
        - rewrite (rsum_ext n _ (fun r => rsum (stages m) (fun q => dt ^ q * amp m q l * (A i r * U (S q) r)))).
          2:{ intros r Hr. rewrite IH by lia. rewrite <- rsum_scal. apply rsum_ext; intros; ring. }
          rewrite rsum_swap, <- rsum_scal. apply rsum_ext. intros q Hq.
          rewrite rsum_scal. cbn [U apow]. unfold U. cbn [apow]. ring. }
    rewrite rsum_swap.
    transitivity (rsum (S (stages m)) (fun q => dt ^ q * amp m q j * U (S q) i)).
    2:{ cbn [rsum]. rewrite (amp_low m (stages m) j) by auto. ring. }
    rewrite rsum_S_l. f_equal.
    - cbn. unfold U; cbn. ring.
    - rewrite <- rsum_scal. apply rsum_ext. intros q Hq. cbn [amp]. unfold am.
      rewrite (rsum_ext _ _ (fun i0 => (dt ^ q * U (S (S q)) i) * (ta m j i0 * amp m q i0))) by (intros; ring).
      rewrite rsum_scal. cbn [pow]. ring. }
  intros i Hi. rewrite HX by auto. f_equal.
  rewrite (rsum_ext _ _ (fun j => rsum (stages m) (fun q => dt ^ q * (tb m j * amp m q j) * U (S q) i))).
  2:{ intros j Hj. rewrite KE by auto. rewrite <- rsum_scal. apply rsum_ext; intros; ring. }
  rewrite rsum_swap, <- rsum_scal. apply rsum_ext. intros q Hq. unfold bdot.
  rewrite (rsum_ext _ _ (fun i0 => (dt ^ q * U (S q) i) * (tb m i0 * amp m q i0))) by (intros; ring).
  rewrite rsum_scal. unfold U. cbn [pow]. ring.
Qed.

(** *** tableaux of rational numbers *)
Fixpoint sumQ (n : nat) (g : nat -> Q) : Q := match n with O => 0%Q | S n => Qred (sumQ n g + g n)%Q end.
Record tabQ := TabQ { qa : list (list Q); qb : list Q; qc : list Q }.
Definition ofQ (m : tabQ) : tableau := tab_of (map (map Q2R) (qa m)) (map Q2R (qb m)) (map Q2R (qc m)).
Section QCond.
  Variable m : tabQ.
  Let s := length (qb m).
  Definition qta i j : Q := nth j (nth i (qa m) []) 0%Q.
  Definition memo (v : nat -> Q) : nat -> Q := let l := map v (List.seq 0 s) in fun i => nth i l 0%Q.
  Definition amQ (v : nat -> Q) (i : nat) : Q := sumQ s (fun j => qta i j * v j)%Q.
  Definition bdotQ (v : nat -> Q) : Q := sumQ s (fun i => nth i (qb m) 0 * v i)%Q.
End QCond.
Lemma Q2R_0' : Q2R 0 = 0. Proof. unfold Q2R. cbn. lra. Qed.
Lemma Q2R_red q : Q2R (Qred q) = Q2R q. Proof. apply Qeq_eqR, Qred_correct. Qed.
Lemma sumQ_R n g h : (forall i, (i < n)%nat -> h i = Q2R (g i)) -> rsum n h = Q2R (sumQ n g).
Proof.
  induction n; intros H.
  - symmetry. apply Q2R_0'.
  - cbn [rsum sumQ]. rewrite Q2R_red, Q2R_plus, <- H by lia. rewrite IHn; [reflexivity|]. intros; apply H; lia.
Qed.
Lemma ofQ_stages m : stages (ofQ m) = length (qb m). Proof. cbn. apply map_length. Qed.
Lemma nth_mapQ i l : nth i (map Q2R l) 0 = Q2R (nth i l 0%Q).
Proof. rewrite <- Q2R_0' at 1. apply map_nth. Qed.
Lemma ofQ_ta m i j : ta (ofQ m) i j = Q2R (qta m i j).
Proof.
  unfold ofQ, qta. cbn. change [] with (map Q2R []) at 1. rewrite map_nth. apply nth_mapQ.
Qed.
Lemma am_Q m v w : (forall i, (i < length (qb m))%nat -> v i = Q2R (w i)) -> forall i, am (ofQ m) v i = Q2R (amQ m w i).
Proof.
  intros H i. unfold am, amQ. rewrite ofQ_stages. apply sumQ_R. intros j Hj.
  rewrite ofQ_ta, H, Q2R_mult by auto. reflexivity.
Qed.
Lemma bdot_Q m v w : (forall i, (i < length (qb m))%nat -> v i = Q2R (w i)) -> bdot (ofQ m) v = Q2R (bdotQ m w).
Proof.
  intros H. unfold bdot, bdotQ. rewrite ofQ_stages. apply sumQ_R. intros j Hj.
  rewrite H, Q2R_mult by auto. f_equal. apply nth_mapQ.
Qed.
Lemma tc_Q m i : tc (ofQ m) i = Q2R (nth i (qc m) 0%Q). Proof. apply nth_mapQ. Qed.
Lemma memo_ok m v i : (i < length (qb m))%nat -> memo m v i = v i.
Proof.
  intros H. unfold memo. rewrite (nth_indep _ 0%Q (v 0%nat)) by (rewrite map_length, seq_length; auto).
  rewrite map_nth, seq_nth by auto. f_equal.
Qed.
Fixpoint qpow (q : Q) (k : nat) : Q := match k with O => 1%Q | S k => (q * qpow q k)%Q end.
Lemma Q2R_pow q k : Q2R (qpow q k) = Q2R q ^ k.
Proof. induction k; cbn [qpow pow]; [unfold Q2R; cbn; lra|]. rewrite Q2R_mult, IHk. reflexivity. Qed.
Lemma Q2R_frac a b : Q2R (a # b) = IZR a / IZR (Zpos b). Proof. reflexivity. Qed.

Definition rep (m : tabQ) (v : nat -> R) (w : nat -> Q) : Prop := forall i, (i < length (qb m))%nat -> v i = Q2R (w i).
Lemma rep_am m v w : rep m v w -> rep m (am (ofQ m) v) (memo m (amQ m w)).
Proof. intros H i Hi. rewrite memo_ok by auto. apply am_Q; auto. Qed.
Lemma rep_c m : rep m (tc (ofQ m)) (fun i => nth i (qc m) 0%Q). Proof. intros i _. apply tc_Q. Qed.
Lemma rep_pow m v w k : rep m v w -> rep m (fun i => v i ^ k) (fun i => qpow (w i) k).
Proof. intros H i Hi. rewrite Q2R_pow, H; auto. Qed.
Lemma rep_mul m v w v' w' : rep m v w -> rep m v' w' -> rep m (fun i => v i * v' i) (fun i => (w i * w' i)%Q).
Proof. intros H H' i Hi. rewrite Q2R_mult, H, H'; auto. Qed.
Lemma rep_1 m : rep m (fun _ => 1) (fun _ => 1%Q). Proof. intros i _. unfold Q2R; cbn. lra. Qed.
Lemma bdot_rep m v w a b : rep m v w -> (bdotQ m w == a # b)%Q -> bdot (ofQ m) v = IZR a / IZR (Zpos b).
Proof. intros H E. rewrite (bdot_Q m v w H), (Qeq_eqR _ _ E). reflexivity. Qed.

Definition cQ (m : tabQ) (i : nat) : Q := nth i (qc m) 0%Q.
Definition acQ (m : tabQ) : nat -> Q := memo m (amQ m (cQ m)).
Definition order1b (m : tabQ) : bool := Qeq_bool (bdotQ m (fun _ => 1%Q)) 1.
Definition order2b (m : tabQ) : bool := order1b m && Qeq_bool (bdotQ m (cQ m)) (1 # 2).
Definition order3b (m : tabQ) : bool := order2b m &&
  Qeq_bool (bdotQ m (fun i => qpow (cQ m i) 2)) (1 # 3) && Qeq_bool (bdotQ m (acQ m)) (1 # 6).
Definition order4b (m : tabQ) : bool := order3b m &&
  Qeq_bool (bdotQ m (fun i => qpow (cQ m i) 3)) (1 # 4) && Qeq_bool (bdotQ m (fun i => cQ m i * acQ m i)%Q) (1 # 8) &&
  Qeq_bool (bdotQ m (memo m (amQ m (fun i => qpow (cQ m i) 2)))) (1 # 12) &&
  Qeq_bool (bdotQ m (memo m (amQ m (acQ m)))) (1 # 24).
Definition order5b (m : tabQ) : bool := order4b m &&
  Qeq_bool (bdotQ m (fun i => qpow (cQ m i) 4)) (1 # 5) &&
  Qeq_bool (bdotQ m (fun i => qpow (cQ m i) 2 * acQ m i)%Q) (1 # 10) &&
  Qeq_bool (bdotQ m (fun i => cQ m i * memo m (amQ m (fun j => qpow (cQ m j) 2)) i)%Q) (1 # 15) &&
  Qeq_bool (bdotQ m (fun i => cQ m i * memo m (amQ m (acQ m)) i)%Q) (1 # 30) &&
  Qeq_bool (bdotQ m (fun i => qpow (acQ m i) 2)) (1 # 20) &&
  Qeq_bool (bdotQ m (memo m (amQ m (fun i => qpow (cQ m i) 3)))) (1 # 20) &&
  Qeq_bool (bdotQ m (memo m (amQ m (fun i => cQ m i * acQ m i)%Q))) (1 # 40) &&
  Qeq_bool (bdotQ m (memo m (amQ m (memo m (amQ m (fun i => qpow (cQ m i) 2)))))) (1 # 60) &&
  Qeq_bool (bdotQ m (memo m (amQ m (memo m (amQ m (acQ m)))))) (1 # 120).
Ltac rp := repeat first [apply rep_pow | apply rep_mul | apply rep_am | apply rep_c | apply rep_1].
Ltac obs := match goal with H : Qeq_bool _ (?a # ?b) = true |- _ = _ =>
  apply Qeq_bool_eq in H; eapply (bdot_rep _ _ _ a b); [|exact H]; rp end.
Ltac spl H := apply andb_prop in H; let H1 := fresh "B" in destruct H as [H H1].
Lemma order1_Q m : order1b m = true -> order1 (ofQ m).
Proof.
  unfold order1b, order1. intros H. apply Qeq_bool_eq in H.
  rewrite (bdot_Q m _ _ (rep_1 m)), (Qeq_eqR _ _ H). unfold Q2R. cbn. lra.
Qed.
Lemma order2_Q m : order2b m = true -> order2 (ofQ m).
Proof. unfold order2b. intros H. spl H. split; [apply order1_Q; auto|]. obs. Qed.
Lemma order3_Q m : order3b m = true -> order3 (ofQ m).
Proof.
  unfold order3b. intros H. do 2 spl H. split; [apply order2_Q; auto|]. split; [clear B; obs|clear B0; obs].
Qed.
Lemma order4_Q m : order4b m = true -> order4 (ofQ m).
Proof.
  unfold order4b. intros H. do 4 spl H. split; [apply order3_Q; auto|].
  split; [clear - B2; obs|]. split; [clear - B1; obs|]. split; [clear - B0; obs|]. clear - B; obs.
Qed.
Lemma order5_Q m : order5b m = true -> order5 (ofQ m).
Proof.
  unfold order5b. intros H. do 9 spl H. split; [apply order4_Q; auto|].
  split; [clear - B7; obs|]. split; [clear - B6; obs|]. split; [clear - B5; obs|]. split; [clear - B4; obs|].
  split; [clear - B3; obs|]. split; [clear - B2; obs|]. split; [clear - B1; obs|]. split; [clear - B0; obs|].
  clear - B; obs.
Qed.
Fixpoint ampQ (m : tabQ) (q : nat) : nat -> Q := match q with O => fun _ => 1%Q | S q => memo m (amQ m (ampQ m q)) end.
Lemma amp_rep m q : rep m (amp (ofQ m) q) (ampQ m q).
Proof. induction q; [apply rep_1|]. cbn. apply rep_am, IHq. Qed.
Definition row_sumsb (m : tabQ) : bool := forallb (fun i => Qeq_bool (cQ m i) (amQ m (fun _ => 1%Q) i)) (List.seq 0 (length (qb m))).
Lemma row_sums_Q m : row_sumsb m = true -> row_sums (ofQ m).
Proof.
  unfold row_sumsb. rewrite forallb_forall. intros H i Hi. rewrite ofQ_stages in Hi.
  assert (X := H i ltac:(apply in_seq; lia)). apply Qeq_bool_eq in X.
  rewrite tc_Q, (am_Q m _ _ (rep_1 m)). apply Qeq_eqR. exact X.
Qed.
Definition explicitb (m : tabQ) : bool :=
  forallb (fun i => forallb (fun j => (j <? i)%nat || Qeq_bool (qta m i j) 0) (List.seq 0 (length (qb m)))) (List.seq 0 (length (qb m))).
Lemma explicit_Q m : explicitb m = true -> explicit (ofQ m).
Proof.
  unfold explicitb. rewrite forallb_forall. intros H i j Hi Hij Hj. rewrite ofQ_stages in *.
  assert (X := H i ltac:(apply in_seq; lia)). rewrite forallb_forall in X.
  assert (Y := X j ltac:(apply in_seq; lia)). destruct (Nat.ltb_spec j i); [lia|]. cbn [orb] in Y.
  apply Qeq_bool_eq in Y. rewrite ofQ_ta, (Qeq_eqR _ _ Y). apply Q2R_0'.
Qed.

(** the tableaux as tables of rational numbers *)
Local Open Scope Q_scope.
Definition qEuler := TabQ [[0]] [1] [0].
Definition qHeun3 := TabQ [[0;0;0]; [1#3;0;0]; [0;2#3;0]] [1#4;0;3#4] [0;1#3;2#3].
Definition qRK4 := TabQ [[0;0;0;0]; [1#2;0;0;0]; [0;1#2;0;0]; [0;0;1;0]] [1#6;1#3;1#3;1#6] [0;1#2;1#2;1].
Definition qrkfA : list (list Q) := [[0;0;0;0;0;0]; [1#4;0;0;0;0;0]; [3#32;9#32;0;0;0;0]; [1932#2197;-7200#2197;7296#2197;0;0;0];
   [439#216;-8;3680#513;-845#4104;0;0]; [-8#27;2;-3544#2565;1859#4104;-11#40;0]].
Definition qrkfC : list Q := [0;1#4;3#8;12#13;1;1#2].
Definition qRKF5 := TabQ qrkfA [16#135;0;6656#12825;28561#56430;-9#50;2#55] qrkfC.
Definition qRKF4 := TabQ qrkfA [25#216;0;1408#2565;2197#4104;-1#5;0] qrkfC.
Definition qckA : list (list Q) := [[0;0;0;0;0;0]; [1#5;0;0;0;0;0]; [3#40;9#40;0;0;0;0]; [3#10;-9#10;6#5;0;0;0];
   [-11#54;5#2;-70#27;35#27;0;0]; [1631#55296;175#512;575#13824;44275#110592;253#4096;0]].
Definition qckC : list Q := [0;1#5;3#10;3#5;1;7#8].
Definition qCK5 := TabQ qckA [37#378;0;250#621;125#594;0;512#1771] qckC.
Definition qCK4 := TabQ qckA [2825#27648;0;18575#48384;13525#55296;277#14336;1#4] qckC.
Definition qdpA : list (list Q) := [[0;0;0;0;0;0;0]; [1#5;0;0;0;0;0;0]; [3#40;9#40;0;0;0;0;0]; [44#45;-56#15;32#9;0;0;0;0];
   [19372#6561;-25360#2187;64448#6561;-212#729;0;0;0]; [9017#3168;-355#33;46732#5247;49#176;-5103#18656;0;0];
   [35#384;0;500#1113;125#192;-2187#6784;11#84;0]].
Definition qdpC : list Q := [0;1#5;3#10;4#5;8#9;1;1].
Definition qDP5 := TabQ qdpA [35#384;0;500#1113;125#192;-2187#6784;11#84;0] qdpC.
Definition qDP4 := TabQ qdpA [5179#57600;0;7571#16695;393#640;-92097#339200;187#2100;1#40] qdpC.
Definition qBEuler := TabQ [[1]] [1] [1].
Definition qTR := TabQ [[0;0]; [1#2;1#2]] [1#2;1#2] [0;1].
Definition qRadau := TabQ [[5#12;-1#12]; [3#4;1#4]] [3#4;1#4] [1#3;1].
Local Open Scope R_scope.
Lemma Q2R_int a : Q2R (a # 1) = IZR a. Proof. unfold Q2R. cbn. lra. Qed.
Ltac tq := unfold ofQ, qEuler, qHeun3, qRK4, qBEuler, qTR, qRadau; cbn [qa qb qc map]; rewrite ?Q2R_int, ?Q2R_frac; reflexivity.
Lemma tabEuler_Q : tabEuler = ofQ qEuler. Proof. tq. Qed.
Lemma tabHeun3_Q : tabHeun3 = ofQ qHeun3. Proof. tq. Qed.
Lemma tabRK4_Q : tabRK4 = ofQ qRK4. Proof. tq. Qed.
Lemma tabRKF5_Q : tabRKF5 = ofQ qRKF5. Proof. unfold qRKF5, qrkfA, qrkfC. tq. Qed.
Lemma tabRKF4_Q : tabRKF4 = ofQ qRKF4. Proof. unfold qRKF4, qrkfA, qrkfC. tq. Qed.
Lemma tabCK5_Q : tabCK5 = ofQ qCK5. Proof. unfold qCK5, qckA, qckC. tq. Qed.
Lemma tabCK4_Q : tabCK4 = ofQ qCK4. Proof. unfold qCK4, qckA, qckC. tq. Qed.
Lemma tabDP5_Q : tabDP5 = ofQ qDP5. Proof. unfold qDP5, qdpA, qdpC. tq. Qed.
Lemma tabDP4_Q : tabDP4 = ofQ qDP4. Proof. unfold qDP4, qdpA, qdpC. tq. Qed.
Lemma tabBEuler_Q : tabBEuler = ofQ qBEuler. Proof. tq. Qed.
Lemma tabTR_Q : tabTR = ofQ qTR. Proof. tq. Qed.
Lemma tabRadau_Q : tabRadau = ofQ qRadau. Proof. tq. Qed.
