(** Lemmas for C101: the initial point and the initial active set. *)
From Coq Require Import Reals Lra Lia List Permutation.
From Verif Require Import Prelude Prelude_Proofs Scalar RealLib Fmat Fmat_Proofs LE_Model LE_Spec LE3_Proofs LE_Props IP_Model Vop Qp_Model Qp_Spec Qp_Proofs Lp_Model Lp_Spec Lp_Proofs Lp2_Proofs Lp3_Proofs Lp4_Proofs Lp5_Proofs Lp6_Proofs Lp7_Proofs Asm_Model Asm_Spec Stab_Proofs Asm_Proofs Asm2_Proofs.
Import ListNotations.
Local Open Scope R_scope.

Ltac evtac' := repeat (evtac; match goal with
  | |- evx (fun t => Ok (@?F t)) => apply (evx_map (@Ok _) F)
  | |- evx (fun t => negb (@?F t)) => apply (evx_map negb F)
  | |- evx (fun t => (@?F t) && ?b)%bool => apply (evx_map (fun a => a && b)%bool F)
  | |- evx (fun t => ?b || (@?F t))%bool => apply (evx_map (fun a => b || a)%bool F)
  end).
(** ** the first phase does not depend on a small tolerance *)
Lemma evx_findNA tab : evx (fun t => _zLPTableauFindNA t tab). Proof. unfold _zLPTableauFindNA. evtac'. Qed.
Lemma evx_findNA_deg tab : evx (fun t => _zLPTableauFindNA_deg t tab). Proof. unfold _zLPTableauFindNA_deg. evtac. Qed.
Lemma evx_findnp f tab na : evx (fun t => findnp t f tab na). Proof. unfold findnp. evtac'. Qed.
Lemma evx_findNP tab na : evx (fun t => _zLPTableauFindNP t tab na).
Proof.
  unfold _zLPTableauFindNP. apply evx_bind; [apply evx_findnp|]. intros [s|u]; [apply evx_const|]. apply evx_bind; [apply evx_findNA_deg|].
  intros [k|]; [|apply evx_const]. apply evx_bind; [apply evx_findnp|]. intros [s|v]; apply evx_const.
Qed.
Lemma evx_simplex_loop : forall rest tab, evx (fun t => simplex_loop t rest tab).
Proof.
  induction rest as [|rest IH]; intros tab; cbn [simplex_loop]; (apply evx_bind; [apply evx_findNA|]); intros [na|]; try apply evx_const.
  apply evx_bind; [apply evx_findNP|]. intros ([np|] & k); try apply evx_const.
  apply evx_bind; [apply evx_const|]. intros t1. apply evx_bind; [apply evx_const|]. intros t2. apply evx_bind; [apply evx_const|]. auto.
Qed.
Lemma evx_simplex tab : evx (fun t => zLPTableauSimplex t tab).
Proof. unfold zLPTableauSimplex. apply evx_bind; [apply evx_const|]. intros t. apply evx_simplex_loop. Qed.
Lemma evx_findbase_col tab n i : evx (fun t => findbase_col t tab n i). Proof. unfold findbase_col. evtac. Qed.
Lemma evx_findbase n : forall k i tab, evx (fun t => findbase t k i n tab).
Proof.
  induction k as [|k IH]; intros i tab; cbn [findbase]; [apply evx_const|]. apply evx_bind; [apply evx_const|]. intros ibi. destruct (ibi <? n)%nat; auto.
  apply evx_bind; [apply evx_findbase_col|]. intros [j|]; auto. apply evx_bind; [apply evx_const|]. intros t1. apply evx_bind; [apply evx_const|]. auto.
Qed.
Lemma evx_findBase tab : evx (fun t => zLPTableauFindBase t tab).
Proof. unfold zLPTableauFindBase. apply evx_bind; [apply evx_findbase|]. intros. apply evx_const. Qed.
Lemma evx_initbase ins n A b : evx (fun t => _zQPASMInitBase t ins n A b).
Proof.
  unfold _zQPASMInitBase. apply evx_bind; [apply evx_simplex|]. intros (tab & ok). apply evx_if; [|apply evx_const|].
  { apply (evx_map (fun x => negb ok || negb x)%bool), evx_is_tol. }
  apply evx_bind; [apply evx_findBase|]. intros. apply evx_const.
Qed.

(** ** columns of a solved form *)
Lemma col_comb m N T0 p0 ib T p i j : valid m N T0 p0 ib T p -> (i < m)%nat -> (j < N)%nat -> T0 i j = rsum m (fun k => T0 i (bc ib k) * T k j).
Proof.
  intros V Hi Hj. pose proof (v_lt _ _ _ _ _ _ _ V) as LT.
  pose proof (proj2 (v_sol _ _ _ _ _ _ _ V _) (bsol_sol _ _ _ _ _ _ _ V) i Hi) as E0. rewrite (spread m N ib (fun j => T0 i j) p LT) in E0.
  pose proof (proj2 (v_sol _ _ _ _ _ _ _ V _) (tv_sol _ _ _ _ _ _ _ j V Hj) i Hi) as E1. rewrite (tv_sum m N ib (fun j => T0 i j) T p j LT Hj) in E1.
  rewrite (rsum_ext m _ (fun k => T0 i (bc ib k) * p k - T0 i (bc ib k) * T k j)) in E1 by (intros; ring). rewrite rsum_sub in E1. lra.
Qed.
(** opposite columns stay opposite *)
Lemma col_opp m N T0 p0 ib T p j j' : valid m N T0 p0 ib T p -> (j < N)%nat -> (j' < N)%nat -> j <> j' -> (forall i, (i < m)%nat -> T0 i j' = - T0 i j) ->
  forall i, (i < m)%nat -> T i j' = - T i j.
Proof.
  intros V Hj Hj' Ne H i Hi. set (x := bsol m ib p). set (d := fun k => (if (j =? k)%nat then 1 else 0) + (if (j' =? k)%nat then 1 else 0)).
  assert (D : forall f, rsum N (fun k => f k * d k) = f j + f j').
  { intros f. rewrite (rsum_ext N _ (fun k => (if (j =? k)%nat then f k else 0) + (if (j' =? k)%nat then f k else 0))).
    - now rewrite rsum_add, !rsum_pick1.
    - intros k Hk. unfold d. nbt; ring. }
  assert (D' : forall f, rsum N (fun k => f k * (x k + d k)) = rsum N (fun k => f k * x k) + (f j + f j')).
  { intros f. rewrite <- D, <- rsum_add. apply rsum_ext. intros; ring. }
  pose proof (bsol_sol _ _ _ _ _ _ _ V) as S1. fold x in S1. pose proof (proj2 (v_sol _ _ _ _ _ _ _ V _) S1) as S0.
  assert (S0' : sol m N T0 p0 (fun k => x k + d k)).
  { intros l Hl. rewrite (D' (fun k => T0 l k)), H by auto. rewrite (S0 l Hl). ring. }
  apply (proj1 (v_sol _ _ _ _ _ _ _ V _)) in S0'. specialize (S0' i Hi). cbv beta in S0'. rewrite (D' (fun k => T i k)), (S1 i Hi) in S0'. lra.
Qed.

Section Base.
  Context (m n : nat) (A : fmat R) (b : fvec R) (A1 : nr A = m) (A2 : nc A = n) (B1 : vlen b = m) (Hn : (0 < n)%nat).
  Context (ins : list nat -> nat -> list nat) (Hins : forall l v, Permutation (ins l v) (v :: l)).
  Local Notation SF := (slack_form A).
  Local Notation N := (2 * n + m)%nat.
  Lemma slack_mul y i : (i < m)%nat -> mulv N (el SF) y i = mulv n (el A) (fun j => y j - y (n + j)%nat) i - y (2 * n + i)%nat.
  Proof.
    intros Hi. unfold mulv. replace N with (n + (n + m))%nat by lia. rewrite rsum_app, rsum_app.
    rewrite (rsum_ext n (fun j => el A i j * (y j - y (n + j)%nat)) (fun j => el A i j * y j - el A i j * y (n + j)%nat)) by (intros; ring). rewrite rsum_sub.
    rewrite (rsum_ext n (fun j => el SF i j * y j) (fun j => el A i j * y j)).
    2:{ intros j Hj. unfold slack_form. cbn [el]. rewrite A2. nbq. }
    rewrite (rsum_ext n (fun j => el SF i (n + j)%nat * y (n + j)%nat) (fun j => - (el A i j * y (n + j)%nat))).
    2:{ intros j Hj. unfold slack_form. cbn [el]. rewrite A2. nbq. replace (n + j - n)%nat with j by lia. rs. ring. }
    rewrite (rsum_delta m i); auto.
    2:{ intros k Hk Nk. unfold slack_form. cbn [el]. rewrite A2. nbq. rs. ring. }
    unfold slack_form at 1. cbn [el]. rewrite A2. nbq. rs. replace (n + (n + i))%nat with (n + n + i)%nat by lia. replace (2 * n + i)%nat with (n + n + i)%nat by lia.
    rewrite rsum_opp. ring.
  Qed.
  Lemma slack_ind : independent m N (el SF).
  Proof.
    intros l H i Hi. specialize (H (2 * n + i)%nat ltac:(lia)). unfold comb in H. rewrite (rsum_delta m i) in H; auto.
    - unfold slack_form in H. cbn [el] in H. rewrite A2 in H. replace (2 * n + i <? n)%nat with false in H by nbq. replace (2 * n + i <? 2 * n)%nat with false in H by nbq. rewrite Nat.eqb_refl in H. rs. lra.
    - intros k Hk Nk. unfold slack_form. cbn [el]. rewrite A2. nbq. rs. ring.
  Qed.
  Local Notation T0 := (sT N SF b).
  Local Notation p0 := (sb b).
  (** a base does not hold both parts of a variable *)
  Lemma no_both ib T p k l j : valid m (N + m) T0 p0 ib T p -> (k < m)%nat -> (l < m)%nat -> (j < n)%nat -> bc ib k = j -> bc ib l = (n + j)%nat -> False.
  Proof.
    intros V Hk Hl Hj E1 E2.
    assert (O : forall i, (i < m)%nat -> T i (n + j)%nat = - T i j).
    { apply (col_opp m (N + m) T0 p0 ib T p j (n + j)%nat V); try lia. intros i Hi. unfold sT, slack_form. cbn [el]. rewrite A2. nbq. replace (n + j - n)%nat with j by lia. rs. ring. }
    specialize (O k Hk). rewrite <- E2, <- E1 in O. rewrite !(v_unit _ _ _ _ _ _ _ V), Nat.eqb_refl in O by auto. destruct (Nat.eqb k l); lra.
  Qed.
  (** the constraints whose slack is not in the base are independent *)
  Lemma ia_ind ib T p L : valid m (N + m) T0 p0 ib T p -> (forall l, (l < m)%nat -> (bc ib l < N)%nat) ->
    (forall i, In i L -> forall l, (l < m)%nat -> bc ib l <> (2 * n + i)%nat) -> indep m n (el A) L.
  Proof.
    intros V LO H u U0 U1 i Hi.
    set (z := fun r => u r * sg b r).
    assert (Z : forall k, (k < m)%nat -> rsum m (fun r => z r * T0 r (bc ib k)) = 0).
    { intros k Hk. specialize (LO k Hk). set (j := bc ib k) in *.
      transitivity (rsum m (fun r => u r * el SF r j)).
      { apply rsum_ext. intros r Hr. unfold z, sT. nbq. pose proof (sg_sq b r) as SQ. transitivity ((sg b r * sg b r) * (u r * el SF r j)); [ring|rewrite SQ; ring]. }
      unfold slack_form. cbn [el]. rewrite A2. destruct (Nat.ltb_spec j n); [now apply U1|]. destruct (Nat.ltb_spec j (2 * n)).
      - rs. rewrite (rsum_ext m _ (fun r => - (u r * el A r (j - n)%nat))) by (intros; ring). rewrite rsum_opp. fold (comb m (el A) u (j - n)). rewrite U1 by lia. ring.
      - apply rsum_0. intros r Hr. destruct (Nat.eqb_spec j (2 * n + r)); rs; [|ring]. rewrite (U0 r); [ring|]. intros X. apply (H r X k Hk). auto. }
    assert (E : rsum m (fun r => z r * T0 r (N + i)%nat) = 0).
    { rewrite (rsum_ext m _ (fun r => rsum m (fun k => z r * T0 r (bc ib k) * T k (N + i)%nat))).
      - rewrite rsum_swap. apply rsum_0. intros k Hk. rewrite rsum_scal_r, Z by auto. ring.
      - intros r Hr. rewrite (col_comb m (N + m) T0 p0 ib T p r (N + i)%nat V) by lia. rewrite <- rsum_scal. apply rsum_ext. intros; ring. }
    rewrite (rsum_delta m i) in E; auto.
    - unfold sT in E. replace (N + i <? N)%nat with false in E by nbq. rewrite Nat.eqb_refl in E. unfold z in E. pose proof (sg_sq b i). nra.
    - intros k Hk Nk. unfold sT. nbq. ring.
  Qed.

  (** the loop over the base *)
  Context (tab : @tableau R) (W : swf m (N + m) tab) (V : sval m (N + m) T0 p0 tab) (LO : forall l, (l < m)%nat -> (bc (tib tab) l < N)%nat)
    (P : forall i, (i < m)%nat -> 0 <= vel (tb tab) i).
  Local Notation bb := (bc (tib tab)).
  Local Notation bs k := (bsol k (tib tab) (vel (tb tab))).
  Record part (k : nat) (s : @asm R) : Prop := {
    q_x : vlen (xtmp s) = n; q_l : vlen (lam s) = m;
    q_perm : Permutation (ia s ++ inn s) (List.seq 0 m);
    q_v : forall j, (j < n)%nat -> vel (xtmp s) j = bs k j - bs k (n + j)%nat;
    q_in : forall i, In i (inn s) <-> exists l, (l < k)%nat /\ bb l = (2 * n + i)%nat }.
  Lemma bs_S k j : bs (S k) j = bs k j + if (bb k =? j)%nat then vel (tb tab) k else 0. Proof. reflexivity. Qed.
  Lemma bs_0 k j : (forall l, (l < k)%nat -> bb l <> j) -> bs k j = 0.
  Proof. intros H. unfold bsol. apply rsum_0. intros l Hl. specialize (H l Hl). nbq. Qed.
  Lemma step_ok i s : (i < m)%nat -> part i s -> exists s', init_step ins A tab i s = Ok (Some s') /\ part (S i) s'.
  Proof.
    intros Hi [X1 X2 X3 X4 X5]. pose proof (s_ib _ _ _ W) as LI. pose proof (s_b _ _ _ W) as LB. unfold init_step. rewrite (get_ok _ _ O) by lia. cbn [bind].
    change (nth i (tib tab) O) with (bb i). rewrite A2, A1. pose proof (LO i Hi) as Li.
    assert (INJ : forall l, (l < i)%nat -> bb l <> bb i). { intros l Hl E. pose proof (valid_inj _ _ _ _ _ _ _ l i V ltac:(lia) Hi E). lia. }
    destruct (Nat.ltb_spec (bb i) n) as [L1|G1]; [|destruct (Nat.ltb_spec (bb i) (2 * n)) as [L2|G2]].
    - rewrite vget_ok by lia. cbn [bind]. rewrite vset_ok by lia. cbn [bind]. eexists. split; [reflexivity|]. split; cbn [xtmp ia inn lam vlen vel]; auto.
      + intros j Hj. rewrite !bs_S, X4 by auto. destruct (Nat.eqb_spec j (bb i)) as [->|Ne].
        * rewrite Nat.eqb_refl. replace (bb i =? n + bb i)%nat with false by nbq. rewrite (bs_0 i (bb i)) by auto. rewrite (bs_0 i (n + bb i)%nat); [ring|].
          intros l Hl E. apply (no_both _ _ _ i l (bb i) V); auto. lia.
        * replace (bb i =? j)%nat with false by nbq. replace (bb i =? n + j)%nat with false by nbq. ring.
      + intros k. rewrite X5. split; intros (l & Hl & E); exists l; split; auto; try lia. assert (l <> i) by (intros ->; lia). lia.
    - rewrite vget_ok by lia. cbn [bind]. rewrite vset_ok by lia. cbn [bind]. eexists. split; [reflexivity|]. split; cbn [xtmp ia inn lam vlen vel]; auto.
      + intros j Hj. rewrite !bs_S, X4 by auto. destruct (Nat.eqb_spec j (bb i - n)) as [->|Ne].
        * replace (n + (bb i - n))%nat with (bb i) by lia. rewrite Nat.eqb_refl. replace (bb i =? bb i - n)%nat with false by nbq. rewrite (bs_0 i (bb i)) by auto. rewrite (bs_0 i (bb i - n)%nat); [rs; ring|].
          intros l Hl E. apply (no_both _ _ _ l i (bb i - n)%nat V); auto; lia.
        * replace (bb i =? j)%nat with false by nbq. replace (bb i =? n + j)%nat with false by nbq. ring.
      + intros k. rewrite X5. split; intros (l & Hl & E); exists l; split; auto; try lia. assert (l <> i) by (intros ->; lia). lia.
    - replace (bb i - 2 * n <? m)%nat with true by nbq. eexists. split; [reflexivity|]. split; cbn [xtmp ia inn lam vlen vel]; auto.
      + set (k := (bb i - 2 * n)%nat). assert (NI : ~ In k (inn s)). { rewrite X5. intros (l & Hl & E). apply (INJ l Hl). unfold k in E. lia. }
        assert (IA : In k (ia s)).
        { assert (K : In k (ia s ++ inn s)) by (apply (Permutation_in _ (Permutation_sym X3)), in_seq; unfold k; lia). apply in_app_or in K. tauto. }
        rewrite <- X3. rewrite (Hins (inn s) k). rewrite <- Permutation_middle. change (k :: index_remove_val (ia s) k ++ inn s) with ((k :: index_remove_val (ia s) k) ++ inn s).
        apply Permutation_app_tail. apply rm_perm; auto. eapply nodup_app_l. eapply Permutation_NoDup; [apply Permutation_sym, X3|apply seq_NoDup].
      + intros j Hj. rewrite !bs_S, X4 by auto. replace (bb i =? j)%nat with false by nbq. replace (bb i =? n + j)%nat with false by nbq. ring.
      + intros k. split.
        * intros K. apply (Permutation_in _ (Hins _ _)) in K. destruct K as [<-|K]; [exists i; split; lia|]. apply X5 in K. destruct K as (l & Hl & E). exists l. split; auto; lia.
        * intros (l & Hl & E). apply (Permutation_in _ (Permutation_sym (Hins _ _))). destruct (Nat.eq_dec l i) as [->|]; [left; lia|]. right. apply X5. exists l. split; auto; lia.
  Qed.
  Lemma part_inv s : part m s -> inv m n A b (Asm (store (xtmp s)) (ia s) (inn s) (lam s)).
  Proof.
    intros [X1 X2 X3 X4 X5]. destruct (store_ok (xtmp s)) as (S1 & S2). rewrite X1 in *.
    assert (V' : valid m N T0 p0 (tib tab) (el (ta tab)) (vel (tb tab))) by (apply restrict; auto).
    assert (EQ : forall i, (i < m)%nat -> mulv n (el A) (vel (store (xtmp s))) i = vel b i + bs m (2 * n + i)%nat).
    { intros i Hi. pose proof (proj1 (sol_orig m N SF b A1 ltac:(unfold slack_form; cbn [nc]; lia) B1 (bs m)) (proj2 (v_sol _ _ _ _ _ _ _ V' _) (bsol_sol _ _ _ _ _ _ _ V')) i Hi) as E.
      rewrite slack_mul in E by auto. rewrite <- E. rewrite (mulv_ext n (el A) _ (fun j => bs m j - bs m (n + j)%nat)); [ring|]. intros j Hj. rewrite S2, X4 by auto. reflexivity. }
    assert (NB : forall i, In i (ia s) -> forall l, (l < m)%nat -> bb l <> (2 * n + i)%nat).
    { intros i Hi l Hl E. assert (K : In i (inn s)) by (apply X5; eauto). assert (ND : NoDup (ia s ++ inn s)) by (eapply Permutation_NoDup; [apply Permutation_sym, X3|apply seq_NoDup]).
      clear - Hi K ND. induction (ia s) as [|x L IH]; [destruct Hi|]. inversion ND as [|? ? H1 H2]; subst. destruct Hi as [->|Hi]; auto. apply H1. apply in_or_app. auto. }
    assert (LTm : forall i, In i (ia s ++ inn s) -> (i < m)%nat). { intros i K. apply (Permutation_in _ X3), in_seq in K. lia. }
    split; cbn [xtmp ia inn lam]; auto; try lia.
    - intros i K. rewrite EQ by (apply LTm, in_or_app; auto). rewrite bs_0 by (apply NB; auto). ring.
    - intros i K. rewrite EQ by (apply LTm, in_or_app; auto). pose proof (bsol_nonneg m (tib tab) (vel (tb tab)) (2 * n + i) P). lra.
    - apply (ia_ind _ _ _ _ V LO NB).
  Qed.
End Base.

Section Init.
  Context (m n : nat) (A : fmat R) (b : fvec R) (A1 : nr A = m) (A2 : nc A = n) (B1 : vlen b = m) (Hn : (0 < n)%nat).
  Context (ins : list nat -> nat -> list nat) (Hins : forall l v, Permutation (ins l v) (v :: l)).
  Local Notation SF := (slack_form A).
  Local Notation N := (2 * n + m)%nat.
  Local Notation T0 := (sT N SF b).
  Local Notation p0 := (sb b).
  Lemma init_at tol : 0 < tol -> good m (N + m) T0 p0 (c1 N) tol -> exists r, _zQPASMInitBase tol ins n A b = Ok r /\ match r with Some s => inv m n A b s | None => True end.
  Proof.
    intros Ht G. unfold _zQPASMInitBase. set (t0 := zLPTableauCreate SF b).
    assert (S2 : nc SF = N) by (unfold slack_form; cbn [nc]; lia).
    assert (LT : length (tin t0) = N) by (unfold t0, zLPTableauCreate; cbn [tin]; rewrite seq_length; auto).
    destruct (simplex_ok m (N + m) T0 p0 tol Ht True (c1 N) t0 (create_swf m N SF b A1 S2 B1) (create_sval m N SF b A1 S2 B1) (create_costs m N SF b S2)) as (t1 & ok & E & I & L1 & N1 & V1 & _).
    { intros _ _ i _. unfold t0. rewrite t0_b. apply sb_pos. } { lia. }
    rewrite E. cbn [bind]. destruct ok; cbn [negb orb]; [|eexists; split; [reflexivity|exact Logic.I]].
    destruct (is_tol tol (td t1)) eqn:Etd; cbn [negb]; [|eexists; split; [reflexivity|exact Logic.I]].
    assert (VC : (vlen (tc t1) - vlen (tb t1) = N)%nat).
    { rewrite V1, (s_b _ _ _ (i_wf _ _ _ _ _ _ _ _ I)). unfold t0, zLPTableauCreate. cbn [tc vlen]. rewrite S2. cbn [nr slack_form]. lia. }
    unfold zLPTableauFindBase. rewrite VC, (s_ib _ _ _ (i_wf _ _ _ _ _ _ _ _ I)).
    destruct I as [W V C Z P]. specialize (P Logic.I G).
    set (t1' := Tab (ta t1) (tb t1) (tc t1) 0 (tib t1) (tin t1) (tir t1)).
    assert (NR : no_removal m N tol SF b). { eapply indep_nr; eauto. eapply slack_ind; eauto. }
    destruct (findbase_ok m N tol Ht SF b A1 S2 B1 NR m O t1') as (t2 & E2 & W2 & V2 & LO & AZ & TD & TC); auto.
    { lia. } { destruct W; split; auto. } { intros; lia. }
    { intros _. unfold t1'. cbn [tb tib]. split; auto.
      destruct (costs_red m (N + m) T0 p0 _ _ _ _ _ _ V C Z) as (D & _). destruct (G _ _ _ V) as (_ & _ & G3). rewrite <- D in G3.
      rewrite is_tol_R in Etd. destruct (Rleb_spec (Rabs (td t1)) tol) as [X|]; [|discriminate]. destruct G3 as [G3|G3]; [|lra].
      rewrite G3 in D. intros i Hi Ha. symmetry in D. unfold val in D.
      pose proof (rsum_nonneg_0 m (fun k => c1 N (bc (tib t1) k) * vel (tb t1) k)) as RN.
      assert (Zi : c1 N (bc (tib t1) i) * vel (tb t1) i = 0).
      { apply (RN); auto. intros k Hk. apply Rmult_le_pos; auto. unfold c1. nbt; lra. }
      unfold c1 in Zi. replace (bc (tib t1) i <? N)%nat with false in Zi by nbq. lra. }
    match goal with |- context [findbase tol m 0 N ?x] => change x with t1' end. rewrite E2. cbn [bind].
    set (t3 := Tab (ta t2) (tb t2) (tc t2) (td t2) (tib t2) (filter (fun j => (j <? N)%nat) (tin t2)) (tir t2)).
    destruct (AZ G) as (P2 & _).
    change (tib t3) with (tib t2). rewrite (s_ib _ _ _ W2).
    match goal with |- context [forb 0 m ?f ?s0] =>
      destruct (forb_inv (fun k s => part m n t2 k s) (fun _ : unit => False) 0 m f s0) as (o & EO & H); [lia| | |] end.
    - split; cbn [xtmp ia inn lam vlen vel].
      + reflexivity.
      + exact A1.
      + rewrite app_nil_r. replace (tir t3) with (List.seq 0 m); auto. symmetry. apply (s_ir _ _ _ W2).
      + intros j Hj. unfold bsol. cbn. ring.
      + intros i. split; [intros []|intros (l & Hl & _); lia].
    - intros k s Hk PK. assert (X : exists s', init_step ins A t2 k s = Ok (Some s') /\ part m n t2 (S k) s') by (eapply step_ok; eauto; lia). destruct X as (s' & E' & P').
      change (init_step ins A t3 k s) with (init_step ins A t2 k s). rewrite E'. cbn [bind]. eexists. split; [reflexivity|]. exact P'.
    - rewrite EO. cbn [bind]. destruct o as [s|[]]; [|destruct H]. eexists. split; [reflexivity|]. cbv iota.
      eapply part_inv; eauto.
  Qed.
  Lemma init_base : exists r, ev (fun t => _zQPASMInitBase t ins n A b) (Ok r) /\ match r with Some s => inv m n A b s | None => True end.
  Proof.
    destruct (evx_initbase ins n A b) as (v & d & D & H). destruct (good_ex m (N + m) T0 p0 (c1 N)) as (e & E & K).
    destruct (init_at (Rmin d e)) as (r & X & Y). { now apply Rmin_pos. } { apply K. apply Rmin_r. }
    rewrite H in X by (split; [now apply Rmin_pos|apply Rmin_l]). subst v. exists r. split; auto. exists d. auto.
  Qed.
End Init.
