(** Proofs about the simplex method (C43), concluded. *)
From Coq Require Import Reals Lra Lia List Permutation.
From Verif Require Import Prelude Prelude_Proofs Scalar RealLib Fmat Fmat_Proofs LE_Model IP_Model Vop Qp_Spec Lp_Spec Lp_Model Lp_Proofs Lp2_Proofs Lp3_Proofs Lp4_Proofs Lp5_Proofs Lp6_Proofs.
Import ListNotations.
Local Open Scope R_scope.

Lemma restrict m n ib (T0 T : nat -> nat -> R) p0 p : valid m (n + m) T0 p0 ib T p -> (forall k, (k < m)%nat -> (bc ib k < n)%nat) -> valid m n T0 p0 ib T p.
Proof.
  intros V H. split; auto; try apply V.
  intros x. set (x' := fun j => if (j <? n)%nat then x j else 0).
  assert (E : forall T' p', sol m n T' p' x <-> sol m (n + m) T' p' x').
  { intros T' p'. assert (E : forall i, rsum (n + m) (fun j => T' i j * x' j) = rsum n (fun j => T' i j * x j)).
    { intros i. rewrite rsum_app. rewrite (rsum_0 m). 2:{ intros k Hk. unfold x'. nbq. ring. }
      rewrite (rsum_ext n _ (fun j => T' i j * x j)); [ring|]. intros j Hj. unfold x'. nbq. }
    split; intros S i Hi; specialize (S i Hi); rewrite E in *; auto. }
  rewrite !E. apply (v_sol _ _ _ _ _ _ _ V).
Qed.

Section Main.
  Context (m n : nat) (tol : R) (Ht : 0 < tol) (A : fmat R) (b : fvec R) (A1 : nr A = m) (A2 : nc A = n) (B1 : vlen b = m).
  (** the rows with their signs, and the artificial variables *)
  Definition sg (i : nat) : R := if Rleb 0 (vel b i) then 1 else -1.
  Definition sT (i j : nat) : R := if (j <? n)%nat then sg i * el A i j else if (j =? n + i)%nat then 1 else 0.
  Definition sb (i : nat) : R := sg i * vel b i.
  Definition c1 (j : nat) : R := if (j <? n)%nat then 0 else 1.
  Lemma sg_sq i : sg i * sg i = 1.
  Proof. unfold sg. destruct (Rleb_spec 0 (vel b i)); lra. Qed.
  Lemma sg_abs i : Rabs (sg i) = 1.
  Proof. unfold sg. destruct (Rleb_spec 0 (vel b i)); unfold Rabs; destruct (Rcase_abs _); lra. Qed.
  Lemma sb_pos i : 0 <= sb i.
  Proof. unfold sb, sg. destruct (Rleb_spec 0 (vel b i)); lra. Qed.
  Lemma sT_low x i : rsum n (fun j => sT i j * x j) = sg i * mulv n (el A) x i.
  Proof. unfold mulv. rewrite <- rsum_scal. apply rsum_ext. intros j Hj. unfold sT. nbq. ring. Qed.
  (** on the original columns the system is A x = b *)
  Lemma sol_orig x : sol m n sT sb x <-> forall i, (i < m)%nat -> mulv n (el A) x i = vel b i.
  Proof.
    split; intros S i Hi; specialize (S i Hi).
    - rewrite sT_low in S. unfold sb in S. pose proof (sg_sq i). assert (sg i * (sg i * mulv n (el A) x i) = sg i * (sg i * vel b i)) by now rewrite S.
      rewrite <- !Rmult_assoc, H in H0. lra.
    - rewrite sT_low, S. reflexivity.
  Qed.
  Lemma sol_ext u : sol m (n + m) sT sb (fun j => if (j <? n)%nat then u j else sb (j - n) - sg (j - n) * mulv n (el A) u (j - n)).
  Proof.
    intros i Hi. rewrite rsum_app. rewrite (rsum_ext n _ (fun j => sT i j * u j)) by (intros; nbq). rewrite sT_low.
    rewrite (rsum_delta m i); auto.
    - unfold sT. nbq. replace (n + i - n)%nat with i by lia. ring.
    - intros k Hk Nk. unfold sT. nbq. ring.
  Qed.
  (** a row of a solved form is a combination of the rows of A *)
  Lemma row_comb ib T p i : valid m (n + m) sT sb ib T p -> (i < m)%nat -> forall j, (j < n)%nat -> T i j = comb m (el A) (fun k => T i (n + k)%nat * sg k) j.
  Proof.
    intros V Hi j Hj.
    assert (E : forall u, rsum n (fun j => T i j * u j) + rsum m (fun k => T i (n + k)%nat * (sb k - sg k * mulv n (el A) u k)) = p i).
    { intros u. pose proof (proj1 (v_sol _ _ _ _ _ _ _ V _) (sol_ext u) i Hi) as E. rewrite rsum_app in E.
      rewrite (rsum_ext n _ (fun j => T i j * u j)) in E by (intros; nbq). rewrite <- E. f_equal. apply rsum_ext. intros k Hk. nbq. replace (n + k - n)%nat with k by lia. reflexivity. }
    pose proof (E (fun _ => 0)) as E0. pose proof (E (fun l => if (j =? l)%nat then 1 else 0)) as E1.
    rewrite rsum_0 in E0 by (intros; ring).
    rewrite (rsum_ext m _ (fun k => T i (n + k)%nat * sb k)) in E0.
    2:{ intros k Hk. replace (mulv n (el A) (fun _ => 0) k) with 0; [ring|]. symmetry. unfold mulv. apply rsum_0. intros; ring. }
    rewrite (rsum_ext n _ (fun l => if (j =? l)%nat then T i l else 0)) in E1 by (intros; nbt; ring). rewrite rsum_pick1 in E1 by auto.
    rewrite (rsum_ext m _ (fun k => T i (n + k)%nat * sb k - T i (n + k)%nat * sg k * el A k j)) in E1.
    2:{ intros k Hk. replace (mulv n (el A) (fun l => if (j =? l)%nat then 1 else 0) k) with (el A k j); [ring|].
        unfold mulv. rewrite (rsum_ext n _ (fun l => if (j =? l)%nat then el A k l else 0)) by (intros; nbt; ring). now rewrite rsum_pick1. }
    rewrite rsum_sub in E1. unfold comb. lra.
  Qed.

  Definition no_removal : Prop := forall ib T p i, valid m (n + m) sT sb ib T p -> (i < m)%nat -> (n <= bc ib i)%nat ->
    ~ (forall j, (j < n)%nat -> Rabs (T i j) <= tol).
  Lemma art_row ib T p i : valid m (n + m) sT sb ib T p -> (i < m)%nat -> (n <= bc ib i)%nat -> exists k, (k < m)%nat /\ T i (n + k)%nat = 1.
  Proof.
    intros V Hi Ha. pose proof (v_lt _ _ _ _ _ _ _ V i Hi). exists (bc ib i - n)%nat. split; [lia|]. replace (n + (bc ib i - n))%nat with (bc ib i) by lia.
    rewrite (v_unit _ _ _ _ _ _ _ V) by auto. now rewrite Nat.eqb_refl.
  Qed.
  Lemma robust_nr : robust tol m n (el A) -> no_removal.
  Proof.
    intros RB ib T p i V Hi Ha H. destruct (art_row ib T p i V Hi Ha) as (k & Hk & E).
    destruct (RB (fun k => T i (n + k)%nat * sg k)) as (j & Hj & L).
    - exists k. split; auto. rewrite E, Rmult_1_l. apply sg_abs.
    - specialize (H j Hj). rewrite (row_comb ib T p i V Hi j Hj) in H. lra.
  Qed.
  Lemma indep_nr : independent m n (el A) -> good m (n + m) sT sb c1 tol -> no_removal.
  Proof.
    intros IN G ib T p i V Hi Ha H. destruct (art_row ib T p i V Hi Ha) as (k & Hk & E).
    pose proof (IN (fun k => T i (n + k)%nat * sg k)) as Z. specialize (fun X => Z X k Hk).
    assert (T i (n + k)%nat * sg k = 0).
    { apply Z. intros j Hj. rewrite <- (row_comb ib T p i V Hi j Hj). destruct (G _ _ _ V) as (G1 & _ & _).
      destruct (G1 i j Hi) as [X|X]; auto; [lia|]. specialize (H j Hj). lra. }
    rewrite E in H0. pose proof (sg_sq k). nra.
  Qed.

  (** the initial tableau *)
  Let t0 := zLPTableauCreate A b.
  Lemma create_swf : swf m (n + m) t0.
  Proof.
    unfold t0, zLPTableauCreate. rewrite A1, A2. split; cbn [ta tb tc td tib tin tir nr nc vlen]; auto.
    - now rewrite seq_length.
    - replace (n + m)%nat with (n + m)%nat by lia. rewrite seq_app. apply Permutation_app_comm.
  Qed.
  Lemma t0_el i j : el (ta t0) i j = sT i j.
  Proof. unfold t0, zLPTableauCreate, sT, sg. cbn [ta el]. rewrite A2. rs. destruct (Rleb_spec 0 (vel b i)); nbt; auto; ring. Qed.
  Lemma t0_b i : vel (tb t0) i = sb i.
  Proof. unfold t0, zLPTableauCreate, sb, sg. cbn [tb vel]. rs. destruct (Rleb_spec 0 (vel b i)); ring. Qed.
  Lemma create_sval : sval m (n + m) sT sb t0.
  Proof.
    unfold sval. split.
    - unfold t0, zLPTableauCreate. cbn [tib]. now rewrite seq_length.
    - intros k Hk. unfold t0, zLPTableauCreate, bc. cbn [tib]. rewrite A1, A2, seq_nth by auto. lia.
    - intros i k Hi Hk. rewrite t0_el. unfold t0, zLPTableauCreate, bc. cbn [tib]. rewrite A1, A2, seq_nth by auto. unfold sT. nbq.
    - intros x. unfold sol. split; intros S i Hi; specialize (S i Hi).
      + rewrite t0_b, <- S. apply rsum_ext. intros. now rewrite t0_el.
      + rewrite t0_b in S. rewrite <- S. apply rsum_ext. intros. now rewrite t0_el.
  Qed.
  Lemma create_costs : costs m (n + m) (el (ta t0)) (vel (tb t0)) c1 (vel (tc t0)) (td t0).
  Proof. intros x _. unfold t0, zLPTableauCreate, c1. cbn [tc td vel]. rewrite A2. rs. ring. Qed.

  (** ** the search of the base *)
  Lemma findbase_col_ok t i : swf m (n + m) t -> (i < m)%nat -> exists r, findbase_col tol t n i = Ok r /\
    match r with
    | Some j => (j < length (tin t))%nat /\ (nth j (tin t) O < n)%nat /\ tol < Rabs (el (ta t) i (nth j (tin t) O))
    | None => forall c, In c (tin t) -> (c < n)%nat -> Rabs (el (ta t) i c) <= tol
    end.
  Proof.
    intros W Hi. pose proof (fun c => swf_in m (n + m) t c W) as IN. destruct W as [W1 W2 W3 W4 W5 W6 _].
    unfold findbase_col.
    match goal with |- context [forb 0 (length (tin t)) ?f tt] =>
      destruct (forb_inv (fun k (_ : unit) => forall j, (j < k)%nat -> (nth j (tin t) O < n)%nat -> Rabs (el (ta t) i (nth j (tin t) O)) <= tol)
        (fun j => (j < length (tin t))%nat /\ (nth j (tin t) O < n)%nat /\ tol < Rabs (el (ta t) i (nth j (tin t) O))) 0 (length (tin t)) f tt) as (o & E & H); [lia| | |] end.
    - intros j Hj. lia.
    - intros k [] Hk P. rewrite (get_ok _ k O) by lia. cbn [bind]. destruct (Nat.ltb_spec (nth k (tin t) O) n).
      + rewrite mget_ok by lia. cbn [bind]. rs. destruct (Rleb_spec (Rabs (el (ta t) i (nth k (tin t) O))) tol); eexists; (split; [reflexivity|]); cbv beta iota.
        * intros j Hj Hjn. assert (j = k \/ (j < k)%nat) as [->|] by lia; auto.
        * conjs; auto; try lia. lra.
      + eexists. split; [reflexivity|]. intros j Hj Hjn. assert (j = k \/ (j < k)%nat) as [->|] by lia; auto. lia.
    - rewrite E. cbn [bind]. eexists. split; [reflexivity|]. destruct o as [u|j]; auto.
      intros c Hc Hcn. apply (In_nth _ _ O) in Hc. destruct Hc as (j & Hj & <-). auto.
  Qed.
  Definition artz (t : @tableau R) : Prop := good m (n + m) sT sb c1 tol ->
    (forall i, (i < m)%nat -> 0 <= vel (tb t) i) /\ (forall i, (i < m)%nat -> (n <= bc (tib t) i)%nat -> vel (tb t) i = 0).
  Lemma findbase_ok : no_removal -> forall k i t, (k + i = m)%nat -> swf m (n + m) t -> sval m (n + m) sT sb t -> (forall l, (l < i)%nat -> (bc (tib t) l < n)%nat) -> artz t ->
    exists t', findbase tol k i n t = Ok t' /\ swf m (n + m) t' /\ sval m (n + m) sT sb t' /\ (forall l, (l < m)%nat -> (bc (tib t') l < n)%nat) /\ artz t' /\
      td t' = td t /\ tc t' = tc t.
  Proof.
    intros NR. induction k as [|k IH]; intros i t Hk W V LO AZ; cbn [findbase].
    - exists t. conjs; auto. intros; apply LO; lia.
    - pose proof (s_ib _ _ _ W) as L. rewrite (get_ok _ i O) by lia. cbn [bind]. change (nth i (tib t) O) with (bc (tib t) i).
      destruct (Nat.ltb_spec (bc (tib t) i) n) as [Lt|Ge].
      + apply IH; auto; [lia|]. intros l Hl. assert (l = i \/ (l < i)%nat) as [->|] by lia; auto.
      + destruct (findbase_col_ok t i W) as (r & E & P); [lia|]. rewrite E. cbn [bind]. destruct r as [j|].
        * destruct P as (P1 & P2 & P3).
          destruct (exchange_ok m (n + m) sT sb t i j W V) as (t1 & t2 & E1 & E2 & W2 & V2 & X1 & X2 & X3 & X4 & X5 & X6 & X7); auto; [lia| |].
          { intros Z. rewrite Z, Rabs_R0 in P3. lra. }
          rewrite E1. cbn [bind]. rewrite E2. cbn [bind].
          assert (BC : forall l, bc (tib t2) l = if (l =? i)%nat then nth j (tin t) O else bc (tib t) l). { intros l. rewrite X5. unfold bc. apply nth_upd. lia. }
          destruct (IH (S i) t2) as (t' & E' & R1 & R2 & R3 & R4 & R5 & R6); auto; [lia| | |].
          { intros l Hl. rewrite BC. destruct (Nat.eqb_spec l i); auto. apply LO. lia. }
          { intros G. destruct (AZ G) as (Z1 & Z2). assert (Zi : vel (tb t) i = 0) by (apply Z2; auto; lia).
            assert (EQ : forall l, (l < m)%nat -> vel (tb t2) l = vel (tb t) l).
            { intros l Hl. rewrite X7 by auto. unfold pivp. rewrite Zi. unfold Rdiv. destruct (Nat.eqb_spec l i); [subst; rewrite Zi; ring|ring]. }
            split; intros l Hl; rewrite EQ by auto; auto. rewrite BC. destruct (Nat.eqb_spec l i); [lia|]. auto. }
          exists t'. conjs; auto; congruence.
        * exfalso. apply (NR _ _ _ i V); auto; [lia|]. intros c Hc.
          assert (Hc' : (c < n + m)%nat) by lia. apply (swf_in m (n + m) t c W) in Hc'. apply in_app_or in Hc'. destruct Hc' as [I|I]; auto.
          apply in_bc in I. destruct I as (l & Hl & <-). rewrite (v_unit _ _ _ _ _ _ _ V) by lia. destruct (Nat.eqb_spec i l); [subst; lia|]. rewrite Rabs_R0. lra.
  Qed.

  (** ** the whole method *)
  Context (c : fvec R) (C1 : vlen c = n) (Hmn : (m < n)%nat).
  Theorem simplex_main ans : vlen ans = n -> no_removal -> exists r, zLPSolveSimplex tol A b c ans = Ok r /\
    match r with
    | None => True
    | Some (x, cost) => vlen x = n /\ (forall i, (i < m)%nat -> mulv n (el A) (vel x) i = vel b i) /\ cost = dot n (vel c) (vel x) /\
        (forall y, std_feasible m n (el A) (vel b) y -> cost - tol * rsum n y <= dot n (vel c) y) /\
        (good m (n + m) sT sb c1 tol -> good m n sT sb (vel c) tol -> lp_optimal m n (el A) (vel b) (vel c) (vel x))
    end.
  Proof.
    intros LA NR. unfold zLPSolveSimplex. rewrite A1, A2, B1, C1, LA, !Nat.eqb_refl. cbn [negb andb]. fold t0.
    assert (LT : length (tin t0) = n) by (unfold t0, zLPTableauCreate; cbn [tin]; rewrite seq_length; auto).
    destruct (simplex_ok m (n + m) sT sb tol Ht True c1 t0 create_swf create_sval create_costs) as (t1 & ok & E & I & L1 & N1 & V1 & _).
    { intros _ _ i _. rewrite t0_b. apply sb_pos. } { lia. }
    rewrite E. cbn [bind].
    destruct ok; cbn [negb orb]; [|eexists; split; [reflexivity|exact Logic.I]].
    destruct (is_tol tol (td t1)) eqn:Etd; cbn [negb]; [|eexists; split; [reflexivity|exact Logic.I]].
    assert (VC : (vlen (tc t1) - vlen (tb t1) = n)%nat).
    { rewrite V1, (s_b _ _ _ (i_wf _ _ _ _ _ _ _ _ I)). unfold t0, zLPTableauCreate. cbn [tc vlen]. lia. }
    unfold zLPTableauFindBase. rewrite VC, (s_ib _ _ _ (i_wf _ _ _ _ _ _ _ _ I)).
    destruct I as [W V C Z P].
    set (t1' := Tab (ta t1) (tb t1) (tc t1) 0 (tib t1) (tin t1) (tir t1)).
    destruct (findbase_ok NR m O t1') as (t2 & E2 & W2 & V2 & LO & AZ & TD & TC); auto.
    { lia. } { destruct W; split; auto. } { intros; lia. }
    { intros G. unfold t1'. cbn [tb tib]. specialize (P Logic.I G). split; auto.
      destruct (costs_red m (n + m) sT sb _ _ _ _ _ _ V C Z) as (D & _). destruct (G _ _ _ V) as (_ & _ & G3). rewrite <- D in G3.
      rewrite is_tol_R in Etd. destruct (Rleb_spec (Rabs (td t1)) tol) as [X|]; [|discriminate]. destruct G3 as [G3|G3]; [|lra].
      rewrite G3 in D. intros i Hi Ha. symmetry in D. unfold val in D.
      pose proof (rsum_nonneg_0 m (fun k => c1 (bc (tib t1) k) * vel (tb t1) k)) as RN. 
      assert (Zi : c1 (bc (tib t1) i) * vel (tb t1) i = 0).
      { apply (RN); auto. intros k Hk. apply Rmult_le_pos; auto. unfold c1. nbt; lra. }
      unfold c1 in Zi. replace (bc (tib t1) i <? n)%nat with false in Zi by nbq. lra. }
    match goal with |- context [findbase tol m 0 n ?x] => change x with t1' end. rewrite E2. cbn [bind].
    set (inn := filter (fun j => (j <? n)%nat) (tin t2)).
    cbn [ta tb tc td tib tin tir].
    set (t3 := Tab (ta t2) (tb t2) (FV n (vel c)) (td t2) (tib t2) inn (tir t2)).
    assert (W3 : swf m n t3).
    { pose proof (swf_nodup _ _ _ W2) as ND2. pose proof (fun c => swf_in m (n + m) t2 c W2) as IN2.
      destruct W2 as [Y1 Y2 Y3 Y4 Y5 Y6 Y7]. split; unfold t3; cbn [ta tb tc td tib tin tir vlen]; auto; try lia.
      assert (NDf : NoDup (tib t2 ++ inn)).
      { clear - ND2. unfold inn. induction (tib t2) as [|x l IH]; cbn in *.
        - now apply NoDup_filter.
        - inversion ND2; subst. constructor; auto. intros X. apply H1. apply in_app_or in X. apply in_or_app. destruct X as [X|X]; auto. apply filter_In in X. tauto. }
      apply NoDup_Permutation; auto; [apply seq_NoDup|]. intros x. rewrite in_seq. split; intros X.
      - apply in_app_or in X. destruct X as [X|X].
        + apply in_bc in X. destruct X as (k & Hk & <-). specialize (LO k). lia.
        + unfold inn in X. apply filter_In in X. destruct X as (_ & X). apply Nat.ltb_lt in X. lia.
      - assert (X' : In x (tib t2 ++ tin t2)) by (apply IN2; lia). apply in_app_or in X'. apply in_or_app. destruct X' as [X'|X']; auto.
        right. unfold inn. apply filter_In. split; auto. apply Nat.ltb_lt. lia. }
    assert (V3 : sval m n sT sb t3). { unfold sval, t3. cbn [ta tb tib]. apply restrict; auto. }
    assert (L3 : (0 < length (tin t3))%nat).
    { pose proof (Permutation_length (s_perm _ _ _ W3)) as PL. rewrite app_length, seq_length, (s_ib _ _ _ W3) in PL. lia. }
    assert (TD0 : td t2 = 0) by (rewrite TD; reflexivity).
    assert (C3 : costs m n (el (ta t3)) (vel (tb t3)) (vel c) (vel (tc t3)) (td t3)).
    { intros x _. unfold t3. cbn [tc td vel]. rewrite TD0. ring. }
    destruct (simplex_ok m n sT sb tol Ht (good m (n + m) sT sb c1 tol) (vel c) t3 W3 V3 C3) as (t4 & ok & E4 & I4 & L4 & N4 & V4 & O4); auto.
    { intros G1 _. exact (proj1 (AZ G1)). }
    fold t3. rewrite E4. cbn [bind]. destruct ok; cbn [negb]; [|eexists; split; [reflexivity|exact Logic.I]].
    specialize (O4 eq_refl). pose proof I4 as [W4 V4' C4 Z4 P4].
    pose proof (v_lt _ _ _ _ _ _ _ V4') as LT4. pose proof (s_ib _ _ _ W4) as LI4.
    destruct (answer_loop (tib t4) (tb t4) m (FV (vlen ans) (fun _ => 0)) 0 (fun k => (k <? vlen ans)%nat)
      (fun i ans => ibi <- get (tib t4) i ;; x <- vget (tb t4) i ;; vset ans ibi x)) as (x & EX & LX & PX); auto.
    { eapply nodup_app_l. eapply swf_nodup; eauto. }
    { apply (s_b _ _ _ W4). }
    { intros k. cbn [vlen]. rewrite Nat.ltb_lt. split; [intros; exists k; split; auto|intros (j & Hj & ->); auto]. }
    { intros i v Hi Hv. rewrite (get_ok _ _ O) by lia. cbn [bind]. rewrite vget_ok by (rewrite (s_b _ _ _ W4); auto). cbn [bind].
      change (nth i (tib t4) O) with (bc (tib t4) i). specialize (LT4 i Hi). replace (bc (tib t4) i <? vlen ans)%nat with true by (symmetry; apply Nat.ltb_lt; lia).
      now rewrite Nat.sub_0_r. }
    unfold _zLPTableauAns. rewrite LI4. rs. rewrite EX. cbn [bind]. eexists. split; [reflexivity|]. cbn [vlen Nat.add] in *. rewrite LA in *.
    set (bs := bsol m (tib t4) (vel (tb t4))) in *.
    assert (BS : sol m n sT sb bs) by (apply (v_sol _ _ _ _ _ _ _ V4'); apply bsol_sol with (1 := V4')).
    assert (MX : forall i, mulv n (el A) (vel x) i = mulv n (el A) bs i) by (intros i; unfold mulv; apply rsum_ext; intros j Hj; now rewrite PX).
    assert (FX : forall i, (i < m)%nat -> mulv n (el A) (vel x) i = vel b i) by (intros i Hi; rewrite MX; now apply sol_orig).
    destruct (costs_red m n sT sb _ _ _ _ _ _ V4' C4 Z4) as (D4 & _).
    assert (CX : td t4 = dot n (vel c) (vel x)).
    { rewrite D4. unfold val, dot. rewrite <- (spread m n (tib t4) (vel c) (vel (tb t4))) by auto. apply rsum_ext. intros j Hj. now rewrite PX. }
    conjs; auto.
    - intros y (Y1 & Y2). apply (final_cost m n sT sb tol Ht _ (vel c) t4 y I4 O4); auto. now apply sol_orig.
    - intros G1 G2. split.
      + split; auto. intros j Hj. rewrite PX by auto. apply bsol_nonneg. now apply P4.
      + intros y (Y1 & Y2). rewrite <- CX. apply (final_cost m n sT sb tol Ht _ (vel c) t4 y I4 O4); auto. now apply sol_orig.
  Qed.
End Main.

(** every step of a loop that ends was taken *)
Lemma loop_each {St} (P : St -> Prop) (Q : nat -> Prop) f : (forall k s s', P s -> f k s = Ok s' -> P s' /\ Q k) ->
  forall n i s s', loop n i f s = Ok s' -> P s -> forall k, (i <= k < i + n)%nat -> Q k.
Proof.
  intros H. induction n as [|n IH]; intros i s s' E Ps k Hk; [lia|]. cbn [loop] in E. apply bind_ok in E. destruct E as (s1 & E1 & E2).
  destruct (H i s s1 Ps E1) as (P1 & Q1). assert (k = i \/ (S i <= k < S i + n)%nat) as [->|] by lia; eauto.
Qed.
Lemma each_ok {St} (P : St -> Prop) (Q : nat -> Prop) f n s s' : (forall k s s', P s -> f k s = Ok s' -> P s' /\ Q k) ->
  for_ 0 n f s = Ok s' -> P s -> forall k, (k < n)%nat -> Q k.
Proof. intros H E Ps k Hk. unfold for_ in E. eapply loop_each with (i := O); eauto. lia. Qed.

Section Base.
  Context (m n : nat) (tol : R) (Ht : 0 < tol) (A : fmat R) (b : fvec R) (A1 : nr A = m) (A2 : nc A = n) (B1 : vlen b = m) (Hn : (0 < n)%nat).
  Theorem base_main base x : vlen base = n -> good m (n + m) (sT n A b) (sb b) (c1 n) tol ->
    zLPFeasibleBase tol A b base = Ok (Some x) -> vlen x = n /\ std_feasible m n (el A) (vel b) (vel x).
  Proof.
    intros LA G. unfold zLPFeasibleBase. rewrite A1, B1, Nat.eqb_refl. cbn [negb].
    assert (LT : length (tin (zLPTableauCreate A b)) = n) by (unfold zLPTableauCreate; cbn [tin]; rewrite seq_length; auto).
    destruct (simplex_ok m (n + m) (sT n A b) (sb b) tol Ht True (c1 n) (zLPTableauCreate A b) (create_swf m n A b A1 A2 B1) (create_sval m n A b A1 A2 B1) (create_costs m n A b A2)) as (t1 & ok & E & I & L1 & N1 & V1 & _).
    { intros _ _ i _. rewrite t0_b. apply sb_pos. } { lia. }
    rewrite E. cbn [bind]. destruct ok; cbn [negb orb]; [|discriminate]. destruct (is_tol tol (td t1)) eqn:Etd; cbn [negb]; [|discriminate].
    intros EX. apply bind_ok in EX. destruct EX as (x' & EX & H). injection H as ->. unfold _zLPTableauAns in EX.
    destruct I as [W V C Z P]. specialize (P Logic.I G). rewrite (s_ib _ _ _ W) in EX.
    assert (LO : forall k, (k < m)%nat -> (bc (tib t1) k < n)%nat).
    { apply (each_ok (fun v : fvec R => vlen v = n) (fun k => (bc (tib t1) k < n)%nat) _ _ _ _) with (2 := EX); auto.
      intros k s s' Ls Ek. apply bind_ok in Ek. destruct Ek as (i0 & G1 & Ek). apply get_inv in G1. destruct G1 as (Hk & G1).
      apply (nth_error_nth _ _ O) in G1. change (bc (tib t1) k = i0) in G1.
      apply bind_ok in Ek. destruct Ek as (y & _ & Ek). unfold vset in Ek. destruct (Nat.ltb_spec i0 (vlen s)); [|discriminate]. injection Ek as <-. cbn [vlen]. split; auto. lia. }
    destruct (answer_loop (tib t1) (tb t1) m (FV (vlen base) (fun _ => 0)) 0 (fun k => (k <? vlen base)%nat)
      (fun i ans => ibi <- get (tib t1) i ;; x <- vget (tb t1) i ;; vset ans ibi x)) as (v & EV & LV & PV); auto.
    { apply (s_ib _ _ _ W). }
    { eapply nodup_app_l. eapply swf_nodup; eauto. }
    { apply (s_b _ _ _ W). }
    { intros k. cbn [vlen]. rewrite Nat.ltb_lt. split; [intros; exists k; split; auto|intros (j & Hj & ->); auto]. }
    { intros i v Hi Hv. rewrite (get_ok _ _ O) by (rewrite (s_ib _ _ _ W); lia). cbn [bind]. rewrite vget_ok by (rewrite (s_b _ _ _ W); auto). cbn [bind].
      change (nth i (tib t1) O) with (bc (tib t1) i). specialize (LO i Hi). replace (bc (tib t1) i <? vlen base)%nat with true by (symmetry; apply Nat.ltb_lt; lia).
      now rewrite Nat.sub_0_r. }
    rs. rewrite EV in EX. injection EX as ->. cbn [vlen Nat.add] in *. rewrite LA in *. split; auto.
    assert (Vn : valid m n (sT n A b) (sb b) (tib t1) (el (ta t1)) (vel (tb t1))) by (apply restrict; auto).
    split.
    - intros j Hj. rewrite PV by auto. apply bsol_nonneg. auto.
    - intros i Hi. rewrite <- (proj1 (sol_orig m n A b A1 A2 B1 (bsol m (tib t1) (vel (tb t1)))) (proj2 (v_sol _ _ _ _ _ _ _ Vn _) (bsol_sol _ _ _ _ _ _ _ Vn)) i Hi).
      unfold mulv. apply rsum_ext. intros j Hj. now rewrite PV.
  Qed.
  (** when the first phase accepts, there is a feasible point; the rows may depend on each other *)
  Theorem infeasible_main (c ans : fvec R) : good m (n + m) (sT n A b) (sb b) (c1 n) tol ->
    ~ (exists x, std_feasible m n (el A) (vel b) x) -> zLPSolveSimplex tol A b c ans = Ok None.
  Proof.
    intros G NF. unfold zLPSolveSimplex. rewrite A1, A2, B1. destruct (negb _); [reflexivity|]. destruct (negb _); [reflexivity|].
    assert (LT : length (tin (zLPTableauCreate A b)) = n) by (unfold zLPTableauCreate; cbn [tin]; rewrite seq_length; auto).
    destruct (simplex_ok m (n + m) (sT n A b) (sb b) tol Ht True (c1 n) (zLPTableauCreate A b) (create_swf m n A b A1 A2 B1) (create_sval m n A b A1 A2 B1) (create_costs m n A b A2)) as (t1 & ok & E & I & L1 & N1 & V1 & _).
    { intros _ _ i _. rewrite t0_b. apply sb_pos. } { lia. }
    rewrite E. cbn [bind]. destruct ok; cbn [negb orb]; [|reflexivity]. destruct (is_tol tol (td t1)) eqn:Etd; cbn [negb]; [|reflexivity].
    exfalso. apply NF. destruct I as [W V C Z P]. specialize (P Logic.I G).
    assert (AZ : forall i, (i < m)%nat -> (n <= bc (tib t1) i)%nat -> vel (tb t1) i = 0).
    { destruct (costs_red m (n + m) _ _ _ _ _ _ _ _ V C Z) as (D & _). destruct (G _ _ _ V) as (_ & _ & G3). rewrite <- D in G3.
      rewrite is_tol_R in Etd. destruct (Rleb_spec (Rabs (td t1)) tol) as [X|]; [|discriminate]. destruct G3 as [G3|G3]; [|lra].
      rewrite G3 in D. intros i Hi Ha. symmetry in D. unfold val in D.
      pose proof (rsum_nonneg_0 m (fun k => c1 n (bc (tib t1) k) * vel (tb t1) k)) as RN.
      assert (Zi : c1 n (bc (tib t1) i) * vel (tb t1) i = 0).
      { apply (RN); auto. intros k Hk. apply Rmult_le_pos; auto. unfold c1. nbt; lra. }
      unfold c1 in Zi. replace (bc (tib t1) i <? n)%nat with false in Zi by nbq. lra. }
    exists (bsol m (tib t1) (vel (tb t1))). split; [intros j Hj; apply bsol_nonneg; auto|].
    apply (sol_orig m n A b A1 A2 B1). intros i Hi.
    pose proof (proj2 (v_sol _ _ _ _ _ _ _ V _) (bsol_sol _ _ _ _ _ _ _ V) i Hi) as S. rewrite rsum_app in S.
    rewrite (rsum_0 m) in S; [now rewrite Rplus_0_r in S|].
    intros k Hk. replace (bsol m (tib t1) (vel (tb t1)) (n + k)%nat) with 0; [ring|]. symmetry. unfold bsol. apply rsum_0.
    intros l Hl. destruct (Nat.eqb_spec (bc (tib t1) l) (n + k)); auto. apply AZ; auto. lia.
  Qed.
End Base.
