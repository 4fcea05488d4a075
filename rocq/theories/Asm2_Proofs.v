(** Lemmas for C101: the preparation, the exchange of constraints, the loop. *)
From Coq Require Import Reals Lra Lia List Permutation.
From Verif Require Import Prelude Prelude_Proofs Scalar RealLib Fmat Fmat_Proofs LE_Model LE_Spec LE3_Proofs LE_Props IP_Model Vop Qp_Model Qp_Spec Qp_Proofs Lp_Model Lp_Spec Lp_Proofs Lp2_Proofs Lp4_Proofs Asm_Model Asm_Spec Stab_Proofs Asm_Proofs.
Import ListNotations.
Local Open Scope R_scope.

Lemma rm_perm l v : NoDup l -> In v l -> Permutation (v :: index_remove_val l v) l.
Proof.
  induction l as [|x l IH]; intros ND H; [destruct H|]. inversion ND as [|? ? NI ND']; subst. cbn [index_remove_val filter]. destruct (Nat.eqb_spec x v) as [->|N]; cbn [negb].
  - constructor. unfold index_remove_val. clear - NI. induction l as [|y l IH]; cbn [filter]; auto. destruct (Nat.eqb_spec y v) as [->|]; cbn [negb]; [exfalso; apply NI; now left|].
    constructor. apply IH. intros X. apply NI. now right.
  - destruct H as [|H]; [congruence|]. rewrite perm_swap. constructor. now apply IH.
Qed.
Lemma rmi_perm (l : list nat) i : (i < length l)%nat -> Permutation (nth i l O :: index_remove l i) l.
Proof.
  revert i. induction l as [|x l IH]; intros i H; cbn in H; [lia|]. destruct i as [|i]; cbn; auto. unfold index_remove. cbn [firstn skipn app].
  rewrite perm_swap. constructor. apply IH. lia.
Qed.
Lemma rmi_len (l : list nat) i : (i < length l)%nat -> S (length (index_remove l i)) = length l.
Proof. intros H. now rewrite <- (Permutation_length (rmi_perm l i H)). Qed.
Lemma indep_sub m n A S S' : (forall i, In i S' -> In i S) -> indep m n A S -> indep m n A S'.
Proof. intros H I u Z. apply I. intros i N. apply Z. auto. Qed.

Section Asm.
  Context (m n : nat) (Q A : fmat R) (b c : fvec R).
  Context (Q1 : nr Q = n) (Q2 : nc Q = n) (A1 : nr A = m) (A2 : nc A = n) (B1 : vlen b = m) (C1 : vlen c = n).
  Context (Hn : (0 < n)%nat) (Hnm : (n <= m)%nat) (SQ : Qp_Spec.symmetric n (el Q)) (PQ : pos_def n (el Q)).
  Context (ins : list nat -> nat -> list nat) (Hins : forall l v, Permutation (ins l v) (v :: l)).
  Local Notation inv := (inv m n A b).
  Local Notation wok := (wok m n Q A b c).

  Lemma Q_nonsing : nonsingular n (el Q).
  Proof.
    intros x S i Hi. destruct (Req_dec (x i) 0) as [|N]; auto. exfalso. assert (P : 0 < dot n x (mulv n (el Q) x)) by (apply PQ; eauto).
    assert (dot n x (mulv n (el Q) x) = 0); [|lra]. apply rsum_0. intros j Hj. pose proof (S j Hj) as E. unfold mv in E. unfold mulv. rewrite E. ring.
  Qed.
  Lemma aqat_ok (P M0 : fmat R) : nr P = n -> nc P = n -> nr M0 = m -> nc M0 = m -> exists M, zMulMatMatMatTNC A P M0 = Ok M /\ nr M = m /\ nc M = m /\
    forall i j, (i < m)%nat -> (j < m)%nat -> el M i j = dot n (el A i) (mulv n (el P) (el A j)).
  Proof.
    clear Hnm. intros P1 P2 M1 M2. unfold zMulMatMatMatTNC. rewrite P1, A1.
    destruct (for_inv (fun i (M : fmat R) => nr M = m /\ nc M = m /\ forall k j, (k < m)%nat -> (j < m)%nat -> el M k j = rsum i (fun r => el A k r * mulv n (el P) (el A j) r)) 0 n
      (fun i M => for_ 0 m (fun j m0 => y <- for_ 0 (nc P) (fun k y => x <- mget P i k ;; z <- mget A j k ;; Ok (y + x * z)%S) 0%S ;;
         for_ 0 m (fun k m0 => x <- mget A k i ;; mmod m0 k j (fun v => v + x * y)%S) m0) M) (zmat (nr M0) (nc M0))) as (M & E & K1 & K2 & K3).
    { lia. } { rewrite M1, M2. conjs; auto. }
    2:{ exists M. split; [exact E|]. conjs; auto. }
    intros i M Hi (I1 & I2 & I3).
    destruct (for_inv (fun j (M' : fmat R) => nr M' = m /\ nc M' = m /\ forall k l, (k < m)%nat -> (l < m)%nat -> el M' k l = if (l <? j)%nat then el M k l + el A k i * mulv n (el P) (el A l) i else el M k l) 0 m
      (fun j m0 => y <- for_ 0 (nc P) (fun k y => x <- mget P i k ;; z <- mget A j k ;; Ok (y + x * z)%S) 0%S ;;
         for_ 0 m (fun k m0 => x <- mget A k i ;; mmod m0 k j (fun v => v + x * y)%S) m0) M) as (M' & E & J1 & J2 & J3).
    { lia. } { conjs; auto; intros; nbq. }
    2:{ exists M'. split; [exact E|]. conjs; auto. intros k j Hk Hj. rewrite J3 by auto. replace (j <? m)%nat with true by nbq. rewrite I3 by auto. cbn [rsum]. reflexivity. }
    intros j M' Hj (J1 & J2 & J3).
    destruct (for_inv (fun k (y : R) => y = rsum k (fun k => el P i k * el A j k)) 0 (nc P) (fun k y => x <- mget P i k ;; z <- mget A j k ;; Ok (y + x * z)%S) 0%S) as (y & EY & Y).
    { lia. } { reflexivity. } { intros k y Hk ->. rewrite !mget_ok by lia. cbn [bind]. eexists. split; [reflexivity|]. cbn [rsum]. rs. ring. }
    rewrite EY. cbn [bind]. rewrite P2 in Y. change (rsum n (fun k => el P i k * el A j k)) with (mulv n (el P) (el A j) i) in Y. subst y.
    destruct (for_inv (fun k (M'' : fmat R) => nr M'' = m /\ nc M'' = m /\ forall p l, (p < m)%nat -> (l < m)%nat -> el M'' p l = if (l =? j)%nat && (p <? k)%nat then el M' p l + el A p i * mulv n (el P) (el A l) i else el M' p l) 0 m
      (fun k m0 => x <- mget A k i ;; mmod m0 k j (fun v => v + x * mulv n (el P) (el A j) i)%S) M') as (M'' & E & L1 & L2 & L3).
    { lia. } { conjs; auto; intros; nbq. }
    2:{ exists M''. split; [exact E|]. conjs; auto. intros k l Hk Hl. rewrite L3 by auto. replace (k <? m)%nat with true by nbq. rewrite J3 by auto.
        destruct (Nat.eqb_spec l j) as [->|]; cbn [andb]; nbq. }
    intros k M'' Hk (L1 & L2 & L3). rewrite mget_ok by lia. cbn [bind]. rewrite mmod_ok, mset_ok by lia. eexists. split; [reflexivity|]. cbn [nr nc el]. conjs; auto.
    intros p l Hp Hl. rewrite (L3 p l), (L3 k j) by lia. rs.
    destruct (Nat.eqb_spec l j) as [->|], (Nat.eqb_spec p k) as [->|]; cbn [andb]; nbq.
  Qed.

  Lemma init_ok : exists w, ev (fun t => _zQPASMInit t Q c A b) (Ok w) /\ wok w.
  Proof.
    clear Hnm. destruct (C29_inverse_partial n Q (zmat n n)) as (X & EX & X1 & X2 & X3); auto using Q_nonsing.
    destruct (mstore_ok X) as (S1 & S2 & S3). rewrite X1 in S1. rewrite X2 in S2. rewrite X1, X2 in S3. set (P := mstore X) in *.
    destruct (aqat_ok P (zmat m m)) as (M & EM & M1 & M2 & M3); auto.
    destruct (mulmv_R P c (vzero n)) as (v & EV & V1 & V2). { congruence. } { auto. }
    destruct (store_ok v) as (T1 & T2). cbn [vzero vlen] in V1, V2. rewrite V1 in T1, T2. set (qc := store v) in *.
    destruct (mulmv_R A qc (vzero m)) as (u & EU & U1 & U2). { congruence. } { auto. }
    cbn [vzero vlen] in U1, U2. rewrite T1 in U2.
    destruct (vec_loop u 0 (vlen u) (fun i v => x <- vget b i ;; vmod v i (fun y => y + x)%S) (fun i => vel u i + vel b i)) as (w & EW & W1 & W2); try lia.
    { intros j v' Hj Lv Sv. rewrite vget_ok by lia. cbn [bind]. rewrite vmod_ok by lia. rewrite Sv by lia. reflexivity. }
    destruct (store_ok w) as (R1 & R2). destruct (mstore_ok M) as (N1 & N2 & N3).
    exists (Work P (mstore M) qc (store w) m). split.
    - unfold _zQPASMInit. rewrite C1, B1, A1.
      eapply ev_bind. { pose proof (st_matinv Q (zmat n n)) as S. unfold st in S. rewrite EX in S. exact S. }
      cbn beta iota zeta. fold P.
      eapply ev_bind_c; [exact EM|]. eapply ev_bind_c; [exact EV|]. cbn zeta. fold qc. eapply ev_bind_c; [exact EU|]. eapply ev_bind_c; [exact EW|]. apply ev_const.
    - split; cbn [qinv aqinvat qinvc aqinvc_plus_b ncell]; auto; try congruence.
      + intros r j Hr Hj. rewrite <- X3 by auto. apply rsum_ext. intros k Hk. now rewrite S3.
      + intros i j Hi Hj. rewrite N3 by lia. auto.
      + intros i Hi. rewrite T2 by auto. rewrite V2 by auto. now rewrite C1.
      + intros i Hi. rewrite R2 by lia. rewrite W2. replace ((0 <=? i)%nat && (i <? vlen u)%nat) with true by nbq. now rewrite U2.
  Qed.

  (** ** adding a constraint *)
  Lemma row_R (x : fvec R) i : vlen x = n -> (i < m)%nat -> row_prod A i x = Ok (mulv n (el A) (vel x) i).
  Proof. intros L H. unfold row_prod. rewrite A1, A2, L. replace ((i <? m)%nat && (n <=? n)%nat) with true by nbq. now rewrite ksum_R. Qed.
  Definition ratio s (x : fvec R) i : R := (vel b i - mulv n (el A) (vel (xtmp s)) i) / (mulv n (el A) (vel x) i - mulv n (el A) (vel (xtmp s)) i).
  Lemma search_ok s x : inv s -> vlen x = n -> exists r, ev (fun t => addeq_search t s A b x) (Ok r) /\
    match r with
    | None => forall i, In i (inn s) -> vel b i <= mulv n (el A) (vel x) i
    | Some (d, p) => In p (inn s) /\ mulv n (el A) (vel x) p < vel b p /\ d = ratio s x p /\
        forall i, In i (inn s) -> mulv n (el A) (vel x) i < vel b i -> d <= ratio s x i
    end.
  Proof.
    intros I LX.
    assert (H : exists r, addeq_search 0 s A b x = Ok r /\
      match r with
      | None => forall i, In i (inn s) -> vel b i <= mulv n (el A) (vel x) i
      | Some (d, p) => In p (inn s) /\ mulv n (el A) (vel x) p < vel b p /\ d = ratio s x p /\
        forall i, In i (inn s) -> mulv n (el A) (vel x) i < vel b i -> d <= ratio s x i
      end).
    2:{ destruct H as (r & E & H). exists r. split; auto. assert (S : st (fun t => addeq_search t s A b x)) by (unfold addeq_search; stab). unfold st in S. now rewrite E in S. }
    unfold addeq_search.
    match goal with |- context [for_ 0 _ ?f None] =>
    destruct (for_inv (fun k (r : option (R * nat)) => match r with
      | None => forall l, (l < k)%nat -> vel b (bc (inn s) l) <= mulv n (el A) (vel x) (bc (inn s) l)
      | Some (d, p) => In p (inn s) /\ mulv n (el A) (vel x) p < vel b p /\ d = ratio s x p /\
          forall l, (l < k)%nat -> mulv n (el A) (vel x) (bc (inn s) l) < vel b (bc (inn s) l) -> d <= ratio s x (bc (inn s) l)
      end) 0 (length (inn s)) f None) as (r & E & P) end.
    { lia. } { intros; lia. }
    2:{ exists r. split; [exact E|]. destruct r as [[d p]|].
        - destruct P as (P1 & P2 & P3 & P4). conjs; auto. intros i Hi. apply (In_nth _ _ O) in Hi. destruct Hi as (l & Hl & <-). exact (P4 l Hl).
        - intros i Hi. apply (In_nth _ _ O) in Hi. destruct Hi as (l & Hl & <-). exact (P l Hl). }
    intros k r Hk P. rewrite (get_ok _ _ O) by lia. cbn [bind]. change (nth k (inn s) O) with (bc (inn s) k). set (p := bc (inn s) k) in *.
    assert (IP : In p (inn s)) by (apply nth_In; lia).
    assert (Hp : (p < m)%nat) by (apply (inv_lt m n A b s); auto; apply in_or_app; auto).
    rewrite row_R by auto. cbn [bind]. rewrite vget_ok by lia. cbn [bind]. rs.
    destruct (Rleb_spec (vel b p) (mulv n (el A) (vel x) p)) as [Le|Gt].
    - exists r. split; auto. destruct r as [[d q]|].
      + destruct P as (P1 & P2 & P3 & P4). conjs; auto. intros l Hl. destruct (Nat.eq_dec l k) as [->|]; [fold p; intros; lra|]. apply P4. lia.
      + intros l Hl. destruct (Nat.eq_dec l k) as [->|]; auto. apply P. lia.
    - rewrite row_R by (auto; apply (v_x _ _ _ _ _ I)). cbn [bind]. rs. fold (ratio s x p).
      pose proof (v_in _ _ _ _ _ I p IP) as IN.
      match goal with |- context [Rleb (Rabs ?e) 0] => destruct (Rleb_spec (Rabs e) 0) as [Z|_]; [exfalso; revert Z; unfold Rabs; destruct (Rcase_abs _); lra|] end.
      destruct r as [[d q]|].
      + destruct P as (P1 & P2 & P3 & P4). destruct (Rltb_spec (ratio s x p) d) as [Lt|Ge].
        * eexists. split; [reflexivity|]. cbn iota. repeat match goal with |- _ /\ _ => split end; auto; try lra. intros l Hl Hb. destruct (Nat.eq_dec l k) as [->|]; [fold p; lra|]. specialize (P4 l ltac:(lia) Hb). lra.
        * eexists. split; [reflexivity|]. cbn iota. conjs; auto. intros l Hl Hb. destruct (Nat.eq_dec l k) as [->|]; [fold p; lra|]. apply P4; auto. lia.
      + eexists. split; [reflexivity|]. cbn iota. repeat match goal with |- _ /\ _ => split end; auto; try lra. intros l Hl Hb. destruct (Nat.eq_dec l k) as [->|]; [fold p; lra|]. exfalso. specialize (P l ltac:(lia)). lra.
  Qed.
  Lemma comb_dot u z : rsum m (fun i => u i * mulv n (el A) z i) = rsum n (fun j => comb m (el A) u j * z j).
  Proof.
    unfold mulv, comb. rewrite (rsum_ext m _ (fun i => rsum n (fun j => u i * el A i j * z j))) by (intros; rewrite <- rsum_scal; apply rsum_ext; intros; ring).
    rewrite rsum_swap. apply rsum_ext. intros; now rewrite rsum_scal_r.
  Qed.
  Lemma addEq_ok s x : inv s -> vlen x = n -> (forall i, In i (ia s) -> mulv n (el A) (vel x) i = vel b i) ->
    exists r, ev (fun t => _zQPASMAddEq t ins s A b x) (Ok r) /\
    match r with None => forall i, In i (inn s) -> vel b i <= mulv n (el A) (vel x) i | Some s' => inv s' end.
  Proof.
    intros I LX HX. destruct (search_ok s x I LX) as (r & E & P). destruct r as [[d p]|].
    2:{ exists None. split; auto. unfold _zQPASMAddEq. eapply ev_bind; [exact E|]. apply ev_const. }
    destruct P as (P1 & P2 & P3 & P4). set (y := FV (vlen (xtmp s)) (fun i => vel (xtmp s) i + d * (vel x i - vel (xtmp s) i))).
    exists (Some (Asm (store y) (ins (ia s) p) (index_remove_val (inn s) p) (lam s))). split.
    { unfold _zQPASMAddEq. eapply ev_bind; [exact E|]. apply ev_const. }
    destruct (store_ok y) as (Y1 & Y2). pose proof (v_x _ _ _ _ _ I) as LT. change (vlen y) with (vlen (xtmp s)) in Y1, Y2. rewrite LT in Y1, Y2.
    pose proof (v_in _ _ _ _ _ I p P1) as IN. pose proof (inv_nodup _ _ _ _ s I) as ND.
    assert (NDi : NoDup (inn s)) by (eapply nodup_app_r; eauto).
    pose proof (rm_perm (inn s) p NDi P1) as RM.
    assert (MY : forall i, mulv n (el A) (vel (store y)) i = mulv n (el A) (vel (xtmp s)) i + d * (mulv n (el A) (vel x) i - mulv n (el A) (vel (xtmp s)) i)).
    { intros i. rewrite (mulv_ext n (el A) _ (fun j => vel (xtmp s) j + d * (vel x j + (-1) * vel (xtmp s) j))).
      - rewrite (mulv_lin n (el A) (vel (xtmp s)) (fun j => vel x j + (-1) * vel (xtmp s) j) d), (mulv_lin n (el A) (vel x) (vel (xtmp s)) (-1)). ring.
      - intros j Hj. rewrite Y2 by auto. unfold y. cbn [vel]. ring. }
    assert (R1 : mulv n (el A) (vel x) p - mulv n (el A) (vel (xtmp s)) p < 0) by lra.
    assert (D0 : 0 <= d).
    { rewrite P3. unfold ratio. replace ((vel b p - mulv n (el A) (vel (xtmp s)) p) / (mulv n (el A) (vel x) p - mulv n (el A) (vel (xtmp s)) p)) with
        ((mulv n (el A) (vel (xtmp s)) p - vel b p) * / (mulv n (el A) (vel (xtmp s)) p - mulv n (el A) (vel x) p)) by (field; lra).
      apply Rmult_le_pos; [lra|]. left. apply Rinv_0_lt_compat. lra. }
    assert (D1 : d <= 1).
    { rewrite P3. unfold ratio. replace ((vel b p - mulv n (el A) (vel (xtmp s)) p) / (mulv n (el A) (vel x) p - mulv n (el A) (vel (xtmp s)) p)) with
        (1 - (vel b p - mulv n (el A) (vel x) p) * / (mulv n (el A) (vel (xtmp s)) p - mulv n (el A) (vel x) p)) by (field; lra).
      assert (0 <= (vel b p - mulv n (el A) (vel x) p) * / (mulv n (el A) (vel (xtmp s)) p - mulv n (el A) (vel x) p)); [|lra]. apply Rmult_le_pos; [lra|]. left. apply Rinv_0_lt_compat. lra. }
    assert (EP : mulv n (el A) (vel (store y)) p = vel b p). { rewrite MY, P3. unfold ratio. field. lra. }
    split; cbn [xtmp ia inn lam]; auto.
    - apply (v_l _ _ _ _ _ I).
    - rewrite (Hins (ia s) p). rewrite <- (v_perm _ _ _ _ _ I). cbn [app]. rewrite Permutation_middle. apply Permutation_app_head. exact RM.
    - intros i Hi. apply (Permutation_in _ (Hins (ia s) p)) in Hi. destruct Hi as [<-|Hi]; auto. rewrite MY, HX, (v_act _ _ _ _ _ I) by auto. ring.
    - intros i Hi. assert (Hi' : In i (inn s)) by (apply (Permutation_in _ RM); now right). rewrite MY. pose proof (v_in _ _ _ _ _ I i Hi') as Z.
      destruct (Rle_lt_dec (vel b i) (mulv n (el A) (vel x) i)) as [G|L].
      + set (u := mulv n (el A) (vel x) i) in *. set (v := mulv n (el A) (vel (xtmp s)) i) in *. clearbody u v.
        replace (v + d * (u - v)) with ((1 - d) * v + d * u) by ring. assert (0 <= (1 - d) * (v - vel b i)) by (apply Rmult_le_pos; lra). assert (0 <= d * (u - vel b i)) by (apply Rmult_le_pos; lra). lra.
      + specialize (P4 i Hi' L). unfold ratio in P4. set (u := mulv n (el A) (vel x) i) in *. set (v := mulv n (el A) (vel (xtmp s)) i) in *. clearbody u v.
        assert (K : d * (v - u) <= (vel b i - v) / (u - v) * (v - u)) by (apply Rmult_le_compat_r; lra).
        replace ((vel b i - v) / (u - v) * (v - u)) with (v - vel b i) in K by (field; lra). lra.
    - intros u Z C. assert (Up : u p = 0).
      { pose proof (comb_dot u (fun j => vel x j + (-1) * vel (xtmp s) j)) as CD. rewrite (rsum_0 n) in CD by (intros j Hj; rewrite C by auto; ring).
        assert (Hp : (p < m)%nat) by (apply (inv_lt m n A b s); auto; apply in_or_app; auto).
        rewrite (rsum_delta m p) in CD; auto.
        - rewrite mulv_lin in CD. replace (mulv n (el A) (vel x) p + -1 * mulv n (el A) (vel (xtmp s)) p) with (mulv n (el A) (vel x) p - mulv n (el A) (vel (xtmp s)) p) in CD by ring.
          apply Rmult_integral in CD. destruct CD; auto. lra.
        - intros i Hi Ni. rewrite mulv_lin. destruct (in_dec Nat.eq_dec i (ia s)) as [Ii|Ii].
          + rewrite HX, (v_act _ _ _ _ _ I) by auto. ring.
          + rewrite (Z i); [ring|]. intros X. apply (Permutation_in _ (Hins (ia s) p)) in X. destruct X; congruence. }
      apply (v_ind _ _ _ _ _ I u); auto. intros i Ni. destruct (Nat.eq_dec i p) as [->|Np]; auto. apply Z. intros X. apply (Permutation_in _ (Hins (ia s) p)) in X. destruct X; congruence.
  Qed.

  (** ** removing constraints *)
  Lemma delEq_ok s : inv s -> exists s' f, _zQPASMDelEq ins s = Ok (s', f) /\ inv s' /\ (f = false -> s' = s /\ forall k, (k < length (ia s))%nat -> 0 <= vel (lam s) k).
  Proof.
    intros I. unfold _zQPASMDelEq. pose proof (ia_len _ _ _ _ s I) as Lk.
    match goal with |- context [for_ 0 _ ?g _] =>
    destruct (for_inv (fun i '(s', ic, f) => inv s' /\ lam s' = lam s /\ (ic + (length (ia s) - i) = length (ia s'))%nat /\
      (f = false -> s' = s /\ forall k, (k < i)%nat -> 0 <= vel (lam s) k)) 0 (length (ia s)) g (s, O, false)) as (((s', ic), f) & E & P1 & P2 & P3 & P4) end.
    { lia. } { conjs; auto; try lia. intros _. split; auto. intros; lia. }
    2:{ rewrite E. cbn [bind]. exists s', f. auto. }
    intros i ((s', ic), f) Hi (P1 & P2 & P3 & P4). rewrite P2. rewrite vget_ok by (rewrite (v_l _ _ _ _ _ I); lia). cbn [bind]. rs.
    destruct (Rltb_spec (vel (lam s) i) 0) as [Lt|Ge].
    - rewrite (get_ok _ _ O) by lia. cbn [bind]. set (k := nth ic (ia s') O). eexists. split; [reflexivity|]. cbn beta iota.
      assert (Hic : (ic < length (ia s'))%nat) by lia. pose proof (rmi_perm (ia s') ic Hic) as RP. fold k in RP. pose proof (rmi_len (ia s') ic Hic) as RL.
      cbn [ia inn lam xtmp]. conjs; auto; try lia; try discriminate.
      split; cbn [xtmp ia inn lam].
      + apply (v_x _ _ _ _ _ P1).
      + rewrite <- P2. apply (v_l _ _ _ _ _ P1).
      + rewrite <- (v_perm _ _ _ _ _ P1). rewrite (Hins (inn s') k). rewrite <- Permutation_middle. change (k :: index_remove (ia s') ic ++ inn s') with ((k :: index_remove (ia s') ic) ++ inn s').
        apply Permutation_app_tail. exact RP.
      + intros j Hj. apply (v_act _ _ _ _ _ P1). apply (Permutation_in _ RP). now right.
      + intros j Hj. apply (Permutation_in _ (Hins (inn s') k)) in Hj. destruct Hj as [<-|Hj].
        * rewrite (v_act _ _ _ _ _ P1); [lra|]. now apply nth_In.
        * now apply (v_in _ _ _ _ _ P1).
      + apply indep_sub with (2 := v_ind _ _ _ _ _ P1). intros j Hj. apply (Permutation_in _ RP). now right.
    - eexists. split; [reflexivity|]. cbn beta iota. conjs; auto; try lia. intros F. destruct (P4 F) as (-> & P5). split; auto. intros k Hk. destruct (Nat.eq_dec k i) as [->|]; [lra|]. apply P5. lia.
  Qed.

  (** ** the conditions of Karush, Kuhn and Tucker suffice *)
  Lemma kkt x l L : (forall i, In i L -> (i < m)%nat /\ mulv n (el A) x i = vel b i) -> (forall k, (k < length L)%nat -> 0 <= l k) ->
    (forall j, (j < n)%nat -> mulv n (el Q) x j + vel c j = lc A L l j) -> forall y, above m n (el A) (vel b) y -> quad n (el Q) (vel c) x <= quad n (el Q) (vel c) y.
  Proof.
    intros HL Hl G y F. set (e := fun j => y j + (-1) * x j).
    assert (E : quad n (el Q) (vel c) y = quad n (el Q) (vel c) x + dot n e (mulv n (el Q) e) / 2 + dot n (fun j => mulv n (el Q) x j + vel c j) e).
    { rewrite (quad_ext n (el Q) (vel c) y (fun j => x j + 1 * e j)) by (intros j Hj; unfold e; ring).
      rewrite (quad_step n (el Q) SQ (vel c) x e 1). rewrite (dot_sym n e (fun i => mulv n (el Q) x i + vel c i)). field. }
    assert (P : 0 <= dot n e (mulv n (el Q) e)).
    { destruct (Classical_Prop.classic (exists i, (i < n)%nat /\ e i <> 0)) as [X|X]; [left; now apply PQ|]. right. symmetry. apply rsum_0. intros i Hi.
      destruct (Req_dec (e i) 0) as [->|N]; [ring|]. exfalso. eauto. }
    assert (D : 0 <= dot n (fun j => mulv n (el Q) x j + vel c j) e).
    { rewrite (dot_ext n _ (lc A L l) e e) by auto. rewrite (lc_dot n). apply rsum_nonneg. intros k Hk. apply Rmult_le_pos; auto.
      destruct (HL (bc L k)) as (H1 & H2); [now apply nth_In|]. unfold e. rewrite mulv_lin, H2. specialize (F _ H1). lra. }
    lra.
  Qed.

  (** ** the loop *)
  Lemma loop_ok w : wok w -> forall fuel s x, inv s -> vlen x = n -> exists r, ev (fun t => asm_loop t ins fuel w A b s x) (Ok r) /\
    match r with Done y => vlen y = n /\ qp_optimal m n (el Q) (vel c) (el A) (vel b) (vel y) | Running => True | Failed => False end.
  Proof.
    intros W. induction fuel as [|fuel IH]; intros s x I LX; cbn [asm_loop].
    { exists Running. split; [apply ev_const|auto]. }
    destruct (solveEq_ok m n Q A b c Q1 Q2 A1 A2 B1 C1 Hn Hnm SQ PQ w s x) as (y & l & E & LY & LL & Y1 & Y2); auto.
    set (s1 := Asm (xtmp s) (ia s) (inn s) l) in *.
    assert (I1 : inv s1) by (destruct I; split; auto).
    destruct (addEq_ok s1 y I1 LY Y1) as (r & EA & PA). destruct r as [s2|].
    - destruct (IH s2 y PA LY) as (r & ER & PR). exists r. split; auto. eapply ev_bind; [exact E|]. cbn beta iota. eapply ev_bind; [exact EA|]. exact ER.
    - destruct (delEq_ok s1 I1) as (s2 & f & ED & I2 & PD). destruct f.
      + destruct (IH s2 y I2 LY) as (r & ER & PR). exists r. split; auto. eapply ev_bind; [exact E|]. cbn beta iota. eapply ev_bind; [exact EA|]. cbn beta iota. eapply ev_bind_c; [exact ED|]. exact ER.
      + exists (Done y). split. { eapply ev_bind; [exact E|]. cbn beta iota. eapply ev_bind; [exact EA|]. cbn beta iota. eapply ev_bind_c; [exact ED|]. cbv beta iota; apply ev_const. }
        destruct (PD eq_refl) as (_ & PL). split; auto. split.
        * intros i Hi. destruct (inv_all _ _ _ _ s1 i I1 Hi) as [X|X]; auto. rewrite Y1 by auto. lra.
        * apply (kkt (vel y) (vel l) (ia s)); auto. intros i Hi. split; auto. apply (inv_lt m n A b s1); auto. apply in_or_app. auto.
  Qed.
End Asm.
