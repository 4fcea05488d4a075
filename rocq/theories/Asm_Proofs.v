(** Lemmas for C101: the linear algebra of the active set and one system of equations. *)
From Coq Require Import Reals Lra Lia List Permutation.
From Verif Require Import Prelude Prelude_Proofs Scalar RealLib Fmat Fmat_Proofs LE_Model LE_Spec LE3_Proofs LE_Props IP_Model Vop Qp_Model Qp_Spec Qp_Proofs Lp_Model Lp_Spec Lp_Proofs Lp2_Proofs Lp4_Proofs Asm_Model Asm_Spec Stab_Proofs.
Import ListNotations.
Local Open Scope R_scope.

Lemma ev_bind_c {X Y} (E : res X) (G : R -> X -> res Y) x v : E = Ok x -> ev (fun t => G t x) v -> ev (fun t => bind E (G t)) v.
Proof. intros ->. cbn [bind]. auto. Qed.

Lemma store_ok (v : fvec R) : vlen (store v) = vlen v /\ forall i, (i < vlen v)%nat -> vel (store v) i = vel v i.
Proof.
  unfold store, vec_of, to_list. cbn [vlen vel]. split; [now rewrite map_length, seq_length|]. intros i Hi.
  rewrite (nth_indep _ _ (vel v O)) by (rewrite map_length, seq_length; auto). rewrite map_nth, seq_nth by auto. reflexivity.
Qed.
Lemma mstore_ok (m : fmat R) : nr (mstore m) = nr m /\ nc (mstore m) = nc m /\ forall i j, (i < nr m)%nat -> (j < nc m)%nat -> el (mstore m) i j = el m i j.
Proof.
  unfold mstore. cbn [nr nc el]. conjs; auto. intros i j Hi Hj. unfold to_lists.
  rewrite (nth_indep _ _ (map (el m O) (List.seq 0 (nc m)))) by (rewrite map_length, seq_length; auto).
  rewrite (map_nth (fun i => map (el m i) (List.seq 0 (nc m)))), seq_nth by auto.
  rewrite (nth_indep _ _ (el m (0 + i) O)) by (rewrite map_length, seq_length; auto). rewrite map_nth, seq_nth by auto. reflexivity.
Qed.

(** independence of the constraints of a set *)
Definition indep (m n : nat) (A : nat -> nat -> R) (S : list nat) : Prop :=
  forall u, (forall i, ~ In i S -> u i = 0) -> (forall j, (j < n)%nat -> comb m A u j = 0) -> forall i, (i < m)%nat -> u i = 0.

Section Asm.
  Context (m n : nat) (Q A : fmat R) (b c : fvec R).
  Record inv (s : @asm R) : Prop := {
    v_x : vlen (xtmp s) = n; v_l : vlen (lam s) = m;
    v_perm : Permutation (ia s ++ inn s) (List.seq 0 m);
    v_act : forall i, In i (ia s) -> mulv n (el A) (vel (xtmp s)) i = vel b i;
    v_in : forall i, In i (inn s) -> vel b i <= mulv n (el A) (vel (xtmp s)) i;
    v_ind : indep m n (el A) (ia s) }.
  Lemma inv_lt s i : inv s -> In i (ia s ++ inn s) -> (i < m)%nat.
  Proof. intros I H. apply (Permutation_in _ (v_perm _ I)) in H. apply in_seq in H. lia. Qed.
  Lemma inv_all s i : inv s -> (i < m)%nat -> In i (ia s) \/ In i (inn s).
  Proof. intros I H. apply in_app_or. apply (Permutation_in _ (Permutation_sym (v_perm _ I))). apply in_seq. lia. Qed.
  Lemma inv_nodup s : inv s -> NoDup (ia s ++ inn s).
  Proof. intros I. eapply Permutation_NoDup; [apply Permutation_sym, (v_perm _ I)|apply seq_NoDup]. Qed.
  Lemma bc_ia s k : inv s -> (k < length (ia s))%nat -> (bc (ia s) k < m)%nat.
  Proof. intros I H. apply (inv_lt s); auto. apply in_or_app. left. now apply nth_In. Qed.
  Lemma ia_len s : inv s -> (length (ia s) <= m)%nat.
  Proof. intros I. pose proof (Permutation_length (v_perm _ I)) as P. rewrite app_length, seq_length in P. lia. Qed.

  Context (Q1 : nr Q = n) (Q2 : nc Q = n) (A1 : nr A = m) (A2 : nc A = n) (B1 : vlen b = m) (C1 : vlen c = n).
  Context (Hn : (0 < n)%nat) (Hnm : (n <= m)%nat) (SQ : Qp_Spec.symmetric n (el Q)) (PQ : pos_def n (el Q)).

  Record wok (w : @work R) : Prop := {
    w_1 : nr (qinv w) = n; w_2 : nc (qinv w) = n;
    w_i : forall r j, (r < n)%nat -> (j < n)%nat -> mm n (el Q) (el (qinv w)) r j = if (r =? j)%nat then 1 else 0;
    w_a1 : nr (aqinvat w) = m; w_a2 : nc (aqinvat w) = m;
    w_a : forall i j, (i < m)%nat -> (j < m)%nat -> el (aqinvat w) i j = dot n (el A i) (mulv n (el (qinv w)) (el A j));
    w_c1 : vlen (qinvc w) = n; w_c : forall i, (i < n)%nat -> vel (qinvc w) i = mulv n (el (qinv w)) (vel c) i;
    w_b1 : vlen (aqinvc_plus_b w) = m; w_b : forall i, (i < m)%nat -> vel (aqinvc_plus_b w) i = mulv n (el A) (vel (qinvc w)) i + vel b i;
    w_n : ncell w = m }.

  Lemma qq w z i : wok w -> (i < n)%nat -> mulv n (el Q) (mulv n (el (qinv w)) z) i = z i.
  Proof.
    intros W Hi. unfold mulv.
    transitivity (rsum n (fun k => rsum n (fun j => el Q i j * el (qinv w) j k) * z k)).
    - rewrite (rsum_ext n _ (fun j => rsum n (fun k => el Q i j * el (qinv w) j k * z k))) by (intros; rewrite <- rsum_scal; apply rsum_ext; intros; ring).
      rewrite rsum_swap. apply rsum_ext. intros k Hk. now rewrite rsum_scal_r.
    - rewrite (rsum_ext n _ (fun k => if (i =? k)%nat then z k else 0)).
      + now rewrite rsum_pick1.
      + intros k Hk. pose proof (w_i _ W i k Hi Hk) as E. unfold mm in E. rewrite E. nbt; ring.
  Qed.
  (** the matrix of the active constraints is nonsingular *)
  Definition Mk (w : @work R) (L : list nat) (i j : nat) : R := el (aqinvat w) (bc L i) (bc L j).
  Definition lc (L : list nat) (u : nat -> R) (j : nat) : R := rsum (length L) (fun k => u k * el A (bc L k) j).
  Lemma lc_dot L u z : dot n (lc L u) z = rsum (length L) (fun k => u k * mulv n (el A) z (bc L k)).
  Proof.
    unfold dot, lc, mulv. rewrite (rsum_ext n _ (fun j => rsum (length L) (fun k => u k * el A (bc L k) j * z j))) by (intros; now rewrite rsum_scal_r).
    rewrite rsum_swap. apply rsum_ext. intros k Hk. rewrite <- rsum_scal. apply rsum_ext. intros; ring.
  Qed.
  Lemma mulv_comb P L u i : mulv n P (lc L u) i = rsum (length L) (fun k => u k * mulv n P (el A (bc L k)) i).
  Proof.
    unfold mulv, lc. rewrite (rsum_ext n _ (fun j => rsum (length L) (fun k => P i j * (u k * el A (bc L k) j)))) by (intros; now rewrite rsum_scal).
    rewrite rsum_swap. apply rsum_ext. intros k Hk. rewrite <- rsum_scal. apply rsum_ext. intros; ring.
  Qed.
  Lemma Mk_mulv w L u i : wok w -> (forall k, (k < length L)%nat -> (bc L k < m)%nat) -> (i < length L)%nat ->
    rsum (length L) (fun k => Mk w L i k * u k) = mulv n (el A) (mulv n (el (qinv w)) (lc L u)) (bc L i).
  Proof.
    intros W H Hi. unfold mulv at 1.
    rewrite (rsum_ext n _ (fun j => rsum (length L) (fun k => el A (bc L i) j * (u k * mulv n (el (qinv w)) (el A (bc L k)) j)))).
    2:{ intros j Hj. rewrite mulv_comb. now rewrite rsum_scal. }
    rewrite rsum_swap. apply rsum_ext. intros k Hk. unfold Mk. rewrite (w_a _ W) by auto. unfold dot. rewrite <- rsum_scal_r. apply rsum_ext. intros; ring.
  Qed.
  Lemma lc_zero L u : (forall k, (k < length L)%nat -> (bc L k < m)%nat) -> NoDup L -> indep m n (el A) L -> (forall j, (j < n)%nat -> lc L u j = 0) -> forall k, (k < length L)%nat -> u k = 0.
  Proof.
    intros H ND I Z k Hk. specialize (I (bsol (length L) L u)).
    assert (E : bsol (length L) L u (bc L k) = u k).
    { unfold bsol. rewrite (rsum_ext _ _ (fun l => if (k =? l)%nat then u l else 0)).
      - now rewrite rsum_pick1.
      - intros l Hl. destruct (Nat.eqb_spec (bc L l) (bc L k)) as [E|N], (Nat.eqb_spec k l) as [E'|N']; auto.
        + exfalso. apply N'. symmetry. apply (proj1 (NoDup_nth L O) ND); auto.
        + subst. congruence. }
    rewrite <- E. apply I; auto.
    - intros i Ni. unfold bsol. apply rsum_0. intros l Hl. destruct (Nat.eqb_spec (bc L l) i) as [<-|]; auto. exfalso. apply Ni. now apply nth_In.
    - intros j Hj. rewrite <- (Z j Hj). unfold comb, lc. rewrite (rsum_ext m _ (fun i => el A i j * bsol (length L) L u i)) by (intros; ring).
      rewrite (spread (length L) m L (fun i => el A i j) u) by auto. apply rsum_ext. intros; ring.
  Qed.
  Lemma Mk_nonsing w L : wok w -> (forall k, (k < length L)%nat -> (bc L k < m)%nat) -> NoDup L -> indep m n (el A) L -> nonsingular (length L) (Mk w L).
  Proof.
    intros W H ND I u S. apply (lc_zero L u); auto.
    set (z := mulv n (el (qinv w)) (lc L u)).
    assert (Z : forall k, (k < length L)%nat -> mulv n (el A) z (bc L k) = 0).
    { intros k Hk. unfold z. rewrite <- Mk_mulv by auto. apply (S k Hk). }
    assert (D : dot n z (mulv n (el Q) z) = 0).
    { rewrite (dot_ext n z z _ (lc L u)); auto.
      - rewrite dot_sym, lc_dot. apply rsum_0. intros k Hk. rewrite Z by auto. ring.
      - intros i Hi. unfold z. now apply qq. }
    assert (Z0 : forall i, (i < n)%nat -> z i = 0).
    { intros i Hi. destruct (Req_dec (z i) 0) as [|N]; auto. exfalso. assert (0 < dot n z (mulv n (el Q) z)) by (apply PQ; eauto). lra. }
    intros j Hj. rewrite <- (qq w (lc L u) j W Hj). fold z. unfold mulv. apply rsum_0. intros k Hk. rewrite Z0 by auto. ring.
  Qed.

  (** zLESolveGaussDST on a nonsingular system, without a tolerance *)
  Lemma gauss0 k (M : fmat R) (v l0 : fvec R) : nr M = k -> nc M = k -> vlen v = k -> vlen l0 = k -> nonsingular k (el M) ->
    exists l, zLESolveGaussDST 0 M v l0 (List.seq 0 k) (Some (zvec k)) = Ok (Some l) /\ vlen l = k /\ solves k k (el M) (vel l) (vel v).
  Proof.
    intros M1 M2 V L NS. unfold zLESolveGaussDST. destruct (Nat.eq_dec k 0) as [->|K].
    - eexists. split; [|split].
      + unfold mul_inv_mat, zMatMatBalancingDST. cbn [nr col_of vlen]. rewrite V.
        assert (E1 : zMatColBalancingDST M (zvec 0) = Ok (M, zvec 0)). { unfold zMatColBalancingDST. rewrite M2. reflexivity. }
        rewrite E1. cbn [rmap bind fst snd].
        assert (E2 : zMatMatRowBalancingDST M (col_of v) = Ok (M, col_of v)). { unfold zMatMatRowBalancingDST. rewrite M1. reflexivity. }
        rewrite E2. cbn [rmap bind fst snd]. cbn. reflexivity.
      + reflexivity.
      + intros r Hr. lia.
    - destruct (mul_inv_ok 0 k 1 M (col_of v) (col_of (FV (vlen v) (vel l0))) (List.seq 0 k) (zvec k)) as (o & E & H); auto using perm_seq; try lra; try lia.
      rewrite E. cbn [rmap]. destruct o as [X|].
      + destruct H as (X1 & X2 & F & SF & HX & _). exists (of_col X). cbn [option_map]. split; [reflexivity|]. split; [exact X1|].
        pose proof (negligible_0 _ _ _ SF) as Z. intros r Hr. specialize (HX O ltac:(lia) r Hr). cbn [col_of el] in HX. rewrite <- HX. unfold mv, of_col. cbn [vel].
        apply rsum_ext. intros j Hj. rewrite Z by auto. ring.
      + exfalso. destruct H as (F & i & x & SF & Hi & Nx & HK). pose proof (negligible_0 _ _ _ SF) as Z. apply Nx. apply (NS x); auto.
        intros r Hr. rewrite <- (HK r Hr). apply rsum_ext. intros j Hj. rewrite Z by auto. ring.
  Qed.
  Lemma nonsing_ext k M M' : (forall i j, (i < k)%nat -> (j < k)%nat -> M i j = M' i j) -> nonsingular k M -> nonsingular k M'.
  Proof. intros E N x S. apply N. intros r Hr. rewrite <- (S r Hr). apply rsum_ext. intros j Hj. now rewrite E. Qed.

  Lemma solveEq_ok w s x : wok w -> inv s -> vlen x = n ->
    exists x' l, ev (fun t => _zQPASMSolveEq t w s A x) (Ok (x', Asm (xtmp s) (ia s) (inn s) l)) /\ vlen x' = n /\ vlen l = m /\
      (forall i, In i (ia s) -> mulv n (el A) (vel x') i = vel b i) /\
      (forall j, (j < n)%nat -> mulv n (el Q) (vel x') j + vel c j = lc (ia s) (vel l) j).
  Proof.
    intros W I LX. set (L := ia s). set (k := length L). pose proof (ia_len s I) as Lk. fold L k in Lk.
    assert (HB : forall j, (j < k)%nat -> (bc L j < m)%nat) by (intros; now apply bc_ia).
    assert (ND : NoDup L). { pose proof (inv_nodup s I) as X. apply nodup_app_l in X. exact X. }
    unfold _zQPASMSolveEq. fold L k.
    (* the matrix *)
    destruct (for_inv (fun i (M : fmat R) => nr M = k /\ nc M = k /\ forall p q, (p < i)%nat -> (q < k)%nat -> el M p q = Mk w L p q) 0 k
      (fun i M => for_ 0 k (fun j M => p <- get L i ;; q <- get L j ;; y <- mget (aqinvat w) p q ;; mset M i j y) M) (zmat k k)) as (M & EM & M1 & M2 & PM).
    { lia. } { conjs; auto. intros; lia. }
    { intros i M Hi (K1 & K2 & K3).
      destruct (row_loop M i 0 k (fun j M => p <- get L i ;; q <- get L j ;; y <- mget (aqinvat w) p q ;; mset M i j y) (fun j => Mk w L i j)) as (M' & E & N1 & N2 & N3); try lia.
      { intros j M' Hj R1 R2 _. rewrite !(get_ok L _ O) by (fold k; lia). cbn [bind]. change (nth i L O) with (bc L i). change (nth j L O) with (bc L j).
        rewrite mget_ok by (rewrite ?(w_a1 _ W), ?(w_a2 _ W); apply HB; lia). reflexivity. }
      exists M'. split; auto. conjs; try congruence. intros p q Hp Hq. rewrite N3. destruct (Nat.eqb_spec p i) as [->|]; nbq. apply K3; lia. }
    (* the right side *)
    destruct (vec_loop (zvec k) 0 k (fun i v => p <- get L i ;; y <- vget (aqinvc_plus_b w) p ;; vset v i y) (fun i => vel (aqinvc_plus_b w) (bc L i))) as (v & EV & V1 & V2); try (cbn; lia).
    { intros j v' Hj _ _. rewrite (get_ok L _ O) by (fold k; lia). cbn [bind]. change (nth j L O) with (bc L j). rewrite vget_ok by (rewrite (w_b1 _ W); apply HB; lia). reflexivity. }
    destruct (gauss0 k M v (FV k (vel (lam s)))) as (l & EL & L1 & SL); auto.
    { apply nonsing_ext with (M := Mk w L); [intros; now rewrite PM|]. apply Mk_nonsing; auto. apply (v_ind _ I). }
    set (l1 := store (FV (vlen (lam s)) (fun i => if (i <? k)%nat then vel l i else vel (lam s) i))).
    assert (P1 : vlen l1 = m /\ forall i, (i < k)%nat -> vel l1 i = vel l i).
    { unfold l1. destruct (store_ok (FV (vlen (lam s)) (fun i => if (i <? k)%nat then vel l i else vel (lam s) i))) as (S1 & S2). cbn [vlen vel] in *. rewrite (v_l _ I) in *.
      split; auto. intros i Hi. rewrite S2 by lia. nbq. }
    destruct P1 as (P1 & P2).
    (* the combination of the rows *)
    destruct (for_inv (fun i (sv : fvec R) => vlen sv = n /\ forall p, (p < i)%nat -> vel sv p = lc L (vel l1) p) 0 (vlen x)
      (fun i sv => if (i <? ncell w)%nat then sv <- vset sv i 0%S ;; for_ 0 k (fun j sv => p <- get L j ;; y <- mget A p i ;; z <- vget l1 j ;; vmod sv i (fun u => u + y * z)%S) sv else UB) (zvec (vlen x))) as (sv & ES & S1 & S2).
    { lia. } { split; auto. intros; lia. }
    { intros i sv Hi (K1 & K2). rewrite (w_n _ W). replace (i <? m)%nat with true by nbq. rewrite vset_ok by lia. cbn [bind].
      destruct (for_inv (fun j (u : fvec R) => vlen u = n /\ (forall p, p <> i -> vel u p = vel sv p) /\ vel u i = rsum j (fun k => vel l1 k * el A (bc L k) i)) 0 k
        (fun j sv => p <- get L j ;; y <- mget A p i ;; z <- vget l1 j ;; vmod sv i (fun u => u + y * z)%S) (FV (vlen sv) (fun k0 => if (k0 =? i)%nat then 0%S else vel sv k0))) as (u & EU & U1 & U2 & U3).
      { lia. } { cbn [vlen vel]. conjs; auto. - intros p Hp. nbq. - rewrite Nat.eqb_refl. reflexivity. }
      { intros j u Hj (J1 & J2 & J3). rewrite (get_ok L _ O) by (fold k; lia). cbn [bind]. change (nth j L O) with (bc L j). rewrite mget_ok by (rewrite ?A1, ?A2; try lia; apply HB; lia). cbn [bind].
        rewrite vget_ok by lia. cbn [bind]. rewrite vmod_ok, vset_ok by lia. eexists. split; [reflexivity|]. cbn [vlen vel]. conjs; auto.
        - intros p Hp. rewrite <- J2 by auto. nbq.
        - rewrite Nat.eqb_refl, J3. cbn [rsum]. rs. ring. }
      exists u. split; [exact EU|]. split; auto. intros p Hp. destruct (Nat.eq_dec p i) as [->|Np]; [rewrite U3; reflexivity|]. rewrite U2 by auto. apply K2. lia. }
    destruct (mulmv_R (qinv w) sv x) as (y & EY & Y1 & Y2). { rewrite (w_2 _ W); auto. } { rewrite (w_1 _ W); auto. }
    destruct (vec_loop y 0 (vlen y) (fun i x => y <- vget (qinvc w) i ;; vmod x i (fun z => z - y)%S) (fun i => vel y i - vel (qinvc w) i)) as (x' & EX & X1 & X2); try lia.
    { intros j v' Hj Lv Sv. rewrite vget_ok by (rewrite (w_c1 _ W); lia). cbn [bind]. rewrite vmod_ok by lia. rewrite Sv by lia. reflexivity. }
    destruct (store_ok x') as (T1 & T2). exists (store x'), l1. split.
    { eapply ev_bind_c; [exact EM|]. eapply ev_bind_c; [exact EV|]. eapply ev_bind. { pose proof (st_gaussDST M v (FV k (vel (lam s))) (List.seq 0 k) (Some (zvec k))) as S. unfold st in S. rewrite EL in S. exact S. }
      cbn beta iota. fold l1. eapply ev_bind_c; [exact ES|]. eapply ev_bind_c; [exact EY|]. eapply ev_bind_c; [exact EX|]. apply ev_const. }
    assert (LX' : vlen x' = n) by congruence. rewrite LX' in T1, T2.
    assert (XV : forall i, (i < n)%nat -> vel (store x') i = mulv n (el (qinv w)) (lc L (vel l1)) i - mulv n (el (qinv w)) (vel c) i).
    { intros i Hi. rewrite T2, X2 by auto. replace ((0 <=? i)%nat && (i <? vlen y)%nat) with true by nbq. rewrite Y2 by lia. rewrite (w_c _ W) by auto. f_equal. rewrite S1.
      apply mulv_ext. intros; apply S2; lia. }
    conjs; auto.
    - intros i Hi. apply (In_nth _ _ O) in Hi. destruct Hi as (p & Hp & <-). fold L in Hp. fold k in Hp. change (nth p L O) with (bc L p).
      rewrite (mulv_ext n (el A) _ (fun j => mulv n (el (qinv w)) (lc L (vel l1)) j + (-1) * vel (qinvc w) j)).
      2:{ intros j Hj. rewrite XV by auto. rewrite (w_c _ W) by auto. ring. }
      rewrite mulv_lin, <- Mk_mulv by auto. fold k.
      pose proof (SL p Hp) as E. unfold mv in E. rewrite V2 in E. replace ((0 <=? p)%nat && (p <? k)%nat) with true in E by nbq. rewrite (w_b _ W) in E by auto.
      rewrite (rsum_ext k _ (fun c => el M p c * vel l c)); [rewrite E; ring|]. intros q Hq. rewrite PM, P2 by auto. reflexivity.
    - intros j Hj. rewrite (mulv_ext n (el Q) _ (fun j => mulv n (el (qinv w)) (lc L (vel l1)) j + (-1) * mulv n (el (qinv w)) (vel c) j)).
      2:{ intros i Hi. rewrite XV by auto. ring. }
      rewrite mulv_lin, !qq by auto. ring.
  Qed.
End Asm.
