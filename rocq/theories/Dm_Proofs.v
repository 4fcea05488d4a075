(** Lemmas for C103: the line search with Nocedal's backtracking and the iteration. *)
From Coq Require Import Reals Lra Lia.
From Verif Require Import Prelude Prelude_Proofs Scalar RealLib Fmat Fmat_Proofs IP_Model IP_Proofs Vop Qp_Spec Qp_Proofs Root_Model Asm_Model Asm_Proofs Dm_Model Dm_Spec.
Local Open Scope R_scope.

Ltac stored v := let L := fresh "L" in let V := fresh "V" in
  destruct (store_ok v) as [L V]; cbn [vlen vel] in L, V; let s := fresh "s" in set (s := store v) in *; clearbody s.

Section Dm.
  Variables (ztol eps scale : R) (isnan isinf : R -> bool) (eval : fvec R -> R) (grad : option (fvec R -> fvec R)) (n : nat) (G : fvec R -> nat -> R).
  Hypothesis N : (0 < n)%nat.
  Hypothesis Z : 0 <= ztol < 1 / 1000.
  Hypothesis SC : 0 < scale.
  (** the gradient function fills a vector of the right size with G *)
  Hypothesis HG : forall x b, vlen x = n -> vlen b = n -> exists r, _grad eps eval grad x b = Ok r /\ vlen r = n /\ forall i, (i < n)%nat -> vel r i = G x i.

  Lemma absmax_ok (v : fvec R) : vlen v = n -> exists m, zVecElemAbsMax v = Ok m /\ (forall i, (i < n)%nat -> Rabs (vel v i) <= m) /\ exists i, (i < n)%nat /\ m = Rabs (vel v i).
  Proof using N. clear - n N.
    intros L. unfold zVecElemAbsMax. rewrite vget_ok by lia. cbn [bind]. rewrite L.
    match goal with |- context [for_ 1 n ?F ?s] => destruct (for_inv (fun k m => (forall i, (i < k)%nat -> Rabs (vel v i) <= m) /\ exists i, (i < n)%nat /\ m = Rabs (vel v i)) 1 n F s) as (m & E & A & B) end.
    - lia.
    - cbn [sabs RealS]. split; [|exists O; auto]. intros i Hi. replace i with O by lia. lra.
    - intros k m Hk [A (j & Hj & ->)]. rewrite vget_ok by lia. cbn [bind slt sabs RealS]. destruct (Rltb_spec (Rabs (vel v j)) (Rabs (vel v k))); eexists; (split; [reflexivity|]); (split; [|first [exists k; split; [lia|reflexivity]|exists j; split; [exact Hj|reflexivity]]]); intros i Hi; (destruct (Nat.eq_dec i k) as [->|]; [lra|]); specialize (A i ltac:(lia)); lra.
    - exists m. auto.
  Qed.

  Definition at_step (var d : fvec R) (c : R) (t : trial) : Prop :=
    (forall i, (i < n)%nat -> vel (tp t) i = - c * vel d i) /\ (forall i, (i < n)%nat -> vel (tx t) i = vel var i - c * vel d i) /\ te t = eval (tx t).
  Lemma try_ok var d t : vlen var = n -> vlen d = n -> vlen (tp t) = n -> vlen (tx t) = n ->
    exists t', try_point eval var d t = Ok t' /\ ta t' = ta t /\ vlen (tp t') = n /\ vlen (tx t') = n /\ at_step var d (ta t) t'.
  Proof using. clear - n eval.
    intros Lv Ld Lp Lx. unfold try_point, zVecMulNC, zVecAddNC. rewrite vop1_ok by congruence. cbn [bind].
    rewrite Lp. match goal with |- context [store ?v] => destruct (store_ok v) as [L1 V1]; set (p := store v) in *; clearbody p end. cbn [vlen vel] in *.
    rewrite vop2_ok by congruence. cbn [bind]. match goal with |- context [store ?v] => destruct (store_ok v) as [L2 V2]; set (x := store v) in *; clearbody x end. cbn [vlen vel] in *.
    eexists. split; [reflexivity|]. cbn [ta tp tx te]. rewrite Lx in *. conjs; auto. unfold at_step. cbn [tp tx te]. conjs; auto.
    - intros i Hi. rewrite V1 by auto. cbn [smul sopp RealS]. ring.
    - intros i Hi. rewrite V2, V1 by auto. cbn [smul sadd sopp RealS]. ring.
  Qed.

  (** what holds of the trial between two tests: [a0] is the length to begin with *)
  Definition tinv (var d : fvec R) (a0 : R) (t : trial) : Prop :=
    vlen (tp t) = n /\ vlen (tx t) = n /\ 0 < ta t <= a0 /\
    (ztol < ta t \/ exists c, ta t <= c <= a0 /\ at_step var d c t) /\
    ((forall x, isinf (eval x) || isnan (eval x) = false) -> ta t = a0 /\ ztol < ta t \/ exists i, (i < n)%nat /\ scale <= Rabs (ta t * vel d i)).
  Lemma test_ok var d e0 df a0 : vlen var = n -> vlen d = n -> forall tf t, tinv var d a0 t ->
    exists o, _zOptDMStepTest ztol isnan isinf eval scale tf var d e0 df t = Ok o /\
    match o with None => True | Some (b, t') =>
      vlen (tp t') = n /\ vlen (tx t') = n /\ b = Rleb (ta t' * df) (e0 - te t') /\
      exists c, 0 < ta t' <= c /\ c <= a0 /\ (ta t' = c \/ ta t' <= ztol) /\ at_step var d c t' /\
      ((forall x, isinf (eval x) || isnan (eval x) = false) -> ta t' = a0 /\ c = a0 \/ exists i, (i < n)%nat /\ scale <= Rabs (vel (tp t') i)) end.
  Proof.
    intros Lv Ld. induction tf as [|tf IH]; intros t (Lp & Lx & A0 & S & K); [exists None; auto|].
    cbn [_zOptDMStepTest]. cbn [slt sle smul ssub RealS]. destruct (Rltb_spec ztol (ta t)) as [H|H].
    - destruct (try_ok var d t Lv Ld Lp Lx) as (t1 & -> & A1 & Lp1 & Lx1 & T1). cbn [bind].
      destruct (isinf (te t1) || isnan (te t1)) eqn:B.
      + apply IH. cbn [sdiv sofZ RealS]. unfold tinv. cbn [ta tp tx te]. conjs; auto; try lra.
        * right. exists (ta t). split; [lra|]. destruct T1 as (Q1 & Q2 & Q3). split; [|split]; auto.
        * intros C. destruct T1 as (_ & _ & Q3). rewrite Q3, C in B. discriminate.
      + destruct (absmax_ok (tp t1) Lp1) as (m & -> & M1 & (i & Hi & M2)). cbn [bind slt RealS].
        destruct T1 as (Q1 & Q2 & Q3). rewrite Q1 in M2 by auto. rewrite Rabs_mult, Rabs_Ropp, (Rabs_pos_eq (ta t)) in M2 by lra.
        destruct (Rltb_spec scale m) as [H1|H1].
        * apply IH. cbn [sdiv RealS]. unfold tinv. cbn [ta tp tx te]. rewrite A1.
          assert (0 < ta t * (scale / m)) by (apply Rmult_lt_0_compat; [lra|apply Rdiv_lt_0_compat; lra]).
          assert (scale / m < 1) by (apply (Rmult_lt_reg_r m); [lra|]; unfold Rdiv; rewrite Rmult_assoc, Rinv_l; lra).
          assert (ta t * (scale / m) <= ta t * 1) by (apply Rmult_le_compat_l; lra).
          conjs; auto; try lra.
          -- right. exists (ta t). split; [lra|]. split; [|split]; auto.
          -- intros C. right. exists i. split; auto. rewrite Rabs_mult, (Rabs_pos_eq (ta t * (scale / m))) by lra.
             replace (ta t * (scale / m) * Rabs (vel d i)) with (scale * ((ta t * Rabs (vel d i)) / m)) by (field; lra). rewrite <- M2. unfold Rdiv. rewrite Rinv_r; lra.
        * eexists. split; [reflexivity|]. cbn beta iota. conjs; auto. exists (ta t). rewrite A1. conjs; auto; try lra. { split; [|split]; auto. }
          intros C. destruct (K C) as [[-> _]|(k & Hk & K')]; [auto|]. right. exists k. split; auto. rewrite Q1 by auto. rewrite Ropp_mult_distr_l_reverse, Rabs_Ropp. auto.
    - eexists. split; [reflexivity|]. cbn beta iota. conjs; auto. destruct S as [S|(c & C1 & C2)]; [lra|]. exists c. conjs; auto; try lra.
      intros C. destruct (K C) as [[_ K']|(k & Hk & K')]; [lra|]. right. exists k. split; auto.
      destruct C2 as (Q1 & _). rewrite Q1 by auto. rewrite Rabs_mult, Rabs_Ropp, (Rabs_pos_eq c) by lra. rewrite Rabs_mult, (Rabs_pos_eq (ta t)) in K' by lra.
      pose proof (Rabs_pos (vel d k)). assert (ta t * Rabs (vel d k) <= c * Rabs (vel d k)) by (apply Rmult_le_compat_r; lra). lra.
  Qed.

  Record sizes (s : @dm R) : Prop := {
    z_x : vlen (dx s) = n; z_d : vlen (dd s) = n; z_g : vlen (dg s) = n; z_p : vlen (dp s) = n; z_q : vlen (dq s) = n; z_r : vlen (dr s) = n;
    z_nr : nr (dh s) = n; z_nc : nc (dh s) = n }.
  Lemma accept_ok s p x r b : sizes s -> vlen p = n -> vlen x = n -> vlen r = n ->
    exists s', accept s p x r b = Ok (s', x) /\ sizes s' /\ dp s' = p /\ dd s' = dd s /\ dh s' = dh s /\ didx s' = didx s /\ db s' = b /\
      (forall i, (i < n)%nat -> vel (dg s') i = vel r i) /\ forall i, (i < n)%nat -> vel (dq s') i = vel r i - vel (dg s) i.
  Proof using. clear - n.
    intros [z1 z2 z3 z4 z5 z6 z7 z8] Lp Lx Lr. unfold accept, zVecSubNC, zVecCopyNC. rewrite vop2_ok by congruence. cbn [bind]. rewrite vop1_ok by congruence. cbn [bind].
    repeat match goal with |- context [store ?v] => let L := fresh in let V := fresh in destruct (store_ok v) as [L V]; let q := fresh "w" in set (q := store v) in *; clearbody q end. cbn [vlen vel] in *.
    eexists. split; [reflexivity|]. cbn [dp dd dh didx db dg dq]. conjs; auto.
    - constructor; cbn [dx dd dg dp dq dr dh]; congruence.
    - intros i Hi. match goal with H : forall i, _ -> vel _ i = vel r i |- _ => apply H; lia end.
    - intros i Hi. match goal with H : forall i, _ -> vel _ i = ssub _ _ |- _ => apply H; lia end.
  Qed.

  (** what an accepted step of a line search gives *)
  Record moved (s : @dm R) (var : fvec R) (s' : @dm R) (var' : fvec R) (e1 c : R) : Prop := {
    m_sizes : sizes s'; m_len : vlen var' = n; m_d : dd s' = dd s; m_h : dh s' = dh s; m_idx : didx s' = didx s;
    m_p : forall i, (i < n)%nat -> vel (dp s') i = - c * vel (dd s) i;
    m_var : forall i, (i < n)%nat -> vel var' i = vel var i - c * vel (dd s) i;
    m_e : e1 = eval var';
    m_g : forall i, (i < n)%nat -> vel (dg s') i = G var' i;
    m_q : forall i, (i < n)%nat -> vel (dq s') i = G var' i - vel (dg s) i }.
  Lemma accept_moved s var t c b : sizes s -> vlen (tp t) = n -> vlen (tx t) = n -> at_step var (dd s) c t ->
    exists r s', _grad eps eval grad (tx t) (dr s) = Ok r /\ vlen r = n /\ (forall i, (i < n)%nat -> vel r i = G (tx t) i) /\
      accept s (tp t) (tx t) r b = Ok (s', tx t) /\ moved s var s' (tx t) (te t) c /\ db s' = b.
  Proof.
    intros S Lp Lx (Q1 & Q2 & Q3). destruct (HG (tx t) (dr s) Lx (z_r s S)) as (r & -> & Lr & Vr).
    destruct (accept_ok s (tp t) (tx t) r b S Lp Lx Lr) as (s' & E & S' & P1 & P2 & P3 & P4 & P5 & P6 & P7).
    exists r, s'. conjs; auto. constructor; auto; try congruence; intros i Hi; first [rewrite P1|rewrite P6, Vr by auto|rewrite P7, Vr by auto]; auto.
  Qed.

  (** ** Nocedal's backtracking *)
  Definition noc_post (s : @dm R) (var : fvec R) (e0 df cf : R) (o : option stepped) : Prop :=
    match o with
    | Some (Some (s', var', e1)) => exists a c, moved s var s' var' e1 c /\ db s' = db s /\ 0 < a <= c /\ (a = c \/ a <= ztol) /\ e0 - e1 >= a * df /\
        (a <= 1 / 1000 \/ dot n (G var') (vel (dd s)) <= cf) /\
        ((forall x, isinf (eval x) || isnan (eval x) = false) -> 1 / 1000 <= c \/ exists i, (i < n)%nat /\ scale <= Rabs (vel (dp s') i))
    | _ => True
    end.
  Lemma noc_loop_ok s var e0 df cf tf : sizes s -> vlen var = n -> forall fuel t, vlen (tp t) = n -> vlen (tx t) = n ->
    exists o, noc_loop ztol eps isnan isinf eval grad scale fuel tf s var e0 df cf t = Ok o /\ noc_post s var e0 df cf o.
  Proof.
    intros S Lv. induction fuel as [|fuel IH]; intros t Lp Lx; [exists None; split; [reflexivity|exact I]|].
    cbn [noc_loop]. unfold step_min. cbn [sle slt sofZ sdiv RealS]. destruct (Rleb_spec (1 / 1000) (ta t)) as [H|H]; [|exists (Some None); split; [reflexivity|exact I]].
    destruct (test_ok var (dd s) e0 df (ta t) Lv (z_d s S) tf t) as (o & -> & P); [unfold tinv; conjs; auto; try lra; try (left; lra); intros; left; lra|]. cbn [bind].
    destruct o as [[b t']|]; [|exists None; split; [reflexivity|exact I]]. destruct P as (Lp' & Lx' & B & c & C1 & C2 & C3 & T & K).
    destruct b; [|apply IH; auto].
    destruct (accept_moved s var t' c (db s) S Lp' Lx' T) as (r & s' & -> & Lr & Vr & A & M & Db). cbn [bind].
    rewrite ksum_R, Lr. match goal with |- context [Rltb cf ?e] => replace e with (dot n (G (tx t')) (vel (dd s))) end.
    2:{ apply rsum_ext. intros i Hi. rewrite Vr by auto. reflexivity. }
    destruct (Rltb_spec (1 / 1000) (ta t')) as [H1|H1]; [destruct (Rltb_spec cf (dot n (G (tx t')) (vel (dd s)))) as [H2|H2]|]; cbn [andb]; [apply IH; auto| |];
      (rewrite A; cbn [bind fst snd]; eexists; split; [reflexivity|]; exists (ta t'), c).
    all: split; [exact M|split; [exact Db|split; [lra|split; [exact C3|split; [symmetry in B; apply (proj2 (reflect_iff _ _ (Rleb_spec _ _))) in B; lra|split; [first [left; lra|right; lra]|]]]]]].
    all: intros C; destruct (K C) as [[K1 K2]|(i & Hi & K')]; [left; lra|right; exists i; split; auto].
    all: rewrite (m_p _ _ _ _ _ _ M) by auto; destruct T as (Q1 & _); rewrite Q1 in K' by auto; exact K'.
  Qed.
  Lemma noc_ok s var e0 cfac fuel tf : sizes s -> vlen var = n -> exists o, _zOptDMStepNoc ztol eps isnan isinf eval grad scale fuel tf cfac s var e0 = Ok o /\
    noc_post s var e0 (1 / 10000 * dot n (vel (dg s)) (vel (dd s))) (cfac * dot n (vel (dg s)) (vel (dd s))) o.
  Proof.
    intros S Lv. unfold _zOptDMStepNoc. destruct (isnan e0); [exists (Some None); split; [reflexivity|exact I]|].
    rewrite ksum_R, (z_g s S). unfold decrease. cbn [sdiv sofZ smul RealS].
    destruct (noc_loop_ok s var e0 (1 / 10000 * dot n (vel (dg s)) (vel (dd s))) (cfac * dot n (vel (dg s)) (vel (dd s))) tf S Lv fuel (TR 1 (dp s) (dx s) 0)) as (o & E & P).
    - apply (z_p s S).
    - apply (z_x s S).
    - exists o. split; auto. 
  Qed.

  (** ** steepest descent *)
  Lemma sd_ok s var : sizes s -> exists s', _zOptDMVecSD s var = Ok s' /\ sizes s' /\ dg s' = dg s /\ dp s' = dp s /\ dh s' = dh s /\ (forall i, (i < n)%nat -> vel (dd s') i = vel (dg s) i).
  Proof using. clear - n.
    intros [z1 z2 z3 z4 z5 z6 z7 z8]. unfold _zOptDMVecSD, zVecCopyNC. rewrite vop1_ok by congruence. cbn [bind].
    match goal with |- context [store ?v] => destruct (store_ok v) as [L V]; set (d := store v) in *; clearbody d end. cbn [vlen vel] in *.
    eexists. split; [reflexivity|]. unfold with_d. cbn [dg dp dh dd]. conjs; auto.
    - constructor; cbn [dx dd dg dp dq dr dh]; congruence.
    - intros i Hi. apply V. lia.
  Qed.
  Lemma none_ok s k : sizes s -> exists s', _zOptDMUpdateNone s k = Ok s' /\ sizes s' /\ dg s' = dg s /\ dp s' = dp s /\ dh s' = dh s /\ dd s' = dd s.
  Proof using N. clear - n N.
    intros S. unfold _zOptDMUpdateNone. rewrite (z_d s S). destruct (Nat.eqb_spec n 0); [lia|]. destruct (Z.rem _ _ =? 0)%Z; eexists; (split; [reflexivity|]); cbn [dg dp dh dd]; conjs; auto.
    destruct S. constructor; auto.
  Qed.

  (** ** the iteration with the steepest descent and Nocedal's backtracking *)
  Definition result (tol : R) (ev : R) (i k : nat) (o : option answer) : Prop :=
    match o with
    | None => True
    | Some a => vlen (avar a) = n /\ eval (avar a) <= aeval a <= ev /\
        match number a with
        | None => aeval a = eval (avar a)
        | Some j => (i <= j < i + k)%nat /\
            ((forall x, isinf (eval x) || isnan (eval x) = false) -> 0 <= tol < scale ->
             exists y, vlen y = n /\ (forall m, (m < n)%nat -> Rabs (vel y m - vel (avar a) m) <= tol) /\ within n (1000 * tol) (G y))
        end
    end.
  Lemma sd_loop fuel tf tol : forall k i s var ev, sizes s -> vlen var = n -> (forall j, (j < n)%nat -> vel (dg s) j = G var j) -> ev = eval var ->
    exists o, dm_loop k i (zOptDMAssignSD ztol eps isnan isinf eval grad scale fuel tf Noc) tol s var ev = Ok o /\ result tol ev i k o.
  Proof.
    induction k as [|k IH]; intros i s var ev Sz Lv Hg He.
    - cbn [dm_loop]. eexists. split; [reflexivity|]. cbn [result avar aeval number]. subst. conjs; auto; lra.
    - cbn [dm_loop]. unfold zOptDMAssignSD at 1 2. cbn [m_vec m_step]. unfold assign_step.
      destruct (sd_ok s var Sz) as (s1 & -> & S1 & G1 & _ & _ & D1). cbn [bind].
      destruct (noc_ok s1 var ev cf9 fuel tf S1 Lv) as (o & -> & P). cbn [bind].
      destruct o as [[[[s2 v2] e2]|]|]; cbn [noc_post] in P.
      + destruct P as (a & c & M & _ & A & _ & E & _ & K).
        assert (DG : dot n (vel (dg s1)) (vel (dd s1)) = dot n (G var) (G var)).
        { apply dot_ext; intros j Hj; rewrite ?D1, ?G1 by auto; apply Hg; auto. }
        rewrite DG in E. pose proof (dot_self n (G var)). assert (0 <= a * (1 / 10000 * dot n (G var) (G var))) by (apply Rmult_le_pos; lra).
        assert (e2 <= ev) by lra. pose proof (m_e _ _ _ _ _ _ M) as He2.
        destruct (zVecIsTol tol (dg s2)) eqn:T1; cbn [orb].
        * eexists. split; [reflexivity|]. cbn [result avar aeval number]. conjs; auto; try lra; try lia; [apply (m_len _ _ _ _ _ _ M)|].
          intros C T. exists v2. split; [apply (m_len _ _ _ _ _ _ M)|]. split.
          -- intros m Hm. rewrite Rminus_eq_0, Rabs_R0. lra.
          -- intros m Hm. rewrite <- (m_g _ _ _ _ _ _ M) by auto. pose proof (istol_R _ _ T1 m) as H2. rewrite (z_g _ (m_sizes _ _ _ _ _ _ M)) in H2. specialize (H2 Hm). lra.
        * destruct (zVecIsTol tol (dp s2)) eqn:T2.
          -- eexists. split; [reflexivity|]. cbn [result avar aeval number]. conjs; auto; try lra; try lia; [apply (m_len _ _ _ _ _ _ M)|].
             intros C T. pose proof (istol_R _ _ T2) as H2. rewrite (z_p _ (m_sizes _ _ _ _ _ _ M)) in H2. exists var. split; auto. split.
             ++ intros m Hm. specialize (H2 m Hm). rewrite (m_p _ _ _ _ _ _ M) in H2 by auto. rewrite (m_var _ _ _ _ _ _ M) by auto.
                replace (vel var m - (vel var m - c * vel (dd s1) m)) with (- (- c * vel (dd s1) m)) by ring. rewrite Rabs_Ropp. auto.
             ++ destruct (K C) as [K1|(m & Hm & K1)]; [|specialize (H2 m Hm); lra].
                intros m Hm. specialize (H2 m Hm). rewrite (m_p _ _ _ _ _ _ M) in H2 by auto. rewrite D1, Hg in H2 by auto.
                rewrite Rabs_mult, Rabs_Ropp, (Rabs_pos_eq c) in H2 by lra. pose proof (Rabs_pos (G var m)).
                assert (1 / 1000 * Rabs (G var m) <= c * Rabs (G var m)) by (apply Rmult_le_compat_r; lra). lra.
          -- unfold zOptDMAssignSD at 1. cbn [m_upd]. destruct (none_ok s2 i (m_sizes _ _ _ _ _ _ M)) as (s3 & -> & S3 & G3 & _). cbn [bind].
             destruct (IH (S i) s3 v2 e2 S3 (m_len _ _ _ _ _ _ M)) as (o & -> & P); auto.
             { intros j Hj. rewrite G3. apply (m_g _ _ _ _ _ _ M); auto. }
             exists o. split; auto. destruct o as [[num v e]|]; auto. cbn [result avar aeval number] in *. destruct P as (P1 & P2 & P3). conjs; auto; try lra.
             destruct num; auto. destruct P3 as [P3 P4]. split; auto. lia.
      + eexists. split; [reflexivity|]. cbn [result avar aeval number]. subst. conjs; auto; lra.
      + exists None. split; [reflexivity|exact I].
  Qed.
  Lemma sd_solve fuel tf tol iter s var : sizes s -> vlen var = n ->
    exists o, zOptDMSolve eps eval grad (zOptDMAssignSD ztol eps isnan isinf eval grad scale fuel tf Noc) s var tol iter = Ok o /\ result tol (eval var) 0 (S (ziter iter)) o.
  Proof.
    intros S Lv. unfold zOptDMSolve. destruct (HG var (dg s) Lv (z_g s S)) as (g & -> & Lg & Vg). cbn [bind].
    destruct (zVecIsTol tol g) eqn:T.
    - eexists. split; [reflexivity|]. cbn [result avar aeval number]. conjs; auto; try lra; try lia. intros C T'. exists var. split; auto. split.
      + intros m Hm. rewrite Rminus_eq_0, Rabs_R0. lra.
      + intros m Hm. rewrite <- Vg by auto. pose proof (istol_R _ _ T m ltac:(lia)). lra.
    - match goal with |- context [dm_loop _ _ _ _ ?s _ _] => set (s0 := s) end.
      destruct (sd_loop fuel tf tol (ziter iter) 0 s0 var (eval var)) as (o & -> & P); auto.
      + destruct S. constructor; auto.
      + exists o. split; auto. destruct o as [[num v e]|]; auto. cbn [result avar aeval number] in *. destruct P as (P1 & P2 & P3). conjs; auto; try lra.
        destruct num; auto. destruct P3 as [P3 P4]. split; auto. lia.
  Qed.
End Dm.
