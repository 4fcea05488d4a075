(** Bisection, regula falsi, van Wijngaarden-Dekker-Brent, secant. *)
From Coq Require Import Reals Lra Lia Psatz.
From Verif Require Import Prelude Scalar RealLib Root_Model Root_Spec.
Local Open Scope R_scope.

Ltac dlt := match goal with |- context [if Rltb ?a ?b then _ else _] => destruct (Rltb_spec a b) | |- context [if Rleb ?a ?b then _ else _] => destruct (Rleb_spec a b) end.

Lemma ziter_pos i : exists n, ziter i = S n.
Proof.
  unfold ziter. destruct (Z.leb_spec i 0).
  - exists (Z.to_nat 9999). rewrite <- Z2Nat.inj_succ by lia. reflexivity.
  - exists (Z.to_nat (i - 1)). rewrite <- Z2Nat.inj_succ by lia. f_equal. lia.
Qed.

Lemma btw_sym a b x : between a b x -> between b a x.
Proof. unfold between. tauto. Qed.
Lemma btw_trans a b c d x : between a b c -> between a b d -> between c d x -> between a b x.
Proof. unfold between. lra. Qed.
Lemma btw_l a b : between a b a. Proof. unfold between. lra. Qed.
Lemma btw_r a b : between a b b. Proof. unfold between. lra. Qed.
Lemma btw_mid a b : between a b (/ 2 * (a + b)). Proof. unfold between. lra. Qed.

Lemma sc_sym f a b : sign_change f a b -> sign_change f b a.
Proof. unfold sign_change. lra. Qed.
Lemma sc_split f a b c : sign_change f a b -> f c <> 0 -> ~ f a * f c < 0 -> sign_change f c b.
Proof.
  unfold sign_change. intros H N L.
  assert (f a <> 0) by (intros E; rewrite E in H; lra).
  assert (0 < f a * f c).
  { destruct (Rtotal_order (f a * f c) 0) as [?|[E|?]]; try lra. apply Rmult_integral in E. tauto. }
  destruct (Rtotal_order (f a) 0) as [?|[?|?]]; try tauto; destruct (Rtotal_order (f c) 0) as [?|[?|?]]; try tauto; nra.
Qed.

(** a sign-changing pair is accepted at once *)
Lemma bracket_sc rnd f x1 x2 tol n : sign_change f x1 x2 ->
  _zNLE_Bracket rnd f x1 x2 tol (S n) = Bracketed x1 x2 (f x1) (f x2) \/
  (_zNLE_Bracket rnd f x1 x2 tol (S n) = Hit1 /\ Rabs (f x1) <= tol) \/
  (_zNLE_Bracket rnd f x1 x2 tol (S n) = Hit2 /\ Rabs (f x2) <= tol).
Proof.
  intros H. unfold _zNLE_Bracket. cbn [bracket_loop]. rewrite !is_tol_R. cbn [smul slt s0 RealS].
  destruct (Rleb_spec (Rabs (f x1)) tol); [auto|]. destruct (Rleb_spec (Rabs (f x2)) tol); [auto|].
  rewrite Rltb_true by exact H. auto.
Qed.

Section Bisec.
  Variables (f : R -> R) (tol : R).
  Hypothesis T : 0 <= tol.
  Lemma tol_nz x : ~ Rabs (f x) <= tol -> f x <> 0.
  Proof. intros H E. apply H. rewrite E, Rabs_R0. exact T. Qed.
  Definition mid_ok (n : nat) (x1 x2 r : R) : Prop :=
    between x1 x2 r /\
    (Rabs (f r) <= tol \/ exists y, between x1 x2 y /\ sign_change f r y /\ Rabs (y - r) = Rabs (x2 - x1) / 2 ^ S n).
  Lemma bisec_ok n : forall x1 x2, sign_change f x1 x2 -> mid_ok n x1 x2 (bisec_loop f n x1 x2 (f x1) tol).
  Proof.
    induction n as [|n IH]; intros x1 x2 H; cbn [bisec_loop]; rewrite is_tol_R;
      cbn [smul sadd slt s0 s1 sdiv sofZ RealS]; replace (1 / 2) with (/ 2) by field;
      set (xm := / 2 * (x1 + x2)); destruct (Rleb_spec (Rabs (f xm)) tol) as [Z|Z];
      try (split; [apply btw_mid|left; exact Z]); pose proof (tol_nz _ Z) as NZ.
    - split; [apply btw_mid|]. right. destruct (Rlt_dec (f x1 * f xm) 0) as [L|L].
      + exists x1. split; [apply btw_l|]. split; [apply sc_sym; exact L|].
        rewrite Rabs_minus_sym. replace (xm - x1) with ((x2 - x1) / 2) by (unfold xm; field).
        unfold Rdiv at 1. rewrite Rabs_mult, (Rabs_right (/ 2)) by lra. cbn [pow]. field.
      + exists x2. split; [apply btw_r|]. split; [exact (sc_split _ _ _ _ H NZ L)|].
        replace (x2 - xm) with ((x2 - x1) / 2) by (unfold xm; field).
        unfold Rdiv at 1. rewrite Rabs_mult, (Rabs_right (/ 2)) by lra. cbn [pow]. field.
    - destruct (Rltb_spec (f x1 * f xm) 0) as [L|L].
      + destruct (IH x1 xm L) as [B C]. set (r := bisec_loop _ _ _ _ _ _) in *. split.
        * exact (btw_trans _ _ _ _ _ (btw_l _ _) (btw_mid _ _) B).
        * destruct C as [C|[y [By [S E]]]]; [auto|right; exists y]. split; [exact (btw_trans _ _ _ _ _ (btw_l _ _) (btw_mid _ _) By)|].
          split; [exact S|]. rewrite E. replace (xm - x1) with ((x2 - x1) / 2) by (unfold xm; field).
          unfold Rdiv at 2. rewrite Rabs_mult, (Rabs_right (/ 2)) by lra. cbn [pow]. field. apply pow_nonzero. lra.
      + destruct (IH xm x2 (sc_split _ _ _ _ H NZ L)) as [B C]. set (r := bisec_loop _ _ _ _ _ _) in *. split.
        * exact (btw_trans _ _ _ _ _ (btw_mid _ _) (btw_r _ _) B).
        * destruct C as [C|[y [By [S E]]]]; [auto|right; exists y]. split; [exact (btw_trans _ _ _ _ _ (btw_mid _ _) (btw_r _ _) By)|].
          split; [exact S|]. rewrite E. replace (x2 - xm) with ((x2 - x1) / 2) by (unfold xm; field).
          unfold Rdiv at 2. rewrite Rabs_mult, (Rabs_right (/ 2)) by lra. cbn [pow]. field. apply pow_nonzero. lra.
  Qed.

  (** the point of regula falsi lies in the bracket *)
  Lemma rf_in x1 x2 f1 f2 : f1 * f2 < 0 -> between x1 x2 ((f2 * x1 - f1 * x2) / (f2 - f1)).
  Proof.
    intros H. assert (Hn : f1 <> 0) by (intros ->; lra). assert (Hm : f2 <> 0) by (intros ->; lra).
    assert (D : f2 - f1 <> 0) by (intros E; replace f2 with f1 in H by lra; nra).
    assert (E : (f2 * x1 - f1 * x2) / (f2 - f1) = x1 + (f1 / (f1 - f2)) * (x2 - x1)) by (field; split; lra).
    set (k := f1 / (f1 - f2)) in *.
    assert (K : 0 < k < 1).
    { unfold k. destruct (Rtotal_order f1 0) as [L|[?|L]]; try tauto.
      - assert (0 < f2) by nra. assert (0 < - f1 / (f2 - f1) < 1).
        { split; [apply Rdiv_lt_0_compat; lra|]. apply (Rmult_lt_reg_r (f2 - f1)); [lra|]. unfold Rdiv. rewrite Rmult_assoc, Rinv_l by lra. lra. }
        replace (f1 / (f1 - f2)) with (- f1 / (f2 - f1)) by (field; lra). auto.
      - assert (f2 < 0) by nra. split; [apply Rdiv_lt_0_compat; lra|]. apply (Rmult_lt_reg_r (f1 - f2)); [lra|]. unfold Rdiv. rewrite Rmult_assoc, Rinv_l by lra. lra. }
    unfold between. rewrite E. destruct (Rle_dec x1 x2); [left|right]; nra.
  Qed.
  Definition end_ok (x1 x2 r : R) : Prop :=
    between x1 x2 r /\ (Rabs (f r) <= tol \/ exists y, between x1 x2 y /\ sign_change f r y).
  Lemma rf_ok n : forall x1 x2 xc, sign_change f x1 x2 ->
    end_ok x1 x2 (rf_loop f (S n) x1 x2 (f x1) (f x2) xc tol).
  Proof.
    induction n as [|n IH]; intros x1 x2 xc H.
    - cbn [rf_loop]. rewrite is_tol_R. cbn [smul ssub slt s0 sdiv RealS].
      pose proof (rf_in x1 x2 _ _ H) as B. set (x := _ / _) in *.
      destruct (Rleb_spec (Rabs (f x)) tol) as [Z|Z]; [split; auto|]. pose proof (tol_nz _ Z) as NZ.
      assert (E : (if Rltb (f x1 * f x) 0 then x else x) = x) by (destruct Rltb; reflexivity). rewrite E.
      split; [exact B|right]. destruct (Rlt_dec (f x1 * f x) 0) as [L|L].
      + exists x1. split; [apply btw_l|apply sc_sym; exact L].
      + exists x2. split; [apply btw_r|exact (sc_split _ _ _ _ H NZ L)].
    - change (rf_loop f (S (S n)) x1 x2 (f x1) (f x2) xc tol) with
        (let xc := (f x2 * x1 - f x1 * x2) / (f x2 - f x1) in
         if is_tol tol (f xc) then xc else if Rltb (f x1 * f xc) 0 then rf_loop f (S n) x1 xc (f x1) (f xc) xc tol
         else rf_loop f (S n) xc x2 (f xc) (f x2) xc tol).
      cbv zeta. rewrite is_tol_R. pose proof (rf_in x1 x2 _ _ H) as B. set (x := _ / _) in *.
      destruct (Rleb_spec (Rabs (f x)) tol) as [Z|Z]; [split; auto|]. pose proof (tol_nz _ Z) as NZ.
      destruct (Rltb_spec (f x1 * f x) 0) as [L|L].
      + destruct (IH x1 x x L) as [B' C]. split; [exact (btw_trans _ _ _ _ _ (btw_l _ _) B B')|].
        destruct C as [C|[y [By S]]]; [auto|right; exists y]. split; [exact (btw_trans _ _ _ _ _ (btw_l _ _) B By)|exact S].
      + destruct (IH x x2 x (sc_split _ _ _ _ H NZ L)) as [B' C]. split; [exact (btw_trans _ _ _ _ _ B (btw_r _ _) B')|].
        destruct C as [C|[y [By S]]]; [auto|right; exists y]. split; [exact (btw_trans _ _ _ _ _ B (btw_r _ _) By)|exact S].
  Qed.
End Bisec.

(** *** van Wijngaarden-Dekker-Brent *)
Section Vdb.
  Variables (f : R -> R) (tol ztol : R).
  Hypothesis T : 0 <= tol.
  Hypothesis Z : 0 < ztol.
  Local Notation vdb := (@vdb R).
  (** values belong to points; (x2,x3) or (x2,x1) is a sign-changing interval inside of [a,b];
      the values at x1 and x3 are not within the tolerance *)
  Definition vals (s : vdb) : Prop := vf1 s = f (vx1 s) /\ vf2 s = f (vx2 s) /\ vf3 s = f (vx3 s).
  Definition pre (a b : R) (s : vdb) : Prop :=
    vals s /\ between a b (vx1 s) /\ between a b (vx2 s) /\ between a b (vx3 s) /\
    f (vx1 s) <> 0 /\ f (vx3 s) <> 0 /\ (sign_change f (vx1 s) (vx3 s) \/ (vx3 s = vx2 s /\ sign_change f (vx1 s) (vx2 s))).
  Definition post (a b : R) (s : vdb) : Prop :=
    vals s /\ between a b (vx1 s) /\ between a b (vx2 s) /\ between a b (vx3 s) /\ f (vx3 s) <> 0 /\
    (sign_change f (vx2 s) (vx3 s) \/ f (vx2 s) = 0).
  Lemma order_ok a b s : pre a b s -> post a b (vdb_order s) /\
    ((vx2 (vdb_order s) = vx2 s /\ vx3 (vdb_order s) = vx3 s) \/ (vx2 (vdb_order s) = vx3 s /\ vx3 (vdb_order s) = vx2 s) \/
     (0 < f (vx2 s) * f (vx3 s) /\
      ((vx2 (vdb_order s) = vx2 s /\ vx3 (vdb_order s) = vx1 s) \/ (vx2 (vdb_order s) = vx1 s /\ vx3 (vdb_order s) = vx2 s)))).
  Proof.
    destruct s as [x1 x2 x3 f1 f2 f3]. intros [[V1 [V2 V3]] [B1 [B2 [B3 [N1 [N3 S]]]]]]. cbn [vx1 vx2 vx3 vf1 vf2 vf3] in *. subst f1 f2 f3.
    unfold vdb_order; cbv zeta; cbn [vx1 vx2 vx3 vf1 vf2 vf3 slt s0 smul sabs RealS].
    destruct (Rltb_spec 0 (f x2 * f x3)) as [L|L].
    - assert (SC : sign_change f x2 x1).
      { destruct S as [S|[-> S]]; [|apply sc_sym; exact S]. unfold sign_change in *.
        destruct (Rtotal_order (f x3) 0) as [?|[?|?]]; try tauto; nra. }
      cbn [vx1 vx2 vx3 vf1 vf2 vf3]. destruct (Rltb_spec (Rabs (f x1)) (Rabs (f x2))); unfold post, vals; cbn [vx1 vx2 vx3 vf1 vf2 vf3].
      + assert (f x2 <> 0) by (intros E; rewrite E, Rmult_0_l in L; lra). split; [|auto 10]. repeat split; auto. left. apply sc_sym, SC.
      + split; [|auto 10]. repeat split; auto.
    - cbn [vx1 vx2 vx3 vf1 vf2 vf3].
      assert (SC : sign_change f x2 x3 \/ f x2 = 0).
      { destruct (Req_dec (f x2) 0); [auto|left]. unfold sign_change.
        assert (f x2 * f x3 <> 0) by (apply Rmult_integral_contrapositive_currified; auto). lra. }
      destruct (Rltb_spec (Rabs (f x3)) (Rabs (f x2))) as [Q|Q]; unfold post, vals; cbn [vx1 vx2 vx3 vf1 vf2 vf3].
      + assert (f x2 <> 0) by (intros E; rewrite E, Rabs_R0 in Q; pose proof (Rabs_pos (f x3)); lra).
        split; [|auto 10]. repeat split; auto. left. destruct SC; [apply sc_sym; auto|tauto].
      + split; [|auto 10]. repeat split; auto.
  Qed.
  (** a step goes towards x3, no more than half of the way *)
  Lemma dx_ok (s : vdb) : exists k, 0 <= k <= 1 /\ vdb_dx ztol s = k * vdb_xm s.
  Proof.
    assert (O : exists k, 0 <= k <= 1 /\ vdb_xm s = k * vdb_xm s) by (exists 1; split; [lra|ring]).
    unfold vdb_dx. set (tol2 := vdb_tol ztol s). set (xm := vdb_xm s) in *.
    destruct (negb _ && _); [|exact O].
    assert (P : forall pq : R * R, exists k, 0 <= k <= 1 /\
      (let '(p, q) := pq in
       let '(p, q) := if slt s0 p then (p, sopp q) else (sopp p, q) in
       let min1 := (sofZ 3 * xm * q - sabs (tol2 * q))%S in
       let min2 := sabs (xm * q)%S in
       if slt (sofZ 2 * p)%S (if slt min2 min1 then min2 else min1) then (p / q)%S else xm) = k * xm).
    { intros [p q]. cbn [sofZ smul ssub sabs slt s0 sopp sdiv RealS].
      set (pq := if Rltb 0 p then (p, - q) else (- p, q)).
      assert (P0 : 0 <= fst pq) by (unfold pq; destruct (Rltb_spec 0 p); cbn; lra).
      destruct pq as [p' q']. cbn [fst] in P0.
      destruct (Rltb_spec (2 * p') (if Rltb (Rabs (xm * q')) (3 * xm * q' - Rabs (tol2 * q')) then Rabs (xm * q') else 3 * xm * q' - Rabs (tol2 * q'))) as [L|L]; [|exact O].
      assert (L1 : 2 * p' < 3 * xm * q' - Rabs (tol2 * q') /\ 2 * p' < Rabs (xm * q')).
      { destruct (Rltb_spec (Rabs (xm * q')) (3 * xm * q' - Rabs (tol2 * q'))); lra. }
      destruct L1 as [L1 L2]. pose proof (Rabs_pos (tol2 * q')) as A.
      assert (XQ : 0 < xm * q') by lra. rewrite Rabs_right in L2 by lra.
      exists (p' / (xm * q')). split.
      - split; [apply Rmult_le_pos; [lra|left; apply Rinv_0_lt_compat; lra]|].
        apply (Rmult_le_reg_r (xm * q')); [lra|]. unfold Rdiv. rewrite Rmult_assoc, Rinv_l by lra. lra.
      - field. split; intros E; rewrite E in XQ; lra. }
    apply P.
  Qed.
  Lemma tol2_pos (s : vdb) : ztol / 2 <= vdb_tol ztol s.
  Proof. unfold vdb_tol. cbn [sadd smul sofZ sabs sdiv s1 RealS]. pose proof (Rabs_pos (vx2 s)). assert (0 <= 2 * ztol * Rabs (vx2 s)) by nra. lra. Qed.
  Lemma move_ok (s : vdb) : vdb_tol ztol s < Rabs (vdb_xm s) ->
    exists k, 0 < k <= 1 /\ vdb_tol ztol s < k * Rabs (vdb_xm s) /\
      vdb_move ztol f s = VDB (vx2 s) (vx2 s + k * vdb_xm s) (vx3 s) (vf2 s) (f (vx2 s + k * vdb_xm s)) (vf3 s).
  Proof.
    intros H. pose proof (tol2_pos s) as P. destruct (dx_ok s) as [k [K E]]. unfold vdb_move. cbv zeta. rewrite E.
    cbn [slt sle sabs sadd smul s0 s1 sopp RealS].
    destruct (Rltb_spec (vdb_tol ztol s) (Rabs (k * vdb_xm s))) as [L|L].
    - rewrite Rabs_mult, (Rabs_right k) in L by lra. exists k. split; [|auto].
      split; [|lra]. destruct (Rle_lt_or_eq_dec 0 k) as [?|<-]; try lra.
    - exists 1. split; [lra|]. split; [lra|]. destruct (Rleb_spec 0 (vdb_tol ztol s)); [reflexivity|lra].
  Qed.
  Definition width (s : vdb) : R := Rabs (vx3 s - vx2 s).
  Lemma xm_width (s : vdb) : Rabs (vdb_xm s) = width s / 2.
  Proof. unfold vdb_xm, width. cbn [smul ssub sdiv s1 sofZ RealS]. rewrite Rabs_mult, (Rabs_right (1 / 2)) by lra. field. Qed.

  (** what is returned *)
  Definition vdb_result (a b w : R) (n : nat) (r : R) : Prop :=
    between a b r /\
    (Rabs (f r) <= tol \/
     exists y, between a b y /\ sign_change f r y /\
       (Rabs (y - r) <= 4 * ztol * Rabs r + ztol \/ Rabs (y - r) <= w - INR n * (ztol / 2))).
  Lemma vdb_ok a b n : forall s w, pre a b s -> width (vdb_order s) <= w ->
    vdb_result a b w n (vdb_loop ztol f (S n) s tol).
  Proof.
    induction n as [|n IH]; intros s w PR W;
      cbn [vdb_loop]; rewrite is_tol_R; cbn [sle sabs RealS];
      destruct (order_ok _ _ _ PR) as [[V [B1 [B2 [B3 [N3 SC]]]]] _]; set (o := vdb_order s) in *; destruct V as [V1 [V2 V3]];
      assert (RT : (if Rleb (Rabs (vdb_xm o)) (vdb_tol ztol o) || Rleb (Rabs (vf2 o)) tol then True else
                   vdb_tol ztol o < Rabs (vdb_xm o) /\ tol < Rabs (f (vx2 o)) /\ sign_change f (vx2 o) (vx3 o)))
        by (rewrite V2; destruct (Rleb_spec (Rabs (vdb_xm o)) (vdb_tol ztol o)); [exact I|];
            destruct (Rleb_spec (Rabs (f (vx2 o))) tol); [exact I|]; cbn [orb]; split; [lra|]; split; [lra|];
            destruct SC as [SC|SC]; [exact SC|rewrite SC, Rabs_R0 in *; lra]);
      assert (RE : Rleb (Rabs (vdb_xm o)) (vdb_tol ztol o) || Rleb (Rabs (vf2 o)) tol = true ->
                   forall m, vdb_result a b w m (vx2 o))
        by (intros Q m; split; [exact B2|]; rewrite V2 in Q; destruct (Rleb_spec (Rabs (f (vx2 o))) tol) as [Z1|Z1]; [left; exact Z1|];
            destruct (Rleb_spec (Rabs (vdb_xm o)) (vdb_tol ztol o)) as [Z2|Z2]; [|discriminate];
            right; exists (vx3 o); split; [exact B3|]; split;
            [destruct SC as [SC|SC]; [exact SC|rewrite SC, Rabs_R0 in *; lra]|];
            left; rewrite xm_width in Z2; unfold width, vdb_tol in Z2; cbn [sadd smul sofZ sabs sdiv s1 RealS] in Z2; lra);
      destruct (Rleb (Rabs (vdb_xm o)) (vdb_tol ztol o) || Rleb (Rabs (vf2 o)) tol); try (apply RE; reflexivity);
      destruct RT as [X1 [X2 X3]]; destruct (move_ok o X1) as [k [K [KX E]]].
    - rewrite E. cbn [vx3]. split; [exact B3|]. right. exists (vx2 o). split; [exact B2|]. split; [apply sc_sym; exact X3|]. right.
      cbn [INR]. rewrite Rabs_minus_sym. unfold width in W. lra.
    - rewrite E in *. set (x2' := vx2 o + k * vdb_xm o) in *.
      set (s' := VDB (vx2 o) x2' (vx3 o) (vf2 o) (f x2') (vf3 o)) in *.
      assert (B2' : between a b x2').
      { apply (btw_trans _ _ _ _ _ B2 B3). unfold x2', vdb_xm, between. cbn [smul ssub sdiv s1 sofZ RealS].
        destruct (Rle_dec (vx2 o) (vx3 o)); [left|right]; nra. }
      assert (N2 : f (vx2 o) <> 0) by (intros Q; rewrite Q, Rabs_R0 in X2; lra).
      assert (PR' : pre a b s').
      { unfold pre, vals, s'. cbn [vx1 vx2 vx3 vf1 vf2 vf3]. repeat split; auto. }
      assert (W' : width (vdb_order s') <= w - ztol / 2).
      { pose proof (tol2_pos o) as TP. destruct (order_ok _ _ _ PR') as [_ O]. change (vx1 s') with (vx2 o) in O; change (vx2 s') with x2' in O; change (vx3 s') with (vx3 o) in O.
        assert (A1 : Rabs (vx3 o - x2') = (1 - k / 2) * width o).
        { unfold x2', vdb_xm, width. cbn [smul ssub sdiv s1 sofZ RealS].
          replace (vx3 o - (vx2 o + k * (1 / 2 * (vx3 o - vx2 o)))) with ((1 - k / 2) * (vx3 o - vx2 o)) by field.
          rewrite Rabs_mult, (Rabs_right (1 - k / 2)) by lra. reflexivity. }
        assert (A2 : Rabs (vx2 o - x2') = (k / 2) * width o).
        { unfold x2', vdb_xm, width. cbn [smul ssub sdiv s1 sofZ RealS].
          replace (vx2 o - (vx2 o + k * (1 / 2 * (vx3 o - vx2 o)))) with (- (k / 2) * (vx3 o - vx2 o)) by field.
          rewrite Rabs_mult, Rabs_Ropp, (Rabs_right (k / 2)) by lra. reflexivity. }
        assert (WP : 0 <= width o) by (unfold width; apply Rabs_pos).
        rewrite xm_width in KX.
        assert (A3 : width (vdb_order s') = Rabs (vx3 o - x2') \/ width (vdb_order s') = Rabs (vx2 o - x2')).
        { unfold width. destruct O as [[-> ->]|[[-> ->]|[_ [[-> ->]|[-> ->]]]]]; auto; rewrite Rabs_minus_sym; auto. }
        destruct A3 as [->| ->]; rewrite ?A1, ?A2; nra. }
      destruct (IH s' _ PR' W') as [C1 C2]. split; [exact C1|]. destruct C2 as [C2|[y [Y1 [Y2 Y3]]]]; [auto|]. right.
      exists y. split; [exact Y1|]. split; [exact Y2|]. destruct Y3; [auto|right].
      refine (Rle_trans _ _ _ H _). rewrite S_INR. lra.
  Qed.
End Vdb.
