(** Lemmas about particle swarm optimization (C85). *)
From Coq Require Import List Arith Lia Reals Lra Bool.
From Verif Require Import Prelude Prelude_Proofs Scalar RealLib Fmat_Proofs Rrt2_Proofs Pso_Model Pso_Spec.
Import ListNotations.
Local Open Scope R_scope.

Lemma vec_length {T} dim (g : nat -> T) : length (vec dim g) = dim.
Proof. unfold vec. now rewrite map_length, seq_length. Qed.
Lemma el_vec dim (g : nat -> R) j : (j < dim)%nat -> nth j (vec dim g) 0 = g j.
Proof.
  intros H. unfold vec. rewrite (nth_indep _ 0 (g O)) by (rewrite map_length, seq_length; lia).
  rewrite map_nth, seq_nth by lia. reflexivity.
Qed.

Lemma limit_ok : forall a lo hi : R, lo <= hi -> lo <= zLimit a lo hi <= hi.
Proof.
  intros a lo hi H. unfold zLimit. change (@slt R _) with Rltb. destruct (Rltb_spec a lo); [lra|]. destruct (Rltb_spec hi a); lra.
Qed.

Section PsoProofs.
  Variables (f : list R -> R) (dim : nat) (ri : nat -> nat -> R) (ru : nat -> nat -> nat -> nat -> R) (ztol : R).
  Variables (mn mx vmx : list R).
  Let vmn := vec dim (fun i => sopp (el vmx i)).
  Hypothesis Lmn : length mn = dim.
  Hypothesis Lmx : length mx = dim.
  Hypothesis Hbox : forall j, (j < dim)%nat -> nth j mn 0 <= nth j mx 0.
  Hypothesis Hri : forall i k, (k < 2)%nat -> 0 <= ri i k <= 1.

  (** a particle: it is in the box, and its record is right *)
  Definition good (p : particle) : Prop :=
    in_box mn mx (px p) /\ in_box mn mx (mybest p) /\ peval p = f (mybest p) /\ peval p <= f (px p).

  Lemma interdiv_box : forall r, 0 <= r <= 1 -> in_box mn mx (interdiv dim mn mx r).
  Proof.
    intros r Hr. split. { unfold interdiv. rewrite vec_length. auto. } intros j Hj. rewrite Lmn in Hj. unfold interdiv. rewrite el_vec by auto.
    unfold el. specialize (Hbox j Hj). cbn. set (a := nth j mn 0) in *. set (b := nth j mx 0) in *.
    assert (0 <= r * (b - a)) by (apply Rmult_le_pos; lra).
    assert (0 <= (1 - r) * (b - a)) by (apply Rmult_le_pos; lra). change (nth j mn s0) with a. change (nth j mx s0) with b. lra.
  Qed.
  Lemma create_good : forall i, good (_zOptPSOParticleCreate f dim ri i mn mx vmn vmx).
  Proof.
    intros i. unfold good, _zOptPSOParticleCreate; cbn [px mybest peval].
    assert (in_box mn mx (interdiv dim mn mx (ri i 0))) by (apply interdiv_box, Hri; lia). split; [auto|split; [auto|split; [auto|lra]]].
  Qed.

  Lemma move_box : forall n i p best k1 k2 j, (j < dim)%nat ->
    nth j mn 0 <= fst (move ru n i p mn mx vmn vmx best k1 k2 j) <= nth j mx 0.
  Proof.
    intros n i p best k1 k2 j Hj. specialize (Hbox j Hj). unfold move, el. cbv zeta.
    match goal with |- context [zLimit ?a ?b ?c] => set (v := zLimit a b c) end.
    change (@slt R _) with Rltb. change (@sadd R _) with Rplus. change (@s0 R _) with 0.
    destruct (Rltb_spec (nth j mx 0) (nth j (px p) 0 + v)); cbn [fst]; [lra|].
    destruct (Rltb_spec (nth j (px p) 0 + v) (nth j mn 0)); cbn [fst]; lra.
  Qed.
  Lemma move_speed : forall n i p best k1 k2 j, (j < dim)%nat -> 0 <= nth j vmx 0 ->
    Rabs (snd (move ru n i p mn mx vmn vmx best k1 k2 j)) <= nth j vmx 0.
  Proof.
    intros n i p best k1 k2 j Hj Hv. unfold move. cbv zeta.
    match goal with |- context [zLimit ?a ?b ?c] => set (v := zLimit a b c) end.
    assert (Hvl : Rabs v <= nth j vmx 0).
    { assert (Em : el vmn j = - nth j vmx 0) by (unfold vmn, el at 1; change (@s0 R _) with 0; rewrite el_vec by auto; reflexivity).
      apply Rabs_le. unfold v. rewrite Em. apply limit_ok. change (el vmx j) with (nth j vmx 0). lra. }
    repeat match goal with |- context [if ?b then _ else _] => destruct b end; cbn [snd]; auto;
      change (@sopp R _) with Ropp; rewrite Rabs_Ropp; auto.
  Qed.

  Lemma update_good : forall n i p best k1 k2, good p ->
    let '(p', t) := _zOptPSOParticleUpdate f dim ru ztol n i p mn mx vmn vmx best k1 k2 in
    good p' /\ peval p' <= peval p /\
    (forall j, (j < dim)%nat -> 0 <= nth j vmx 0 -> Rabs (nth j (pv p') 0) <= nth j vmx 0) /\
    (t = true <-> forall v, In v (pv p') -> Rabs v <= ztol).
  Proof.
    intros n i p best k1 k2 [G1 [G2 [G3 G4]]]. unfold _zOptPSOParticleUpdate. cbv zeta.
    set (x := vec dim (fun j => fst _)). set (v := vec dim (fun j => snd _)).
    assert (Hx : in_box mn mx x).
    { split. { unfold x. rewrite vec_length. auto. } intros j Hj. rewrite Lmn in Hj. unfold x. rewrite el_vec by auto. apply move_box; auto. }
    change (@slt R _) with Rltb.
    assert (Hv : forall j, (j < dim)%nat -> 0 <= nth j vmx 0 -> Rabs (nth j v 0) <= nth j vmx 0).
    { intros j Hj H0. unfold v. rewrite el_vec by auto. apply move_speed; auto. }
    assert (Ht : forallb (is_tol ztol) v = true <-> forall a, In a v -> Rabs a <= ztol).
    { rewrite forallb_forall. split; intros H a Ha; specialize (H a Ha); rewrite is_tol_R in *; destruct (Rleb_spec (Rabs a) ztol); auto; try discriminate; lra. }
    destruct (Rltb_spec (f x) (peval p)); unfold good; cbn [px mybest peval pv]; (split; [split; [auto|split; [auto|split; [auto|lra]]]|split; [lra|split; [auto|exact Ht]]]).
  Qed.

  (** FindBest *)
  Lemma findbest_ok : forall s, parts s <> [] ->
    exists b p, _zOptPSOSwarmFindBest s = Ok (Swarm (parts s) (c1 s) (c2 s) b (peval p)) /\ nth_error (parts s) b = Some p /\
      forall q, In q (parts s) -> peval p <= peval q.
  Proof.
    intros s Hs. unfold _zOptPSOSwarmFindBest. destruct (parts s) as [|p0 l] eqn:E; [contradiction|]. rewrite <- E in *.
    assert (L : (1 <= length (parts s))%nat) by (rewrite E; cbn; lia).
    assert (E0 : nth_error (parts s) 0 = Some p0) by now rewrite E.
    unfold get at 1. rewrite E0. cbn [bind].
    match goal with |- context [for_ 1 _ ?g _] => set (body := g) end.
    destruct (for_inv (fun k '(b, e) => exists p, nth_error (parts s) b = Some p /\ e = peval p /\
      forall i q, (i < k)%nat -> nth_error (parts s) i = Some q -> peval p <= peval q) 1 (length (parts s)) body (0%nat, peval p0)) as [[b e] [H1 [p [H2 [H3 H4]]]]]; auto.
    - exists p0. repeat split; auto. intros i q Hi Hq. assert (i = 0)%nat by lia. subst. rewrite E0 in Hq. injection Hq as <-. lra.
    - intros k [b e] Hk [p [A1 [A2 A3]]]. unfold body. destruct (nth_error (parts s) k) as [q|] eqn:Eq. 2: { apply nth_error_None in Eq. lia. }
      unfold get. rewrite Eq. cbn [bind]. change (@slt R _) with Rltb. destruct (Rltb_spec (peval q) e).
      + eexists. split; [reflexivity|]. exists q. repeat split; auto. intros i q2 Hi Hr. destruct (Nat.eq_dec i k) as [->|].
        * rewrite Eq in Hr. injection Hr as <-. lra.
        * specialize (A3 i q2 ltac:(lia) Hr). lra.
      + eexists. split; [reflexivity|]. exists p. repeat split; auto. intros i q2 Hi Hr. destruct (Nat.eq_dec i k) as [->|].
        * rewrite Eq in Hr. injection Hr as <-. lra.
        * apply (A3 i q2); auto; lia.
    - rewrite H1. cbn [bind]. subst e. exists b, p. repeat split; auto. intros q Hq. apply In_nth_error in Hq. destruct Hq as [i Hi].
      apply (H4 i); auto. apply nth_error_Some. congruence.
  Qed.

  (** how the particles of a swarm develop in a round *)
  Definition later (ps ps' : list particle) : Prop :=
    length ps' = length ps /\ forall i p p', nth_error ps i = Some p -> nth_error ps' i = Some p' -> peval p' <= peval p.
  Definition slow (p : particle) : Prop := forall j, (j < dim)%nat -> 0 <= nth j vmx 0 -> Rabs (nth j (pv p) 0) <= nth j vmx 0.
  Definition resting (p : particle) : Prop := forall v, In v (pv p) -> Rabs v <= ztol.

  Lemma swarm_update_ok : forall n s, parts s <> [] -> Forall good (parts s) ->
    exists s' conv, _zOptPSOSwarmUpdate f dim ru ztol n s mn mx vmn vmx = Ok (s', conv) /\
      later (parts s) (parts s') /\ Forall good (parts s') /\ Forall slow (parts s') /\
      (conv = true <-> Forall resting (parts s')) /\ c1 s' = c1 s /\ c2 s' = c2 s /\
      exists p p', nth_error (parts s) (best s') = Some p /\ nth_error (parts s') (best s') = Some p' /\ seval s' = peval p /\ peval p' <= seval s' /\
        forall q, In q (parts s) -> seval s' <= peval q.
  Proof.
    intros n s Hs Hg. unfold _zOptPSOSwarmUpdate. destruct (findbest_ok s Hs) as [b [p [E [Hb Hmin]]]]. rewrite E. cbn [bind parts c1 c2 best seval].
    match goal with |- context [for_ 0 _ ?g _] => set (body := g) end.
    destruct (for_inv (fun k '(ps, conv) => later (parts s) ps /\ Forall good ps /\
       (forall i q, (i < k)%nat -> nth_error ps i = Some q -> slow q) /\
       (conv = true <-> forall i q, (i < k)%nat -> nth_error ps i = Some q -> resting q)) 0 (length (parts s)) body (parts s, true)) as [[ps conv] [H1 [H2 [H3 [H4 H5]]]]].
    - lia.
    - split; [split; auto|split; auto].
      + intros i q q' A B. rewrite A in B. injection B as <-. lra.
      + split; [intros; lia|]. split; auto. intros; lia.
    - intros k [ps conv] Hk [[L1 L2] [A1 [A2 A3]]]. unfold body.
      assert (Hkl : (k < length ps)%nat) by lia.
      destruct (nth_error ps k) as [pk|] eqn:Ek. 2: { apply nth_error_None in Ek. lia. }
      assert (Hbl : (b < length ps)%nat) by (rewrite L1; apply nth_error_Some; congruence).
      destruct (nth_error ps b) as [pb|] eqn:Ebb. 2: { apply nth_error_None in Ebb. lia. }
      unfold get. rewrite Ek, Ebb. cbn [bind].
      assert (Gk : good pk) by (rewrite Forall_forall in A1; apply A1; eapply nth_error_In; eauto).
      pose proof (update_good n k pk (mybest pb) (c1 s) (c2 s) Gk) as U.
      destruct (_zOptPSOParticleUpdate f dim ru ztol n k pk mn mx vmn vmx (mybest pb) (c1 s) (c2 s)) as [pk' t].
      destruct U as [U1 [U2 [U3 U4]]]. rewrite set_ok by auto. cbn [bind]. eexists. split; [reflexivity|].
      assert (NU : forall i, nth_error (upd ps k pk') i = if Nat.eq_dec i k then Some pk' else nth_error ps i).
      { intros i. rewrite Rrt2_Proofs.nth_error_upd by auto. destruct (Nat.eqb_spec i k), (Nat.eq_dec i k); auto; contradiction. }
      split; [|split; [|split]].
      + split. { rewrite upd_length. auto. } intros i q q' A B. rewrite NU in B. destruct (Nat.eq_dec i k) as [->|].
        * injection B as <-. apply Rle_trans with (peval pk); auto. apply (L2 k); auto.
        * apply (L2 i); auto.
      + apply Forall_forall. intros q Hq. apply In_nth_error in Hq. destruct Hq as [i Hi]. rewrite NU in Hi. destruct (Nat.eq_dec i k).
        * injection Hi as <-. auto.
        * rewrite Forall_forall in A1. apply A1. eapply nth_error_In; eauto.
      + intros i q Hi Hq. rewrite NU in Hq. destruct (Nat.eq_dec i k). { injection Hq as <-. exact U3. } apply (A2 i); auto. lia.
      + rewrite andb_true_iff, A3, U4. split.
        * intros [B1 B2] i q Hi Hq. rewrite NU in Hq. destruct (Nat.eq_dec i k). { injection Hq as <-. exact B2. } apply (B1 i); auto. lia.
        * intros B. split.
          { intros i q Hi Hq. apply (B i); [lia|]. rewrite NU. destruct (Nat.eq_dec i k); [lia|auto]. }
          { apply (B k); [lia|]. rewrite NU. destruct (Nat.eq_dec k k); [auto|contradiction]. }
    - rewrite H1. cbn [bind]. eexists _, _. split; [reflexivity|]. cbn [parts c1 c2 best seval]. destruct H2 as [L1 L2].
      assert (Hps : forall i q, nth_error ps i = Some q -> (i < length (parts s))%nat) by (intros i q Hq; rewrite <- L1; apply nth_error_Some; congruence).
      split; [split; auto|]. split; auto. split; [|split; [|split; [|split]]]; auto.
      + apply Forall_forall. intros q Hq. apply In_nth_error in Hq. destruct Hq as [i Hi]. eapply H4; eauto.
      + rewrite H5. rewrite Forall_forall. split.
        * intros A q Hq. apply In_nth_error in Hq. destruct Hq as [i Hi]. eapply A; eauto.
        * intros A i q _ Hq. apply A. eapply nth_error_In; eauto.
      + assert (Hbl : (b < length ps)%nat) by (rewrite L1; apply nth_error_Some; congruence).
        destruct (nth_error ps b) as [pb|] eqn:Eb. 2: { apply nth_error_None in Eb. lia. }
        exists p, pb. repeat split; auto. apply (L2 b); auto.
  Qed.

  Variables (num : nat) (k1 k2 : R).
  Hypothesis Hnum : (0 < num)%nat.
  Local Notation after n := (swarm_after f dim ri ru ztol mn mx vmn vmx num k1 k2 n).

  Lemma create_ok : exists s, after 0 = Ok s /\ length (parts s) = num /\ Forall good (parts s).
  Proof.
    cbn [swarm_after]. unfold _zOptPSOSwarmCreate. set (s0 := Swarm _ k1 k2 0%nat _).
    assert (L : length (parts s0) = num) by (cbn; now rewrite map_length, seq_length).
    destruct (findbest_ok s0) as [b [p [E [Hb Hm]]]]. { intros C. rewrite C in L. cbn in L. lia. }
    rewrite E. eexists. split; [reflexivity|]. cbn [parts]. split; auto.
    cbn [parts s0]. apply Forall_forall. intros q Hq. apply in_map_iff in Hq. destruct Hq as [i [<- _]]. apply create_good.
  Qed.
  Lemma after_ok : forall n, exists s, after n = Ok s /\ length (parts s) = num /\ Forall good (parts s) /\ ((0 < n)%nat -> Forall slow (parts s)).
  Proof.
    induction n.
    - destruct create_ok as [s [A [B C]]]. exists s. repeat split; auto. lia.
    - destruct IHn as [s [A [B [C _]]]]. cbn [swarm_after]. rewrite A. cbn [bind].
      destruct (swarm_update_ok n s) as [s' [t [H1 [[H2 _] [H3 [H4 _]]]]]]; auto. { intros D. rewrite D in B. cbn in B. lia. }
      rewrite H1. cbn [bind]. exists s'. repeat split; auto; congruence.
  Qed.
  Lemma after_later : forall n m s s', (m <= n)%nat -> after m = Ok s -> after n = Ok s' -> later (parts s) (parts s').
  Proof.
    induction n; intros m s s' Hm A B.
    - assert (m = 0)%nat by lia. subst. rewrite A in B. injection B as <-. split; auto. intros i p p' C D. rewrite C in D. injection D as <-. lra.
    - destruct (Nat.eq_dec m (S n)) as [->|].
      + rewrite A in B. injection B as <-. split; auto. intros i p p' C D. rewrite C in D. injection D as <-. lra.
      + cbn [swarm_after] in B. destruct (after_ok n) as [s1 [E1 [L1 [G1 _]]]]. rewrite E1 in B. cbn [bind] in B.
        destruct (swarm_update_ok n s1) as [s2 [t [H1 [H2 _]]]]; auto. { intros D. rewrite D in L1. cbn in L1. lia. }
        rewrite H1 in B. cbn [bind] in B. injection B as <-.
        destruct (IHn m s s1 ltac:(lia) A E1) as [X1 X2]. destruct H2 as [Y1 Y2]. split; [congruence|].
        intros i p p' C D. destruct (nth_error (parts s1) i) as [q|] eqn:Eq.
        * apply Rle_trans with (peval q); eauto.
        * apply nth_error_None in Eq. assert (i < length (parts s2))%nat by (apply nth_error_Some; congruence). lia.
  Qed.

  (** the loop: it ends after a round [n]+1 with the swarm after it *)
  Lemma loop_ok : forall k i s, after i = Ok s -> (0 < k)%nat ->
    exists r n s', pso_loop f dim ru ztol k i s mn mx vmn vmx = Ok (r, s') /\ (i <= n)%nat /\ (r <= i + k)%nat /\ after (S n) = Ok s' /\
      ((r = n /\ (r < i + k)%nat /\ Forall resting (parts s')) \/ (r = S n /\ r = i + k /\ ~ Forall resting (parts s')))%nat /\
      exists s0 p p', after n = Ok s0 /\ nth_error (parts s0) (best s') = Some p /\ nth_error (parts s') (best s') = Some p' /\
        seval s' = peval p /\ peval p' <= seval s' /\ forall q, In q (parts s0) -> seval s' <= peval q.
  Proof.
    induction k; intros i s A Hk; [lia|]. cbn [pso_loop].
    destruct (after_ok i) as [s1 [E1 [L1 [G1 _]]]]. rewrite A in E1. injection E1 as <-.
    destruct (swarm_update_ok i s) as [s2 [t [H1 [H2 [H3 [H4 [H5 [_ [_ H6]]]]]]]]]; auto. { intros D. rewrite D in L1. cbn in L1. lia. }
    assert (A2 : after (S i) = Ok s2) by (cbn [swarm_after]; rewrite A; cbn [bind]; rewrite H1; reflexivity).
    rewrite H1. cbn [bind]. destruct t.
    - exists i, i, s2. repeat split; auto; try lia.
      + left. repeat split; auto; try lia. apply H5. auto.
      + destruct H6 as [p [p' H6]]. exists s, p, p'. repeat split; try apply H6. auto.
    - destruct k.
      + cbn [pso_loop]. exists (S i), i, s2. repeat split; auto; try lia.
        * right. repeat split; auto; try lia. intros C. apply H5 in C. discriminate.
        * destruct H6 as [p [p' H6]]. exists s, p, p'. repeat split; try apply H6. auto.
      + destruct (IHk (S i) s2 A2) as [r [n [s' [B1 [B2 [B3 [B4 [B5 B6]]]]]]]]; [lia|]. exists r, n, s'. repeat split; auto; try lia.
        destruct B5 as [[? [? ?]]|[? [? ?]]]; [left|right]; repeat split; auto; lia.
  Qed.
End PsoProofs.
