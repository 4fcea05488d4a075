(** Adaptation, growth and histories of zm_gng.c. *)
From Coq Require Import ZArith List Bool Lia Arith.
From Verif Require Import Prelude Prelude_Proofs Scalar Gng_Model Gng_Spec Gng_Proofs Gng2_Proofs.
Import ListNotations.

Section A.
  Context {T : Type} {ST : Scalar T}.
  Implicit Types g : gng T.
  Lemma network_of g : wired g -> connected g -> edges g <> [] -> network g.
  Proof.
    intros W C N. split; [auto|split; [auto|split; [|auto]]]. destruct (edges g) as [|e l] eqn:E; [congruence|].
    assert (He : In e (edges g)) by (rewrite E; left; auto). destruct (w_ends _ W e He) as (Ne & (u1 & H1 & E1) & (u2 & H2 & E2)).
    destruct (units g) as [|a [|b us]]; cbn in *; try tauto; [|lia]. destruct H1 as [<-|[]], H2 as [<-|[]]. congruence.
  Qed.
  Lemma other_joins a e : touches e a -> eu1 e <> eu2 e -> joins e a (_zGNGUnitOther a e).
  Proof. intros Ht N. unfold _zGNGUnitOther, joins, touches in *. destruct (Nat.eqb_spec (eu1 e) a); intuition. Qed.
  Lemma joins_other a b e : joins e a b -> a <> b -> _zGNGUnitOther a e = b.
  Proof. intros J N. unfold _zGNGUnitOther, joins in *. destruct (Nat.eqb_spec (eu1 e) a); intuition congruence. Qed.

  Section Prox.
  Context (dim : nat) (below_huge : T -> bool) (BH : forall d, below_huge d = true).
  Lemma prox_two v l : forall a1 d1 a2 d2, NoDup (map (@uid T) l) -> a1 <> a2 -> ~ In a1 (map uid l) -> ~ In a2 (map uid l) ->
    exists b1 e1 b2 e2, fold_left (prox_step dim below_huge v) l (a1, Some d1, a2, Some d2) = (b1, Some e1, b2, Some e2) /\ b1 <> b2 /\
      (b1 = a1 \/ b1 = a2 \/ In b1 (map uid l)) /\ (b2 = a1 \/ b2 = a2 \/ In b2 (map uid l)).
  Proof.
    induction l as [|u l IH]; intros a1 d1 a2 d2 D N N1 N2; [do 4 eexists; cbn; split; [reflexivity|auto]|]. cbn in D, N1, N2. inversion D; subst. cbn [fold_left prox_step].
    destruct (lt_min _ (zVecSqrDist dim v (uv u)) (Some d1)); [|destruct (lt_min _ (zVecSqrDist dim v (uv u)) (Some d2))].
    - destruct (IH (uid u) (zVecSqrDist dim v (uv u)) a1 d1) as (b1 & e1 & b2 & e2 & -> & K & K1 & K2); auto. do 4 eexists. split; [reflexivity|]. cbn. intuition.
    - destruct (IH a1 d1 (uid u) (zVecSqrDist dim v (uv u))) as (b1 & e1 & b2 & e2 & -> & K & K1 & K2); auto. do 4 eexists. split; [reflexivity|]. cbn. intuition.
    - destruct (IH a1 d1 a2 d2) as (b1 & e1 & b2 & e2 & -> & K & K1 & K2); auto. do 4 eexists. split; [reflexivity|]. cbn. intuition.
  Qed.
  Lemma prox_ok g v : NoDup (map uid (units g)) -> (2 <= length (units g))%nat ->
    exists a1 a2, _zGNGFindProximity2 dim below_huge g v = Ok (a1, a2) /\ a1 <> a2 /\ live g a1 /\ live g a2.
  Proof.
    intros D L. unfold _zGNGFindProximity2. destruct (units g) as [|t [|u l]] eqn:E; try (cbn in L; lia). cbn [get nth_error bind].
    cbn in D. inversion D; subst. inversion H2; subst. cbn [fold_left]. unfold prox_step at 3. cbn [lt_min]. rewrite BH. unfold prox_step at 2.
    cbn [lt_min]. rewrite BH.
    assert (Ne : uid t <> uid u) by (intros Z; apply H1; rewrite Z; left; auto).
    assert (K : exists b1 e1 b2 e2, fold_left (prox_step dim below_huge v) l
      (if slt (zVecSqrDist dim v (uv u)) (zVecSqrDist dim v (uv t)) then (uid u, Some (zVecSqrDist dim v (uv u)), uid t, Some (zVecSqrDist dim v (uv t)))
       else (uid t, Some (zVecSqrDist dim v (uv t)), uid u, Some (zVecSqrDist dim v (uv u)))) = (b1, Some e1, b2, Some e2) /\ b1 <> b2 /\
      (b1 = uid t \/ b1 = uid u \/ In b1 (map uid l)) /\ (b2 = uid t \/ b2 = uid u \/ In b2 (map uid l))).
    { destruct (slt _ _); [destruct (prox_two v l (uid u) (zVecSqrDist dim v (uv u)) (uid t) (zVecSqrDist dim v (uv t))) as (b1 & e1 & b2 & e2 & -> & K & K1 & K2)
        |destruct (prox_two v l (uid t) (zVecSqrDist dim v (uv t)) (uid u) (zVecSqrDist dim v (uv u))) as (b1 & e1 & b2 & e2 & -> & K & K1 & K2)]; auto;
      try (intros Z; apply H1; right; auto); do 4 eexists; (split; [reflexivity|]); intuition. }
    destruct K as (b1 & e1 & b2 & e2 & -> & K & K1 & K2). exists b1, b2. split; [reflexivity|]. split; auto. rewrite !live_In, E. cbn. intuition.
  Qed.
  End Prox.

  Section Vals.
  Variables (Q : @vec T -> Prop) (E : T -> Prop).
  Definition vals g := forall u, In u (units g) -> Q (uv u) /\ E (uerr u).
  Lemma vals_on g a f : vals g -> (forall u, In u (units g) -> Q (uv (f u)) /\ E (uerr (f u))) -> vals (Gng (map (on a f) (units g)) (edges g) (next g)).
  Proof. intros V H w Hw. cbn in Hw. apply in_map_iff in Hw. destruct Hw as (u & <- & Hu). unfold on. destruct (_ =? _)%nat; auto. Qed.

  Lemma adapt_loop_ok p v a1 a2 xs : a1 <> a2 -> (forall w, Q w -> Q (zVecInterDivDRC w v (coeffn p))) -> forall g nb, wired g -> vals g ->
    (forall x, In x xs -> exists e, In e (edges g) /\ eid e = x /\ touches e a1) ->
    (nb = true -> exists e, In e (edges g) /\ joins e a1 a2 /\ age e = 0%Z) ->
    exists g' nb', foreach_ xs (adapt_step p v a1 a2) (g, nb) = Ok (g', nb') /\ same_shape g g' /\ vals g' /\
      (nb' = true -> exists e, In e (edges g') /\ joins e a1 a2 /\ age e = 0%Z) /\
      (nb' = false -> forall e, In e (edges g) -> In (eid e) xs -> ~ joins e a1 a2).
  Proof.
    intros Na HQ. induction xs as [|x xs IH]; intros g nb W V Hx Hn.
    - exists g, nb. cbn. conjs; auto using same_refl.
    - cbn [foreach_]. destruct (Hx x (or_introl eq_refl)) as (e & He & Ee & Et). destruct (w_ends _ W e He) as (Ne & L1 & L2).
      pose proof (other_joins a1 e Et Ne) as J. set (an := _zGNGUnitOther a1 e) in *.
      assert (Ln : live g an) by (unfold joins in J; destruct J as [[_ <-]|[<- _]]; auto).
      assert (St : exists f, (forall e', eshape (f e') = eshape e') /\ adapt_step p v a1 a2 x (g, nb) =
        Ok (Gng (map (on an (fun u => set_v (zVecInterDivDRC (uv u) v (coeffn p)) u)) (units g)) (map (one x f) (edges g)) (next g), (an =? a2)%nat || nb) /\
        (an = a2 -> forall e', age (f e') = 0%Z)).
      { unfold adapt_step. rewrite <- Ee, get_edge_ok by (auto; apply W). cbn [bind]. fold an. rewrite set_unit_ok by auto. cbn [bind].
        destruct (Nat.eqb_spec an a2) as [A|A].
        - exists (set_age 0). split; [auto|]. erewrite set_edge_ok by (cbn; eauto; apply W). cbn. auto.
        - exists (fun e => set_age (age e + 1) e). split; [auto|]. erewrite set_edge_ok by (cbn; eauto; apply W). cbn. split; auto. congruence. }
      destruct St as (f & Hf & -> & Hage). cbn [bind]. set (g1 := Gng _ _ _).
      assert (S1 : same_shape g g1).
      { eapply same_trans; [apply (same_on g an (fun u => set_v (zVecInterDivDRC (uv u) v (coeffn p)) u)); reflexivity|].
        exact (same_edges (Gng (map (on an (fun u => set_v (zVecInterDivDRC (uv u) v (coeffn p)) u)) (units g)) (edges g) (next g)) (one x f)
          (fun e' _ => match (eid e' =? x)%nat as b return eshape (if b then f e' else e') = eshape e' with true => Hf e' | false => eq_refl end)). }
      destruct (IH g1 ((an =? a2)%nat || nb)) as (g' & nb' & R & S2 & V2 & P1 & P2).
      + eapply wired_shape; eauto.
      + apply (vals_on (Gng (units g) (map (one x f) (edges g)) (next g))); auto. cbn. intros u Hu. destruct (V u Hu). auto.
      + intros y Hy. destruct (Hx y (or_intror Hy)) as (e' & He' & Ee' & Et'). destruct (shape_e _ _ _ S1 He') as (e2 & He2 & A1 & A2 & A3).
        exists e2. conjs; auto; try congruence. unfold touches. rewrite A2, A3. auto.
      + intros Hb. apply orb_true_iff in Hb. destruct (Nat.eqb_spec an a2) as [A|A].
        * exists (f e). assert (I1 : In (f e) (edges g1)).
          { cbn. apply in_map_iff. exists e. split; auto. unfold one. rewrite Ee, Nat.eqb_refl. auto. }
          split; auto. split; [|auto]. specialize (Hf e). unfold eshape in Hf. inversion Hf. unfold joins in *. rewrite H1, H2. congruence.
        * destruct Hb as [Hb|Hb]; [discriminate|]. destruct (Hn Hb) as (e0 & H0 & J0 & A0). exists e0. split; [|auto]. cbn. apply in_map_iff. exists e0. split; auto.
          unfold one. destruct (Nat.eqb_spec (eid e0) x) as [X|X]; auto. exfalso. apply A.
          assert (e0 = e) by (eapply NoDup_map_inj; [apply (w_edges _ W)| | |]; auto; congruence). subst e0. now apply joins_other.
      + exists g', nb'. rewrite R. conjs; auto; [eapply same_trans; eauto|]. intros Hb e' He' Hi J'.
        destruct (shape_e _ _ _ S1 He') as (e2 & He2 & A1 & A2 & A3). destruct Hi as [Hi|Hi].
        * assert (e' = e) by (eapply NoDup_map_inj; [apply (w_edges _ W)| | |]; auto; congruence). subst e'.
          assert (A : an = a2) by (apply joins_other; auto). 
          assert (Z : nb' = true); [|congruence]. 
          clear -R A. rewrite A, Nat.eqb_refl in R. cbn in R. revert R. generalize g1. induction xs as [|y ys IHy]; cbn; intros h R; [inversion R; auto|].
          destruct (get_edge h y); [|discriminate]. cbn in R. destruct (set_unit h _ _); [|discriminate]. cbn in R.
          destruct (_ =? _)%nat; destruct (set_edge _ _ _); try discriminate; cbn in R; eauto.
        * apply (P2 Hb e2); auto; [congruence|]. unfold joins in *. rewrite A2, A3. auto.
  Qed.

  (** ** adaptation *)
  Context (dim : nat) (below_huge : T -> bool) (BH : forall d, below_huge d = true).
  Lemma adapt_ok p g v : network g -> vals g -> (forall w, Q w -> Q (zVecInterDivDRC w v (coeff1 p)) /\ Q (zVecInterDivDRC w v (coeffn p))) ->
    (forall w x, Q w -> E x -> E (x + zVecSqrDist dim w v)%S) ->
    exists g' e, _zGNGAdapt dim below_huge p g v = Ok g' /\ network g' /\ vals g' /\ In e (edges g') /\ age e = 0%Z /\ length (units g') = length (units g) /\
      exists a1 a2, _zGNGFindProximity2 dim below_huge g v = Ok (a1, a2) /\ joins e a1 a2.
  Proof.
    intros (W & C & L & N) V HQ HE. unfold _zGNGAdapt. destruct (prox_ok dim below_huge BH g v) as (a1 & a2 & F & Na & L1 & L2); auto; [apply W|].
    rewrite F. cbn [bind]. destruct (get_unit_live g a1 L1) as (u1 & -> & Hu1 & Eu1). cbn [bind].
    rewrite set_unit_ok by auto. cbn [bind]. set (f1 := fun u => set_err _ u).
    pose proof (same_on g a1 f1 ltac:(reflexivity)) as S1. rewrite set_unit_ok by (eapply live_shape; [exact S1|auto]). cbn [bind]. set (g1 := Gng _ _ _) in S1.
    set (f2 := fun u => set_v _ u). pose proof (same_on g1 a1 f2 ltac:(reflexivity)) as S2. set (g2 := Gng _ _ _) in S2. change (Gng (map (on a1 f2) (units _)) _ _) with g2.
    pose proof (same_trans _ _ _ S1 S2) as S3.
    assert (V2 : vals g2).
    { apply (vals_on g1); [apply (vals_on g); [exact V|]|].
      - intros u Hu. destruct (V u Hu). cbn. split; auto.
      - intros u Hu. cbn in Hu. apply in_map_iff in Hu. destruct Hu as (u' & <- & Hu). destruct (V u' Hu). unfold on. destruct (_ =? _)%nat; cbn; split; auto; apply HQ; auto. }
    destruct (adapt_loop_ok p v a1 a2 (eps u1) Na ltac:(intros; now apply HQ) g2 false) as (g3 & nb & -> & S4 & V3 & P1 & P2); auto.
    - eapply wired_shape; eauto.
    - intros x Hx. apply (w_inc _ W) in Hx; auto. destruct Hx as (e & He & Ee & Et). destruct (shape_e _ _ _ S3 He) as (e2 & He2 & A1 & A2 & A3).
      exists e2. conjs; auto; try congruence. unfold touches in *. rewrite A2, A3, <- Eu1. auto.
    - discriminate.
    - cbn [bind]. pose proof (same_trans _ _ _ S3 S4) as S5. pose proof (wired_shape _ _ S5 W) as W3. pose proof (connected_shape _ _ S5 C) as C3. destruct (length_shape _ _ S5) as [Lu Le].
      destruct nb.
      + destruct (P1 eq_refl) as (e & He & J & A). exists g3, e. split; [auto|]. split; [apply network_of; auto; intros Z; now rewrite Z in He|]. conjs; auto. exists a1, a2. auto.
      + pose proof (live_shape _ _ _ S5 L1) as L1'. pose proof (live_shape _ _ _ S5 L2) as L2'.
        destruct (connect_ok g3 a1 a2) as (g4 & -> & W4 & Ed & Us & Nx); auto.
        { intros e He J. destruct (shape_e _ _ _ (same_sym _ _ S4) He) as (e2 & He2 & A1 & A2 & A3). apply (P2 eq_refl e2); auto.
          - destruct (shape_e _ _ _ (same_sym _ _ S3) He2) as (e0 & He0 & B1 & B2 & B3). apply (w_inc _ W); auto. exists e0. conjs; auto. unfold joins, touches in *. intuition congruence.
          - unfold joins in *. rewrite A2, A3. auto. }
        exists g4, (Edge (next g3) 0 a1 a2). split; [auto|]. split; [|conjs; auto].
        * apply network_of; auto; [|rewrite Ed; destruct (edges g3); discriminate]. intros w Hw. rewrite Us in Hw. apply In_conn in Hw; auto.
          destruct Hw as (u & Hu & _ & _ & _ & [(_ & ->)|(_ & _ & ->)]); [destruct (eps u); discriminate|auto].
        * intros w Hw. rewrite Us in Hw. apply In_conn in Hw; auto. destruct Hw as (u & Hu & _ & -> & -> & _). auto.
        * rewrite Ed. apply in_app_iff. cbn. auto.
        * rewrite Us. unfold conn_units. rewrite !map_length. auto.
        * exists a1, a2. split; auto. left. auto.
  Qed.
  Lemma vals_purged g g' : vals g -> (forall w, In w (units g') -> exists u, In u (units g) /\ uid w = uid u /\ uv w = uv u /\ uerr w = uerr u) -> vals g'.
  Proof using. intros V H w Hw. destruct (H w Hw) as (u & Hu & _ & -> & ->). auto. Qed.
  Lemma trial_ok p g v : network g -> vals g -> (0 <= lifetime p)%Z -> (forall w, Q w -> Q (zVecInterDivDRC w v (coeff1 p)) /\ Q (zVecInterDivDRC w v (coeffn p))) ->
    (forall w x, Q w -> E x -> E (x + zVecSqrDist dim w v)%S) ->
    exists g', (g <- _zGNGAdapt dim below_huge p g v ;; _zGNGRemoveAgedEdge p g) = Ok g' /\ network g' /\ vals g' /\ young (lifetime p) g' /\ (length (units g') <= length (units g))%nat.
  Proof.
    intros Nw V Lt HQ HE. destruct (adapt_ok p g v) as (g1 & e & -> & N1 & V1 & He & A & L1 & _); auto. cbn [bind]. destruct N1 as (W1 & C1 & _ & _).
    destruct (aged_ok (lifetime p) (length (edges g1)) 0 g1) as (g2 & R & W2 & C2 & Ed & _ & U & L2); auto; try lia; [cbn; tauto|].
    exists g2. split; [exact R|]. split; [|split; [eapply vals_purged; eauto|split; [|lia]]].
    - apply network_of; auto. rewrite Ed. assert (K : In e (filter (keep (lifetime p)) (edges g1))); [|intros Z; now rewrite Z in K].
      apply filter_In. split; auto. unfold keep. apply Z.leb_le. lia.
    - intros x Hx. rewrite Ed in Hx. apply filter_In in Hx. unfold keep in Hx. destruct Hx. now apply Z.leb_le.
  Qed.

  (** ** growth *)
  Definition neighbor g a (u : unit T) := In u (units g) /\ exists e, In e (edges g) /\ joins e a (uid u).
  Lemma pivot_ok g : units g <> [] -> exists u, _zGNGFindPivot g = Ok u /\ In u (units g).
  Proof using.
    intros N. unfold _zGNGFindPivot. destruct (units g) as [|t l] eqn:Eu; [congruence|]. cbn [get nth_error bind]. eexists. split; [reflexivity|].
    assert (K : forall l0 p, In p (t :: l) -> incl l0 (t :: l) -> In (fold_left (fun p u => if sle (uerr p) (uerr u) then u else p) l0 p) (t :: l)).
    { induction l0 as [|a l0 IH]; intros q Hq I; auto. cbn [fold_left]. apply IH; [|intros z Hz; apply I; now right]. destruct (sle _ _); auto. apply I. now left. }
    apply K; [now left|apply incl_refl].
  Qed.
  Lemma neighbor_of g u x : wired g -> In u (units g) -> In x (eps u) -> exists e w, get_edge g x = Ok e /\ get_unit g (_zGNGUnitOther (uid u) e) = Ok w /\ neighbor g (uid u) w.
  Proof using.
    intros W Hu Hx. apply (w_inc _ W) in Hx; auto. destruct Hx as (e & He & <- & Et). destruct (w_ends _ W e He) as (N & L1 & L2). exists e.
    pose proof (other_joins _ e Et N) as J. assert (Lo : live g (_zGNGUnitOther (uid u) e)) by (unfold joins in J; destruct J as [[_ <-]|[<- _]]; auto).
    destruct (get_unit_live _ _ Lo) as (w & -> & Hw & Ew). exists w. split; [apply get_edge_ok; auto; apply W|]. split; auto. split; auto. exists e. rewrite Ew. auto.
  Qed.
  Lemma seed_ok g u : wired g -> In u (units g) -> eps u <> [] -> exists w, _zGNGFindSeed g u = Ok w /\ neighbor g (uid u) w.
  Proof using.
    intros W Hu N. unfold _zGNGFindSeed. destruct (eps u) as [|x xs] eqn:Ex; [congruence|]. cbn [get nth_error bind].
    assert (I0 : forall y, In y (x :: xs) -> In y (eps u)) by (rewrite Ex; auto).
    destruct (neighbor_of g u x W Hu ltac:(apply I0; now left)) as (e & w & Q1 & Q2 & Nw). rewrite Q1. cbn [bind]. rewrite Q2. cbn [bind].
    clear Q1 Q2; revert w Nw I0. generalize (x :: xs). induction l as [|y l IH]; intros w Nw I0; [exists w; auto|]. cbn [foreach_].
    destruct (neighbor_of g u y W Hu ltac:(apply I0; now left)) as (e1 & w1 & Q3 & Q4 & Nw1). rewrite Q3. cbn [bind]. rewrite Q4. cbn [bind]. apply IH; [destruct (sle _ _); auto|intros; apply I0; now right].
  Qed.
  Lemma vals_map g f : vals g -> (forall u, In u (units g) -> Q (uv (f u)) /\ E (uerr (f u))) -> vals (Gng (map f (units g)) (edges g) (next g)).
  Proof using. intros V H w Hw. cbn in Hw. apply in_map_iff in Hw. destruct Hw as (u & <- & Hu). auto. Qed.
  Lemma grow_ok p g : network g -> vals g -> (forall v w, Q v -> Q w -> Q (zVecMid v w)) -> (forall x, E x -> E (x * ratio1 p)%S) -> (forall x, E x -> E (x * ratio2 p)%S) ->
    exists g' u1 u2, _zGNGGrow p g = Ok g' /\ network g' /\ vals g' /\ (forall lt, (0 <= lt)%Z -> young lt g -> young lt g') /\ length (units g') = S (length (units g)) /\
      _zGNGFindPivot g = Ok u1 /\ _zGNGFindSeed g u1 = Ok u2 /\ In u1 (units g) /\ neighbor g (uid u1) u2 /\
      (forall a b, (exists e, In e (edges g') /\ joins e a b) <-> ((exists e, In e (edges g) /\ joins e a b) /\ ~ (a = uid u1 /\ b = uid u2) /\ ~ (a = uid u2 /\ b = uid u1)) \/
        exists e, (e = Edge 0 0 (uid u1) (next g) \/ e = Edge 0 0 (uid u2) (next g)) /\ joins e a b).
  Proof using.
    intros (W & C & L & N) V HQ HE1 HE2. unfold _zGNGGrow. destruct (pivot_ok g) as (u1 & P & Hu1); [intros Z; rewrite Z in L; cbn in L; lia|]. rewrite P. cbn [bind].
    destruct (seed_ok g u1 W Hu1 (C u1 Hu1)) as (u2 & Sd & (Hu2 & e0 & He0 & J0)). rewrite Sd. cbn [bind].
    assert (N12 : uid u1 <> uid u2). { destruct (w_ends _ W e0 He0) as (Ne & _). unfold joins in J0. intuition congruence. }
    rewrite set_unit_ok by (exists u1; auto). cbn [bind]. set (f := fun u => set_err _ u).
    pose proof (same_on g (uid u1) f ltac:(reflexivity)) as S1. rewrite set_unit_ok by (eapply live_shape; [exact S1|exists u2; auto]). cbn [bind]. set (g1 := Gng _ _ _) in S1.
    pose proof (same_on g1 (uid u2) f ltac:(reflexivity)) as S2. set (g2 := Gng _ _ _) in S2. change (Gng (map (on (uid u2) f) (units _)) _ _) with g2.
    pose proof (same_trans _ _ _ S1 S2) as S3. pose proof (wired_shape _ _ S3 W) as W2. pose proof (connected_shape _ _ S3 C) as C2.
    assert (V2 : vals g2).
    { apply (vals_on g1); [apply (vals_on g); [exact V|]|].
      - intros u Hu. destruct (V u Hu). cbn. split; auto.
      - intros u Hu. cbn in Hu. apply in_map_iff in Hu. destruct Hu as (u' & <- & Hu). destruct (V u' Hu). unfold on. destruct (_ =? _)%nat; cbn; split; auto. }
    assert (L1 : live g2 (uid u1)) by (eapply live_shape; [exact S3|exists u1; auto]). assert (L2 : live g2 (uid u2)) by (eapply live_shape; [exact S3|exists u2; auto]).
    destruct (get_unit_live _ _ L1) as (u1' & -> & Hu1' & Eu1'). cbn [bind].
    pose proof (add_unit_ok g2 (zVecMid (uv u1) (uv u2)) (uerr u1') W2) as Ad. destruct (add_unit _ _ _) as [r g3]. destruct Ad as (W3 & Er & Us3 & Ed3).
    assert (Fr : forall a, live g2 a -> a <> r). { intros a (u & Hu & Ea). apply (w_fresh_u _ W2) in Hu. lia. }
    assert (LL : forall a, live g2 a -> live g3 a). { intros a (u & Hu & Ea). exists u. rewrite Us3, in_app_iff. auto. }
    assert (Lr : live g3 r). { exists (Unit r (zVecMid (uv u1) (uv u2)) (uerr u1') []). rewrite Us3, in_app_iff. cbn. auto. }
    assert (NJ : forall e a, In e (edges g3) -> ~ joins e a r).
    { intros e a He J. rewrite Ed3 in He. destruct (w_ends _ W2 e He) as (_ & K1 & K2). apply Fr in K1, K2. unfold joins in J. intuition congruence. }
    destruct (connect_ok g3 (uid u1) r) as (g4 & -> & W4 & Ed4 & Us4 & _); auto. cbn [bind].
    assert (L4 : forall a, live g3 a -> live g4 a). { intros a (u & Hu & Ea). destruct (conn_In (units g3) (next g3) (uid u1) r u Hu) as (w & Hw & Ew). exists w. rewrite Us4. split; auto. congruence. }
    destruct (connect_ok g4 (uid u2) r) as (g5 & -> & W5 & Ed5 & Us5 & _); auto.
    { intros e He J. rewrite Ed4 in He. apply in_app_iff in He. destruct He as [He|[<-|[]]]; [now apply NJ in J|]. unfold joins in J. cbn in J. pose proof (Fr _ L2). intuition congruence. }
    cbn [bind]. destruct (disconnect_ok g5 (uid u1) (uid u2) W5) as (g6 & -> & W6 & C6 & _ & Ed6 & U6 & Len6). cbn [bind].
    set (h := fun u => set_err _ u). pose proof (same_units g6 h ltac:(reflexivity)) as S7. set (g7 := Gng _ _ _) in S7. change (Gng (map h (units g6)) (edges g6) (next g6)) with g7.
    assert (V3 : vals g3). { intros u Hu. rewrite Us3 in Hu. apply in_app_iff in Hu. destruct Hu as [Hu|[<-|[]]]; auto. cbn. split; [apply HQ; [apply (V u1)|apply (V u2)]; auto|now apply V2]. }
    assert (V5 : vals g5).
    { intros w Hw. rewrite Us5 in Hw. apply In_conn in Hw; [|auto]. destruct Hw as (u & Hu & _ & -> & -> & _). rewrite Us4 in Hu. apply In_conn in Hu; [|auto].
      destruct Hu as (u' & Hu & _ & -> & -> & _). auto. }
    assert (C5 : connected g5).
    { intros w Hw. rewrite Us5 in Hw. apply In_conn in Hw; [|auto]. destruct Hw as (u & Hu & _ & _ & _ & [(_ & ->)|(K1 & K2 & ->)]); [destruct (eps u); discriminate|].
      rewrite Us4 in Hu. apply In_conn in Hu; [|auto]. destruct Hu as (u' & Hu & Ei & _ & _ & [(_ & ->)|(_ & _ & ->)]); [destruct (eps u'); discriminate|].
      rewrite Us3 in Hu. apply in_app_iff in Hu. destruct Hu as [Hu|[<-|[]]]; [now apply C2|cbn in Ei; congruence]. }
    assert (E2 : edges g2 = edges g) by reflexivity.
    assert (E7 : forall e, In e (edges g7) <-> (In e (edges g) /\ ~ joins e (uid u1) (uid u2)) \/ e = Edge (next g3) 0 (uid u1) r \/ e = Edge (next g4) 0 (uid u2) r).
    { intros e. change (edges g7) with (edges g6). rewrite Ed6, Ed5, Ed4, Ed3, E2, !in_app_iff. cbn.
      assert (X1 : ~ joins (Edge (next g3) 0 (uid u1) r) (uid u1) (uid u2)) by (unfold joins; cbn; pose proof (Fr _ L2); pose proof (Fr _ L1); intuition congruence).
      assert (X2 : ~ joins (Edge (next g4) 0 (uid u2) r) (uid u1) (uid u2)) by (unfold joins; cbn; pose proof (Fr _ L2); pose proof (Fr _ L1); intuition congruence).
      split; [intros [[[K|[<-|[]]]|[<-|[]]] K2]; auto|intros [K|[->| ->]]; split; intuition]. }
    assert (W7 : wired g7) by (eapply wired_shape; eauto).
    exists g7, u1, u2. split; [auto|]. split; [|split; [|split; [|split; [|split; [auto|split; [auto|split; [auto|split; [split; [auto|exists e0; auto]|]]]]]]]].
    - apply network_of; [auto|apply (connected_shape _ _ S7); auto|]. assert (K : In (Edge (next g3) 0 (uid u1) r) (edges g7)) by (apply E7; auto). intros Z. now rewrite Z in K.
    - apply (vals_map g6); [eapply vals_purged; eauto|]. intros u Hu. destruct (U6 u Hu) as (u' & Hu' & _ & Ev & Ee). destruct (V5 u' Hu'). cbn. rewrite Ev, Ee. split; auto.
    - intros lt Hlt Y e He. apply E7 in He. destruct He as [[He _]|[->| ->]]; auto.
    - destruct (length_shape _ _ S7) as [<- _]. assert (L5 : length (units g5) = S (length (units g))).
      { rewrite Us5. unfold conn_units. rewrite !map_length, Us4. unfold conn_units. rewrite !map_length, Us3, app_length. cbn. rewrite !map_length. lia. }
      apply Nat.le_antisymm; [lia|]. rewrite <- L5, <- (map_length uid), <- (map_length uid (units g6)). apply NoDup_incl_length; [apply W5|].
      intros a Ha. apply live_In. assert (Lv : forall e b, In e (edges g6) -> touches e b -> live g6 b).
      { intros e b He [<-|<-]; now apply (w_ends _ W6). }
      assert (I1 : In (Edge (next g3) 0 (uid u1) r) (edges g6)) by (change (edges g6) with (edges g7); apply E7; auto).
      assert (I2 : In (Edge (next g4) 0 (uid u2) r) (edges g6)) by (change (edges g6) with (edges g7); apply E7; auto).
      apply in_map_iff in Ha. destruct Ha as (w & <- & Hw). destruct (eps w) as [|x xs] eqn:Ex; [exfalso; now apply (C5 w Hw)|].
      assert (Hx : In x (eps w)) by (rewrite Ex; now left). apply (w_inc _ W5) in Hx; auto. destruct Hx as (e & He & _ & Et).
      destruct (joins_dec e (uid u1) (uid u2)) as [J|J]; [|apply (Lv e); auto; apply Ed6; auto].
      assert (X : uid w = uid u1 \/ uid w = uid u2) by (unfold joins, touches in *; intuition congruence).
      destruct X as [->| ->]; [apply (Lv _ _ I1)|apply (Lv _ _ I2)]; left; auto.
    - intros a b. assert (En : next g = r) by (rewrite Er; reflexivity). rewrite En. split.
      + intros (e & He & J). apply E7 in He. destruct He as [[He K]|[->| ->]].
        * left. split; [exists e; auto|]. split; intros [-> ->]; apply K; unfold joins in *; tauto.
        * right. exists (Edge 0 0 (uid u1) r). split; auto.
        * right. exists (Edge 0 0 (uid u2) r). split; auto.
      + intros [((e & He & J) & K1 & K2)|(e & [->| ->] & J)].
        * exists e. split; auto. apply E7. left. split; auto. intros K. unfold joins in J, K. destruct J as [[<- <-]|[<- <-]]; tauto.
        * exists (Edge (next g3) 0 (uid u1) r). split; [apply E7; auto|auto].
        * exists (Edge (next g4) 0 (uid u2) r). split; [apply E7; auto|auto].
  Qed.

  (** ** updates *)
  Lemma update_ok p g samp : network g -> vals g -> (0 <= lifetime p)%Z ->
    (forall i w, Q w -> Q (zVecInterDivDRC w (samp i) (coeff1 p)) /\ Q (zVecInterDivDRC w (samp i) (coeffn p))) -> (forall v w, Q v -> Q w -> Q (zVecMid v w)) ->
    (forall i w x, Q w -> E x -> E (x + zVecSqrDist dim w (samp i))%S) -> (forall x, E x -> E (x * ratio1 p)%S) -> (forall x, E x -> E (x * ratio2 p)%S) ->
    exists g', zGNGUpdate dim below_huge p g samp = Ok g' /\ network g' /\ vals g' /\ ((0 < batch p)%nat \/ young (lifetime p) g -> young (lifetime p) g') /\ (length (units g') <= S (length (units g)))%nat.
  Proof.
    intros Nw V Lt HQ HM HE1 HE2 HE3. unfold zGNGUpdate.
    assert (K : exists g1, for_ 0 (batch p) (fun i g => g <- _zGNGAdapt dim below_huge p g (samp i) ;; _zGNGRemoveAgedEdge p g) g = Ok g1 /\
      network g1 /\ vals g1 /\ ((0 < batch p)%nat \/ young (lifetime p) g -> young (lifetime p) g1) /\ (length (units g1) <= length (units g))%nat).
    { destruct (for_inv (fun i h => network h /\ vals h /\ ((0 < i)%nat \/ young (lifetime p) g -> young (lifetime p) h) /\ (length (units h) <= length (units g))%nat) 0 (batch p)
        (fun i g => g <- _zGNGAdapt dim below_huge p g (samp i) ;; _zGNGRemoveAgedEdge p g) g) as (g1 & R & I1); [| | |exists g1; auto].
      - lia.
      - conjs; auto. intros [Z|Z]; [lia|auto].
      - intros i h _ (I1 & I2 & _ & I3). destruct (trial_ok p h (samp i)) as (h' & -> & A1 & A2 & A3 & A4); auto.
        exists h'. split; auto. conjs; auto. lia. }
    destruct K as (g1 & -> & N1 & V1 & Y1 & L1). cbn [bind]. destruct (grow_ok p g1) as (g2 & u1 & u2 & R & N2 & V2 & Y2 & L2 & _); auto.
    exists g2. conjs; auto. lia.
  Qed.
  Lemma init_ok tol fuel samp : (forall i, Q (samp i)) -> E 0%S -> match second_sample dim tol fuel 1 samp (samp 0%nat) with
    | None => zGNGInit dim tol fuel samp = Ok None
    | Some i => exists g, zGNGInit dim tol fuel samp = Ok (Some (g, S i)) /\ network g /\ vals g /\ young 0 g /\ map (@uv T) (units g) = [samp 0%nat; samp i]
    end.
  Proof using.
    clear BH below_huge. intros HQ HE. unfold zGNGInit. destruct (second_sample _ _ _ _ _ _) as [i|]; auto. eexists. split; [reflexivity|]. cbn [units].
    assert (K : @wired T (Gng [Unit 0 (samp 0%nat) 0%S [2]; Unit 1 (samp i) 0%S [2]] [Edge 2 0 0 1] 3)).
    { constructor; cbn.
      - repeat constructor; cbn; intuition discriminate.
      - repeat constructor; cbn; tauto.
      - intros u [<-|[<-|[]]]; cbn; lia.
      - intros e [<-|[]]; cbn; lia.
      - intros e [<-|[]]. cbn. split; [discriminate|]. unfold live. cbn. split; [exists (Unit 0 (samp 0%nat) 0%S [2])|exists (Unit 1 (samp i) 0%S [2])]; auto.
      - intros e e' [<-|[]] [<-|[]]; auto.
      - intros u [<-|[<-|[]]]; cbn; repeat constructor; cbn; tauto.
      - intros u x [<-|[<-|[]]]; cbn; (split; [intros [<-|[]]; exists (Edge 2 0 0 1); unfold touches; cbn; auto|intros (e & [<-|[]] & <- & _); auto]). }
    split; [apply network_of; [exact K| |discriminate]; intros u [<-|[<-|[]]]; discriminate|]. split; [intros u [<-|[<-|[]]]; cbn; auto|]. split; [|reflexivity].
    intros e [<-|[]]. cbn. lia.
  Qed.
  End Vals.
  Lemma destroy_loop_ok fuel : forall g, wired g -> connected g -> length (edges g) = fuel -> exists n, destroy_loop fuel g = Ok (Gng [] [] n).
  Proof.
    induction fuel as [|fuel IH]; intros g W C L.
    - destruct (edges g) as [|e l] eqn:Ee; [|discriminate]. cbn. rewrite Ee. cbn. exists (next g). destruct g as [us es n]. cbn in *. subst es.
      destruct us as [|u us]; auto. exfalso. specialize (C u (or_introl eq_refl)). destruct (eps u) as [|x xs] eqn:Ex; [congruence|].
      assert (Hx : In x (eps u)) by (rewrite Ex; now left). apply (w_inc _ W) in Hx; [|now left]. destruct Hx as (e & [] & _).
    - cbn. destruct (rev (edges g)) as [|e l] eqn:Er; [apply (f_equal (@length edge)) in Er; rewrite rev_length in Er; cbn in Er; lia|].
      assert (Eg : edges g = rev l ++ [e]) by (rewrite <- (rev_involutive (edges g)), Er; reflexivity).
      assert (He : In e (edges g)) by (rewrite Eg, in_app_iff; cbn; auto). destruct (purge_ok g e W He) as (g1 & -> & W1 & C1 & Ed & _). cbn [bind]. apply IH; auto.
      pose proof (w_edges _ W) as ND. rewrite Eg, map_app in ND. cbn in ND. apply NoDup_remove_2 in ND. rewrite app_nil_r in ND.
      rewrite Ed, Eg, filter_app. cbn. rewrite Nat.eqb_refl. cbn. rewrite app_nil_r, filter_all; [rewrite Eg, app_length in L; cbn in L; lia|].
      intros x Hx. destruct (Nat.eqb_spec (eid x) (eid e)) as [Z|Z]; auto. exfalso. apply ND. rewrite <- Z. now apply in_map.
  Qed.
End A.
