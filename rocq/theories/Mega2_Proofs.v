(** The direct solver, and the bookkeeping of the lists, pools and pairs. *)
From Coq Require Import Reals Lra Permutation.
From Verif Require Import Prelude Scalar RealLib Complex_Model Mega_Model Mega_Proofs.
Local Open Scope R_scope.
Local Notation cell := (@cell R).
Local Notation pair := (@pair R).
Local Notation lp := (@lp R).
Local Notation side := (@side R).

Lemma intersection_0 (a b : cell) : match intersection 0 a b with None => cm a = cm b | Some (x, y) => cm a <> cm b /\ x = cross a b /\ y = ht a x /\ y = ht b x end.
Proof.
  unfold intersection. rs. pose proof (is_tol_0 (cm a - cm b)) as E. unfold is_tol in E. rs. unfold Scalar.is_tol; rs. destruct (Rleb _ _) eqn:F.
  - destruct E as (E & _). specialize (E eq_refl). lra.
  - assert (N : cm a - cm b <> 0) by (intros K; apply E in K; discriminate). unfold cross, ht. repeat split; try lra; field; auto.
Qed.

(** ** the direct part *)
Section Direct.
  Variable p : lp.
  Local Notation u := (lst (up p)).
  Local Notation l := (lst (lo p)).

  Lemma is_feasible_0 x y : is_feasible 0 p x y = true <-> inb (xmin p) (xmax p) x /\ feas u l x y.
  Proof.
    unfold is_feasible, upval, loval. rs.
    pose proof (listval_spec 1 less less_cmp u x) as VU. pose proof (listval_spec (-1) greater greater_cmp l x) as VL.
    rewrite !andb_true_iff. unfold inb, feas.
    assert (A1 : match xmin p with Some v => Rleb (v - 0) x | None => true end = true <-> (forall v, xmin p = Some v -> v <= x)).
    { destruct (xmin p) as [v|]; [|split; [intros _ w K; discriminate|auto]]. destruct (Rleb_spec (v - 0) x) as [H|H]; split; intros K; auto; try discriminate.
      - intros w E. injection E as <-. lra.
      - specialize (K v eq_refl). lra. }
    assert (A2 : match xmax p with Some v => Rleb x (v + 0) | None => true end = true <-> (forall v, xmax p = Some v -> x <= v)).
    { destruct (xmax p) as [v|]; [|split; [intros _ w K; discriminate|auto]]. destruct (Rleb_spec x (v + 0)) as [H|H]; split; intros K; auto; try discriminate.
      - intros w E. injection E as <-. lra.
      - specialize (K v eq_refl). lra. }
    assert (A3 : match listval u x less with Some v => Rleb y (v + 0) | None => true end = true <-> (forall c, In c u -> y <= ht c x)).
    { destruct (listval u x less) as [v|].
      - destruct VU as ((c0 & I0 & H0) & V). destruct (Rleb_spec y (v + 0)) as [H|H]; split; intros K; auto; try discriminate.
        + intros c I. specialize (V c I). lra.
        + specialize (K c0 I0). lra.
      - rewrite VU. split; auto. intros _ c []. }
    assert (A4 : match listval l x greater with Some v => Rleb (v - 0) y | None => true end = true <-> (forall c, In c l -> ht c x <= y)).
    { destruct (listval l x greater) as [v|].
      - destruct VL as ((c0 & I0 & H0) & V). destruct (Rleb_spec (v - 0) y) as [H|H]; split; intros K; auto; try discriminate.
        + intros c I. specialize (V c I). lra.
        + specialize (K c0 I0). lra.
      - rewrite VL. split; auto. intros _ c []. }
    rewrite A1, A2, A3, A4. tauto.
  Qed.

  Definition good (S : R * R -> Prop) (cur : option (R * R)) : Prop :=
    match cur with
    | None => forall t, S t -> is_feasible 0 p (fst t) (snd t) = false
    | Some c => is_feasible 0 p (fst c) (snd c) = true /\ forall t, S t -> is_feasible 0 p (fst t) (snd t) = true -> snd c <= snd t
    end.
  Lemma good_step S t cur : good S cur -> good (fun q => S q \/ q = t) (test_update 0 p t cur).
  Proof.
    intros G. unfold test_update. destruct (is_feasible 0 p (fst t) (snd t)) eqn:F; cbn [negb orb].
    - destruct cur as [c|]; cbn in G.
      + destruct G as (Fc & M). rs. destruct (Rltb_spec (snd c) (snd t)) as [H|H]; cbn.
        * split; auto. intros q [Q| ->] Fq; auto. lra.
        * split; auto. intros q [Q| ->] Fq; [|lra]. specialize (M q Q Fq). lra.
      + cbn. split; auto. intros q [Q| ->] Fq; [|lra]. rewrite (G q Q) in Fq. discriminate.
    - destruct cur as [c|]; cbn in *.
      + destruct G as (Fc & M). split; auto. intros q [Q| ->] Fq; auto. congruence.
      + intros q [Q| ->]; auto.
  Qed.
  Lemma good_weaken (S S' : R * R -> Prop) cur : (forall t, S' t -> S t) -> good S cur -> good S' cur.
  Proof. destruct cur as [c|]; cbn; [intros H (A & B); split; auto|auto]. Qed.
  Lemma good_opt S t cur : good S cur -> good (fun q => S q \/ t = Some q) (test_opt 0 p t cur).
  Proof.
    intros G. destruct t as [t|]; cbn [test_opt].
    - eapply good_weaken; [|apply good_step, G]. cbn. intros q [Q|Q]; auto. injection Q as ->. auto.
    - eapply good_weaken; [|apply G]. cbn. intros q [Q|Q]; auto. discriminate.
  Qed.
  Lemma good_fold {A} (f : option (R * R) -> A -> option (R * R)) (P : A -> R * R -> Prop) :
    (forall S a cur, good S cur -> good (fun q => S q \/ P a q) (f cur a)) ->
    forall la S cur, good S cur -> good (fun q => S q \/ exists a, In a la /\ P a q) (fold_left f la cur).
  Proof.
    intros H. induction la as [|a la IH]; intros S cur G; cbn [fold_left].
    - eapply good_weaken; [|exact G]. intros q [Q|(b & [] & _)]. exact Q.
    - eapply good_weaken; [|apply IH, H, G]. intros q [Q|(b & [<-|I] & Q)]; cbn; eauto.
  Qed.
  Lemma good_low : forall la S cur, good S cur ->
    good (fun q => S q \/ exists l1 a l2 b, la = l1 ++ a :: l2 /\ In b l2 /\ intersection 0 a b = Some q) (low_pairs 0 p la cur).
  Proof.
    induction la as [|a la IH]; intros S cur G; cbn [low_pairs].
    - eapply good_weaken; [|exact G]. intros q [Q|(l1 & c & l2 & b & E & _)]; auto. destruct l1; discriminate.
    - eapply good_weaken; [|apply IH; apply (good_fold (fun cur b => test_opt 0 p (intersection 0 a b) cur) (fun b q => intersection 0 a b = Some q)); [|exact G]].
      + intros q [Q|(l1 & c & l2 & b & E & I & Q)]; cbn; auto. destruct l1 as [|z l1]; injection E as E1 E2.
        * subst c l2. left. right. eauto.
        * right. exists l1, c, l2, b. auto.
      + intros S' b cur' G'. now apply good_opt.
  Qed.

  Lemma direct_good : good (fun q => (exists a b, In a u /\ In b l /\ intersection 0 a b = Some q)
    \/ (exists a b, In a l /\ In b l /\ cm a <> cm b /\ q = (cross a b, ht b (cross a b)))
    \/ at_bound p (xmin p) = Some q \/ at_bound p (xmax p) = Some q) (direct 0 p).
  Proof.
    unfold direct.
    set (c0 := fold_left _ (rev u) None).
    assert (G0 : good (fun q => exists a b, In a u /\ In b l /\ intersection 0 a b = Some q) c0).
    { eapply good_weaken; [|apply (good_fold (fun cur a => fold_left (fun cur b => test_opt 0 p (intersection 0 a b) cur) (rev l) cur) (fun a q => exists b, In b (rev l) /\ intersection 0 a b = Some q)) with (S := fun _ => False)].
      - intros q (a & b & A & B & Q). right. exists a. split; [now rewrite <- in_rev|]. exists b. split; auto. now rewrite <- in_rev.
      - intros S a cur G. apply (good_fold (fun cur b => test_opt 0 p (intersection 0 a b) cur) (fun b q => intersection 0 a b = Some q)); auto.
        intros S' b cur' G'. now apply good_opt.
      - cbn. intros t []. }
    eapply good_weaken; [|apply good_opt, good_opt, good_low, G0].
    intros q [Q|[Q|[Q|Q]]]; cbn; auto. left. left. right.
    destruct Q as (a & b & IA & IB & N & ->).
    rewrite in_rev in IA. rewrite in_rev in IB. destruct (in_split a (rev l) IA) as (l1 & l2 & E).
    rewrite E in IB. apply in_app_iff in IB. destruct IB as [IB|[IB|IB]].
    - destruct (in_split b l1 IB) as (l3 & l4 & E3). exists l3, b, (l4 ++ a :: l2), a. split; [rewrite E, E3, <- app_assoc; reflexivity|]. split; [apply in_app_iff; right; now left|].
      pose proof (intersection_0 b a) as X. destruct (intersection 0 b a) as [[x y]|]; [|exfalso; auto]. destruct X as (_ & -> & Y1 & Y2). f_equal.
      assert (K : cross b a = cross a b) by (unfold cross; field; lra). rewrite <- K, <- Y1. reflexivity.
    - congruence.
    - exists l1, a, l2, b. split; auto. split; auto.
      pose proof (intersection_0 a b) as X. destruct (intersection 0 a b) as [[x y]|]; [|exfalso; auto]. destruct X as (_ & -> & Y1 & Y2). rewrite <- Y2. reflexivity.
  Qed.

  Lemma direct_spec : l <> [] -> bpos u l (xmax p) -> bneg u l (xmin p) ->
    match direct 0 p with
    | None => forall x y, inb (xmin p) (xmax p) x -> ~ feas u l x y
    | Some (x, y) => inb (xmin p) (xmax p) x /\ feas u l x y /\ forall x' y', inb (xmin p) (xmax p) x' -> feas u l x' y' -> y <= y'
    end.
  Proof.
    intros NL BP BN. pose proof direct_good as G.
    assert (C : forall x y, inb (xmin p) (xmax p) x -> feas u l x y -> exists t,
      ((exists a b, In a u /\ In b l /\ intersection 0 a b = Some t) \/ (exists a b, In a l /\ In b l /\ cm a <> cm b /\ t = (cross a b, ht b (cross a b)))
       \/ at_bound p (xmin p) = Some t \/ at_bound p (xmax p) = Some t) /\ is_feasible 0 p (fst t) (snd t) = true /\ snd t <= y).
    { intros x y B F. destruct (to_vertex u l (xmin p) (xmax p) x y NL BP BN F B) as (x' & y' & F' & B' & Le & O).
      exists (x', y'). split; [|split; [apply is_feasible_0; auto|exact Le]].
      destruct O as [(c & c' & I & I' & N & -> & ->)|(AB & c & I & H & M)].
      - apply in_app_iff in I'. destruct I' as [I'|I'].
        + left. exists c', c. split; auto. split; auto. pose proof (intersection_0 c' c) as X. destruct (intersection 0 c' c) as [[x1 y1]|]; [|contradiction].
          destruct X as (_ & -> & _ & <-). reflexivity.
        + right. left. exists c', c. auto.
      - assert (LV : loval p x' = Some y').
        { unfold loval. pose proof (listval_spec (-1) greater greater_cmp l x') as V. destruct (listval l x' greater) as [v|]; [|rewrite V in I; destruct I].
          destruct V as ((c0 & I0 & <-) & V). f_equal. specialize (V c I). specialize (M c0 I0). lra. }
        right. right. unfold at_bound. destruct AB as [-> | ->]; [left|right]; rewrite LV; reflexivity. }
    destruct (direct 0 p) as [[x y]|].
    - destruct G as (F & M). cbn [fst snd] in *. apply is_feasible_0 in F. destruct F as (F1 & F2). split; auto. split; auto.
      intros x' y' B F. destruct (C x' y' B F) as (t & S & Ft & Le). specialize (M t S Ft). lra.
    - intros x y B F. destruct (C x y B F) as (t & S & Ft & Le). cbn in G. rewrite (G t S) in Ft. discriminate.
  Qed.
End Direct.

(** ** lists, pools and pairs *)
Definition flat (ps : list pair) : list cell := flat_map (fun q => [p1 q; p2 q]) ps.
Definition pair_ok (q : pair) : Prop := cm (p1 q) <> cm (p2 q) /\ ht (p1 q) (px q) = ht (p2 q) (px q).
Definition wf (s : side) : Prop := NoDup (map cid (lst s)) /\ Permutation (lst s) (pool s ++ flat (prs s)) /\ Forall pair_ok (prs s).

Lemma perm_filter {A} (f : A -> bool) l1 l2 : Permutation l1 l2 -> Permutation (filter f l1) (filter f l2).
Proof.
  induction 1; cbn; auto.
  - destruct (f x); auto.
  - destruct (f x), (f y); auto. apply perm_swap.
  - eapply perm_trans; eauto.
Qed.
Lemma purge_perm (l : list cell) c r : NoDup (map cid l) -> Permutation l (c :: r) -> Permutation (purge l c) r /\ NoDup (map cid (purge l c)).
Proof.
  intros ND P. assert (P' : Permutation (purge l c) r).
  { unfold purge. rewrite (perm_filter _ _ _ P). cbn. rewrite Nat.eqb_refl. cbn.
    assert (N : NoDup (map cid (c :: r))) by (eapply Permutation_NoDup; [apply Permutation_map, P|auto]). cbn in N. apply NoDup_cons_iff in N. destruct N as (N & _).
    assert (E : filter (fun d => negb (cid d =? cid c)%nat) r = r); [|rewrite E; apply Permutation_refl].
    clear - N. induction r as [|a r IH]; cbn; auto. destruct (cid a =? cid c)%nat eqn:E.
    - apply Nat.eqb_eq in E. exfalso. apply N. left. auto.
    - cbn. f_equal. apply IH. intros K. apply N. now right. }
  split; auto. assert (N : NoDup (map cid (c :: r))) by (eapply Permutation_NoDup; [apply Permutation_map, P|auto]). cbn in N. apply NoDup_cons_iff in N.
  eapply Permutation_NoDup; [apply Permutation_map, Permutation_sym, P'|]. tauto.
Qed.
Lemma purge_incl (l : list cell) c : incl (purge l c) l.
Proof. intros d I. apply filter_In in I. tauto. Qed.

(** [l'] has, for each line of [l], one that is at least as strict in the half plane d (x - xm) >= 0; s = 1: upper, s = -1: lower *)
Definition domi (s d xm : R) (l l' : list cell) : Prop := incl l' l /\ forall c, In c l -> exists c', In c' l' /\
  d * (s * cm c') <= d * (s * cm c) /\ forall x, 0 <= d * (x - xm) -> s * ht c' x <= s * ht c x.
Lemma domi_refl s d xm l : domi s d xm l l.
Proof. split; [intros c I; exact I|]. intros c I. exists c. split; [exact I|]. split; [apply Rle_refl|]. intros. apply Rle_refl. Qed.
Lemma domi_trans s d xm l1 l2 l3 : domi s d xm l1 l2 -> domi s d xm l2 l3 -> domi s d xm l1 l3.
Proof.
  intros (I1 & D1) (I2 & D2). split; [intros c I; auto|]. intros c I. destruct (D1 c I) as (c2 & J2 & M2 & H2). destruct (D2 c2 J2) as (c3 & J3 & M3 & H3).
  exists c3. split; auto. split; [lra|]. intros x X. specialize (H2 x X). specialize (H3 x X). lra.
Qed.
(** replacing one line by one that is stricter *)
Lemma domi_purge s d xm (l : list cell) dd k r : NoDup (map cid l) -> Permutation l (dd :: r) -> In k r ->
  d * (s * cm k) <= d * (s * cm dd) -> (forall x, 0 <= d * (x - xm) -> s * ht k x <= s * ht dd x) -> domi s d xm l (purge l dd).
Proof.
  intros ND P K M H. destruct (purge_perm l dd r ND P) as (P' & _). split; [apply purge_incl|].
  intros c I. apply (Permutation_in _ P) in I. destruct I as [<-|I].
  - exists k. split; [|split; auto]. now apply (Permutation_in _ (Permutation_sym P')).
  - exists c. split; [|split; [lra|intros; lra]]. now apply (Permutation_in _ (Permutation_sym P')).
Qed.

Lemma pair_create_ok (s : R) (rule : R -> R -> bool) : (forall x y, if rule x y then s * y <= s * x else s * x <= s * y) ->
  forall fuel (sd : side), wf sd -> (length (pool sd) <= fuel)%nat ->
  exists sd', pair_create 0 rule fuel sd = Ok sd' /\ wf sd' /\ (length (pool sd') <= 1)%nat /\ (forall d xm, domi s d xm (lst sd) (lst sd')).
Proof.
  intros RULE.
  assert (Z : forall sd, wf sd -> (length (pool sd) <= 1)%nat -> exists sd', Ok sd = Ok sd' /\ wf sd' /\ (length (pool sd') <= 1)%nat /\ (forall d xm, domi s d xm (lst sd) (lst sd'))).
  { intros sd W L. exists sd. split; auto. split; auto. split; auto. intros. apply domi_refl. }
  induction fuel as [|fuel IH]; intros sd W0 Hl; pose proof W0 as (ND & P & OK).
  - destruct (pool sd) as [|a r] eqn:E; [|cbn in Hl; lia]. cbn [pair_create]. rewrite E. apply Z; auto. rewrite E. cbn. lia.
  - cbn [pair_create]. destruct (pool sd) as [|a [|b r]] eqn:E.
    + apply Z; auto. rewrite E. cbn. lia.
    + apply Z; auto. rewrite E. cbn. lia.
    + pose proof (intersection_0 a b) as X. destruct (intersection 0 a b) as [[x y]|].
      * destruct (IH (Side (lst sd) r (Pair a b x y :: prs sd))) as (sd' & E1 & W & L & DM).
        -- split; [exact ND|]. split.
           ++ cbn [lst pool prs flat flat_map p1 p2]. eapply perm_trans; [exact P|]. cbn [app]. fold (flat (prs sd)).
              eapply perm_trans; [|apply Permutation_middle]. constructor. apply Permutation_middle.
           ++ cbn [prs]. constructor; auto. destruct X as (N & -> & Y1 & Y2). split; cbn; auto. congruence.
        -- cbn. cbn in Hl. lia.
        -- exists sd'. auto.
      * pose proof (RULE (cy0 a) (cy0 b)) as RL.
        set (dk := if rule (cy0 a) (cy0 b) then (a, b) else (b, a)).
        assert (DK : exists d0 k0, dk = (d0, k0) /\ cm d0 = cm k0 /\ s * cy0 k0 <= s * cy0 d0 /\ Permutation (a :: b :: r) (d0 :: k0 :: r)).
        { unfold dk. destruct (rule (cy0 a) (cy0 b)); [exists a, b|exists b, a]; repeat split; auto. apply perm_swap. }
        destruct DK as (d0 & k0 & -> & M & Y & PK).
        assert (P0 : Permutation (lst sd) (d0 :: (k0 :: r) ++ flat (prs sd))).
        { eapply perm_trans; [exact P|]. apply (Permutation_app_tail (flat (prs sd))) in PK. exact PK. }
        destruct (purge_perm _ _ _ ND P0) as (P1 & ND1).
        destruct (IH (Side (purge (lst sd) d0) (k0 :: r) (prs sd))) as (sd' & E1 & W & L & DM).
        -- split; [exact ND1|]. split; auto.
        -- cbn. cbn in Hl. lia.
        -- exists sd'. split; auto. split; auto. split; auto. intros d xm. eapply domi_trans; [|apply DM]. cbn [lst].
           eapply domi_purge; [exact ND|exact P0|now left| |].
           ++ rewrite M. lra.
           ++ intros z _. unfold ht. rewrite M. lra.
Qed.

(** discarding one of the two lines of a pair *)
Lemma discard_ok (s d : R) (cx cg : R -> R -> bool) (xm : R) : d = 1 \/ d = -1 ->
  (forall x y, cx x y = true <-> d * y < d * x) -> (forall m m', if cg m m' then d * (s * m') <= d * (s * m) else d * (s * m) <= d * (s * m')) ->
  forall sd, wf sd -> wf (discard_side cx cg xm sd) /\ domi s d xm (lst sd) (lst (discard_side cx cg xm sd))
    /\ (length (lst (discard_side cx cg xm sd)) <= length (lst sd))%nat
    /\ ((exists q, In q (prs sd) /\ px q = xm) -> (length (lst (discard_side cx cg xm sd)) < length (lst sd))%nat).
Proof.
  intros DD CX CG sd (ND & P & OK). unfold discard_side.
  set (f := fun a q => _).
  assert (G : forall rest acc, NoDup (map cid (lst acc)) -> Permutation (lst acc) (pool acc ++ flat (prs acc) ++ flat rest) -> Forall pair_ok (prs acc) -> Forall pair_ok rest ->
    wf (fold_left f rest acc) /\ domi s d xm (lst acc) (lst (fold_left f rest acc)) /\ (length (lst (fold_left f rest acc)) <= length (lst acc))%nat
    /\ ((exists q, In q rest /\ px q = xm) -> (length (lst (fold_left f rest acc)) < length (lst acc))%nat)).
  { induction rest as [|q rest IH]; intros acc N1 P1 O1 O2; cbn [fold_left].
    - split; [split; [auto|split; auto]|split; [apply domi_refl|split; [auto|intros (q & [] & _)]]].
      cbn in P1. rewrite app_nil_r in P1. exact P1.
    - apply Forall_cons_iff in O2. destruct O2 as (Oq & O2). unfold f at 2 4 6 8. destruct (cx (px q) xm) eqn:E.
      + match goal with |- context [fold_left f rest ?a] => set (acc' := a) end.
        destruct (IH acc') as (A & B & C & D); cbn [lst pool prs acc']; auto.
        * eapply perm_trans; [exact P1|]. apply Permutation_app_head. unfold flat at 2 3. cbn [flat_map]. fold (flat (prs acc)) (flat rest).
          rewrite app_assoc. apply (Permutation_app_tail (flat rest)). apply Permutation_app_comm.
        * split; auto. split; auto. split; auto. intros (q' & [<-|I] & X); [|apply D; eauto].
          apply CX in E. rewrite X in E. lra.
      + set (dk := if cg (cm (p1 q)) (cm (p2 q)) then _ else _).
        assert (DK : exists d0 k0, dk = (d0, k0) /\ d * (s * cm k0) <= d * (s * cm d0) /\ ht d0 (px q) = ht k0 (px q) /\ Permutation [p1 q; p2 q] [d0; k0]).
        { unfold dk. destruct Oq as (_ & H). pose proof (CG (cm (p1 q)) (cm (p2 q))) as K. destruct (cg (cm (p1 q)) (cm (p2 q))); [exists (p1 q), (p2 q)|exists (p2 q), (p1 q)]; repeat split; auto. apply perm_swap. }
        destruct DK as (d0 & k0 & -> & M & H & PK).
        assert (P0 : Permutation (lst acc) (d0 :: (k0 :: pool acc) ++ flat (prs acc) ++ flat rest)).
        { eapply perm_trans; [exact P1|]. change (flat (q :: rest)) with ([p1 q; p2 q] ++ flat rest).
          rewrite PK. cbn [app]. rewrite !app_assoc. eapply perm_trans; [apply Permutation_sym, Permutation_middle|]. constructor.
          eapply perm_trans; [apply Permutation_sym, Permutation_middle|]. reflexivity. }
        destruct (purge_perm _ _ _ N1 P0) as (P2 & N2).
        match goal with |- context [fold_left f rest ?a] => set (acc' := a) end.
        destruct (IH acc') as (A & B & C & D); cbn [lst pool prs acc']; auto.
        assert (LP : (length (purge (lst acc) d0) < length (lst acc))%nat).
        { rewrite (Permutation_length P2), (Permutation_length P0). cbn. lia. }
        unfold acc' in C, D; cbn [lst] in C, D. fold acc' in C, D.
        split; auto. split; [|split; [cbn [lst] in *; lia|intros _; cbn [lst] in *; lia]].
        eapply domi_trans; [|exact B]. cbn [lst acc']. eapply domi_purge; [exact N1|exact P0|now left|exact M|].
        intros x X. assert (XQ : d * px q <= d * xm) by (destruct (Rle_lt_dec (d * px q) (d * xm)) as [|Z]; auto; apply CX in Z; congruence).
        unfold ht in *. destruct DD as [-> | ->]; nra. }
  destruct (G (rev (prs sd)) (Side (lst sd) (pool sd) [])) as (A & B & C & D); cbn [lst pool prs]; auto.
  - cbn. eapply perm_trans; [exact P|]. apply Permutation_app_head. unfold flat. rewrite !flat_map_concat_map, map_rev.
    clear. induction (prs sd) as [|q l IH]; cbn; auto. rewrite concat_app. cbn. rewrite IH.
    apply (Permutation_app_comm [p1 q; p2 q]).
  - apply Forall_forall. intros q I. rewrite <- in_rev in I. now apply (proj1 (Forall_forall _ _) OK).
  - repeat (split; auto). intros (q & I & X). apply D. exists q. split; auto. now rewrite <- in_rev.
Qed.
