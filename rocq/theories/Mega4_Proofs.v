(** Building the problem: the stored lines and bounds mean the constraints given. *)
From Coq Require Import Reals Lra Permutation.
From Verif Require Import Prelude Scalar RealLib Complex_Model Mega_Model Mega_Spec Mega_Proofs Mega2_Proofs Mega3_Proofs.
Local Open Scope R_scope.
Local Notation cell := (@cell R).
Local Notation pair := (@pair R).
Local Notation lp := (@lp R).
Local Notation side := (@side R).
Local Notation u p := (lst (up p)).
Local Notation l p := (lst (lo p)).

Definition rng (o : option (R * R)) (cs : list cell) : Prop :=
  match o with
  | None => cs = []
  | Some (mn, mx) => (exists c, In c cs /\ cm c = mn) /\ (exists c, In c cs /\ cm c = mx) /\ forall c, In c cs -> mn <= cm c <= mx
  end.
Lemma rng_widen o cs c : rng o cs -> rng (widen o (cm c)) (c :: cs).
Proof.
  destruct o as [[mn mx]|]; cbn [widen rng]; intros H.
  - destruct H as ((a & Ia & Ha) & (b & Ib & Hb) & B). rs. split; [|split].
    + destruct (Rltb_spec (cm c) mn); [exists c|exists a]; split; auto; [now left|now right].
    + destruct (Rltb_spec mx (cm c)); [exists c|exists b]; split; auto; [now left|now right].
    + assert (mn <= mx) by (destruct (B a Ia); lra). intros d [<-|I]; [|destruct (B d I)]; destruct (Rltb_spec (cm c) mn), (Rltb_spec mx (cm c)); lra.
  - subst cs. split; [exists c; split; auto; now left|]. split; [exists c; split; auto; now left|]. intros d [<-|[]]. lra.
Qed.
Lemma nonempty_spec {A} (x : list A) : nonempty x = true <-> x <> [].
Proof. destruct x; cbn; split; try discriminate; try congruence; auto. Qed.
Lemma is_some_spec {A} (x : option A) : is_some x = true <-> x <> None.
Proof. destruct x; cbn; split; try discriminate; try congruence; auto. Qed.

Lemma pos_bounded_spec (p : lp) : rng (mu p) (u p) -> rng (ml p) (l p) -> (pos_bounded p = true <-> l p <> [] /\ bpos (u p) (l p) (xmax p)).
Proof.
  intros RU RL. unfold pos_bounded, bpos. rs. rewrite !orb_true_iff, !andb_true_iff, !nonempty_spec, is_some_spec.
  destruct (ml p) as [[mn mx]|]; cbn [rng] in RL.
  - destruct RL as ((a & Ia & Ha) & (b & Ib & Hb) & B). assert (NL : l p <> []) by (intros E; rewrite E in Ia; destruct Ia).
    destruct (mu p) as [[mn' mx']|]; cbn [rng] in RU.
    + destruct RU as ((a' & Ia' & Ha') & (b' & Ib' & Hb') & B'). assert (NU : u p <> []) by (intros E; rewrite E in Ia'; destruct Ia').
      destruct (Rltb_spec 0 mx) as [X|X], (Rltb_spec mn' mx) as [Y|Y]; split.
      * intros _. split; auto. right. left. exists b. split; auto. lra.
      * auto.
      * intros _. split; auto. right. left. exists b. split; auto. lra.
      * auto.
      * intros _. split; auto. right. right. exists a', b. split; auto. split; auto. lra.
      * auto.
      * intros [[K|K]|K]; try discriminate; [split; auto; left; tauto|]. destruct K; discriminate.
      * intros (_ & [K|[(c & I & K)|(c & c' & I & I' & K)]]); auto.
        -- exfalso. destruct (B c I). lra.
        -- exfalso. destruct (B' c I), (B c' I'). lra.
    + destruct (Rltb_spec 0 mx) as [X|X]; split.
      * intros _. split; auto. right. left. exists b. split; auto. lra.
      * auto.
      * intros [[K|K]|K]; try discriminate; [split; auto; left; tauto|]. destruct K; discriminate.
      * intros (_ & [K|[(c & I & K)|(c & c' & I & I' & K)]]); auto.
        -- exfalso. destruct (B c I). lra.
        -- rewrite RU in I. destruct I.
  - rewrite RL. split; [|intros (K & _); congruence]. intros [[K|K]|K]; try discriminate; [destruct K; congruence|]. destruct K as (_ & K). destruct (mu p) as [[]|]; discriminate.
Qed.
Lemma neg_bounded_spec (p : lp) : rng (mu p) (u p) -> rng (ml p) (l p) -> (neg_bounded p = true <-> l p <> [] /\ bneg (u p) (l p) (xmin p)).
Proof.
  intros RU RL. unfold neg_bounded, bneg. rs. rewrite !orb_true_iff, !andb_true_iff, !nonempty_spec, is_some_spec.
  destruct (ml p) as [[mn mx]|]; cbn [rng] in RL.
  - destruct RL as ((a & Ia & Ha) & (b & Ib & Hb) & B). assert (NL : l p <> []) by (intros E; rewrite E in Ia; destruct Ia).
    destruct (mu p) as [[mn' mx']|]; cbn [rng] in RU.
    + destruct RU as ((a' & Ia' & Ha') & (b' & Ib' & Hb') & B'). assert (NU : u p <> []) by (intros E; rewrite E in Ia'; destruct Ia').
      destruct (Rltb_spec mn 0) as [X|X], (Rltb_spec mn mx') as [Y|Y]; split.
      * intros _. split; auto. right. left. exists a. split; auto. lra.
      * auto.
      * intros _. split; auto. right. left. exists a. split; auto. lra.
      * auto.
      * intros _. split; auto. right. right. exists b', a. split; auto. split; auto. lra.
      * auto.
      * intros [[K|K]|K]; try discriminate; [split; auto; left; tauto|]. destruct K; discriminate.
      * intros (_ & [K|[(c & I & K)|(c & c' & I & I' & K)]]); auto.
        -- exfalso. destruct (B c I). lra.
        -- exfalso. destruct (B' c I), (B c' I'). lra.
    + destruct (Rltb_spec mn 0) as [X|X]; split.
      * intros _. split; auto. right. left. exists a. split; auto. lra.
      * auto.
      * intros [[K|K]|K]; try discriminate; [split; auto; left; tauto|]. destruct K; discriminate.
      * intros (_ & [K|[(c & I & K)|(c & c' & I & I' & K)]]); auto.
        -- exfalso. destruct (B c I). lra.
        -- rewrite RU in I. destruct I.
  - rewrite RL. split; [|intros (K & _); congruence]. intros [[K|K]|K]; try discriminate; [destruct K; congruence|]. destruct K as (_ & K). destruct (mu p) as [[]|]; discriminate.
Qed.

(** lines and bounds stored for the constraints cs *)
Record built (k1 k2 : R) (cs : list (R * R * R)) (p : lp) : Prop := {
  b_c1 : c1 p = k1;
  b_c2 : c2 p = k2;
  b_u : pool (up p) = u p /\ prs (up p) = [] /\ NoDup (map cid (u p)) /\ forall c, In c (u p) -> (cid c < next p)%nat;
  b_l : pool (lo p) = l p /\ prs (lo p) = [] /\ NoDup (map cid (l p)) /\ forall c, In c (l p) -> (cid c < next p)%nat;
  b_sem : forall x1 x2, feasible2 cs x1 x2 <-> inb (xmin p) (xmax p) x1 /\ feas (u p) (l p) x1 (k1 * x1 + k2 * x2);
  b_mu : rng (mu p) (u p);
  b_ml : rng (ml p) (l p);
  b_pos : fpos p = true -> pos_bounded p = true;
  b_neg : fneg p = true -> neg_bounded p = true;
  b_det : (xmin p <> None \/ xmax p <> None \/ exists c, (In c (u p) \/ In c (l p)) /\ cm c <> 0) -> fdet p = true }.

Lemma feasible2_app cs a1 a2 b x1 x2 : feasible2 (cs ++ [(a1, a2, b)]) x1 x2 <-> feasible2 cs x1 x2 /\ a1 * x1 + a2 * x2 <= b.
Proof.
  unfold feasible2. split.
  - intros H. split; [intros; apply H, in_app_iff; auto|]. apply H, in_app_iff. right. now left.
  - intros (H & K) c1 c2 c I. apply in_app_iff in I. destruct I as [I|[I|[]]]; auto. injection I as <- <- <-. exact K.
Qed.

Lemma bpos_mono u u' l l' b b' : incl u u' -> incl l l' -> (b <> None -> b' <> None) -> bpos u l b -> bpos u' l' b'.
Proof.
  intros A B C [H|[(c & I & H)|(c & c' & I & I' & H)]]; [left; auto|right; left; exists c; auto|right; right; exists c, c'; auto].
Qed.
Lemma bneg_mono u u' l l' b b' : incl u u' -> incl l l' -> (b <> None -> b' <> None) -> bneg u l b -> bneg u' l' b'.
Proof.
  intros A B C [H|[(c & I & H)|(c & c' & I & I' & H)]]; [left; auto|right; left; exists c; auto|right; right; exists c, c'; auto].
Qed.

(** adding a constraint *)
Lemma add_step k1 k2 cs p a1 a2 b : k2 <> 0 -> built k1 k2 cs p ->
  match add_constraint 0 p a1 a2 b with
  | (true, q) => built k1 k2 (cs ++ [(a1, a2, b)]) q /\ (a2 <> 0 -> fpos q = pos_bounded q /\ fneg q = neg_bounded q)
      /\ (a2 <> 0 -> xmin q = xmin p /\ xmax q = xmax p)
  | (false, q) => (a1 = 0 /\ a2 = 0) \/ forall x1 x2, ~ feasible2 (cs ++ [(a1, a2, b)]) x1 x2
  end.
Proof.
  intros K2 [C1 C2 BU BL SEM MU ML POS NEG DET]. unfold add_constraint.
  destruct (is_tol 0 a2) eqn:T2.
  - apply is_tol_0 in T2. subst a2. unfold add_vertical. destruct (is_tol 0 a1) eqn:T1.
    { apply is_tol_0 in T1. left. auto. }
    assert (N1 : a1 <> 0) by (intros Z; apply is_tol_0 in Z; congruence).
    assert (VB : forall mn mx, (forall x1, inb mn mx x1 <-> inb (xmin p) (xmax p) x1 /\ a1 * x1 <= b) -> (xmin p <> None -> mn <> None) -> (xmax p <> None -> mx <> None) ->
      built k1 k2 (cs ++ [(a1, 0, b)]) (LP (c1 p) (c2 p) mn mx (up p) (lo p) (mu p) (ml p) (fpos p) (fneg p) true (next p))).
    { intros mn mx E Emn Emx. constructor; cbn [c1 c2 up lo xmin xmax mu ml fpos fneg fdet next]; auto.
      - intros x1 x2. rewrite feasible2_app, SEM, E. rewrite Rmult_0_l, Rplus_0_r. tauto.
      - intros F. apply POS in F. apply pos_bounded_spec in F; auto. apply pos_bounded_spec; cbn; auto. destruct F as (A & B). split; auto.
        eapply bpos_mono; [| | |exact B]; try (intros x X; exact X). auto.
      - intros F. apply NEG in F. apply neg_bounded_spec in F; auto. apply neg_bounded_spec; cbn; auto. destruct F as (A & B). split; auto.
        eapply bneg_mono; [| | |exact B]; try (intros x X; exact X). auto. }
    assert (SG : forall x1, a1 * x1 <= b <-> if Rlt_dec a1 0 then b / a1 <= x1 else x1 <= b / a1).
    { intros x1. assert (E : b = a1 * (b / a1)) by (field; auto). set (z := b / a1) in *. clearbody z. subst b. destruct (Rlt_dec a1 0); split; intros; nra. }
    set (x := (b / a1)%S). change (b / a1)%S with (b / a1) in x.
    rs. destruct (Rltb_spec a1 0) as [L|L]; cbn [andb].
    + destruct (match xmin p with Some v => Rltb v x | None => true end) eqn:E.
      * destruct (match xmax p with Some v => Rltb v x | None => false end) eqn:F.
        -- right. intros x1 x2 H. apply feasible2_app in H. destruct H as (H & H'). apply SEM in H. destruct H as ((_ & B) & _). rewrite Rmult_0_l, Rplus_0_r in H'. apply SG in H'.
           destruct (Rlt_dec a1 0); [|contradiction]. destruct (xmax p) as [v|]; [|discriminate]. specialize (B v eq_refl). destruct (Rltb_spec v x); [unfold x in *; lra|discriminate].
        -- split; [|split; intros; congruence]. apply VB; auto; [|discriminate]. intros x1. rewrite SG. destruct (Rlt_dec a1 0); [|contradiction]. fold x. unfold inb. split.
           ++ intros (A & B). specialize (A x eq_refl). split; auto. split; auto. intros v V. rewrite V in E. destruct (Rltb_spec v x); [lra|discriminate].
           ++ intros ((A & B) & C). split; auto. intros v V. injection V as <-. auto.
      * destruct (Rltb_spec 0 a1); [lra|]. cbn [andb]. split; [|split; intros; congruence]. apply VB; auto. intros x1. rewrite SG. destruct (Rlt_dec a1 0); [|contradiction]. fold x.
        split; [|tauto]. intros A. split; auto. destruct (xmin p) as [v|]; [|discriminate]. destruct (Rltb_spec v x); [discriminate|]. destruct A as (A & _). specialize (A v eq_refl). lra.
    + destruct (Rltb_spec 0 a1) as [G|G]; [|lra]. cbn [andb]. destruct (match xmax p with Some v => Rltb x v | None => true end) eqn:E.
      * destruct (match xmin p with Some v => Rltb x v | None => false end) eqn:F.
        -- right. intros x1 x2 H. apply feasible2_app in H. destruct H as (H & H'). apply SEM in H. destruct H as ((B & _) & _). rewrite Rmult_0_l, Rplus_0_r in H'. apply SG in H'.
           destruct (Rlt_dec a1 0); [contradiction|]. destruct (xmin p) as [v|]; [|discriminate]. specialize (B v eq_refl). destruct (Rltb_spec x v); [unfold x in *; lra|discriminate].
        -- split; [|split; intros; congruence]. apply VB; auto; [|discriminate]. intros x1. rewrite SG. destruct (Rlt_dec a1 0); [contradiction|]. fold x. unfold inb. split.
           ++ intros (A & B). specialize (B x eq_refl). split; auto. split; auto. intros v V. rewrite V in E. destruct (Rltb_spec x v); [lra|discriminate].
           ++ intros ((A & B) & C). split; auto. intros v V. injection V as <-. auto.
      * split; [|split; intros; congruence]. apply VB; auto. intros x1. rewrite SG. destruct (Rlt_dec a1 0); [contradiction|]. fold x.
        split; [|tauto]. intros A. split; auto. destruct (xmax p) as [v|]; [|discriminate]. destruct (Rltb_spec x v); [discriminate|]. destruct A as (_ & A). specialize (A v eq_refl). lra.
  - assert (N2 : a2 <> 0) by (intros Z; apply is_tol_0 in Z; congruence).
    rewrite C1, C2. destruct (is_tol 0 k2) eqn:TK; [apply is_tol_0 in TK; contradiction|].
    set (a := (a2 / k2)%S). change (a2 / k2)%S with (a2 / k2) in a. assert (NA : a <> 0) by (unfold a; intros Z; apply N2; replace a2 with (a2 / k2 * k2) by (field; auto); rewrite Z; ring).
    set (c := Cell (next p) (k1 - a1 / a)%S (b / a)%S).
    assert (LINE : forall x1 x2, a1 * x1 + a2 * x2 <= b <-> if Rlt_dec 0 a then k1 * x1 + k2 * x2 <= ht c x1 else ht c x1 <= k1 * x1 + k2 * x2).
    { intros x1 x2. unfold ht, c; cbn [cm cy0]. rs. assert (E2 : a2 = a * k2) by (unfold a; field; auto).
      assert (E1 : a1 = a * (a1 / a)) by (field; auto). assert (E : b = a * (b / a)) by (field; auto). set (m := a1 / a) in *. set (y0 := b / a) in *. clearbody m y0 a.
      subst a1 a2 b. replace (a * m * x1 + a * k2 * x2) with (a * (m * x1 + k2 * x2)) by ring.
      destruct (Rlt_dec 0 a); split; intros H; nra. }
    cbv zeta; set (q := if slt s0 a then _ else _).
    assert (Q : built k1 k2 (cs ++ [(a1, a2, b)]) (LP (c1 q) (c2 q) (xmin q) (xmax q) (up q) (lo q) (mu q) (ml q) (fpos q || pos_bounded q) (fneg q || neg_bounded q) (fdet q) (next q))
      /\ fpos q || pos_bounded q = pos_bounded q /\ fneg q || neg_bounded q = neg_bounded q /\ xmin q = xmin p /\ xmax q = xmax p).
    2: { destruct Q as (Q & QP & QN & Q1 & Q2). split; [exact Q|]. cbn [fpos fneg xmin xmax]. split; auto. }
    assert (NEW : forall s : side, pool s = lst s /\ prs s = [] /\ NoDup (map cid (lst s)) /\ (forall c, In c (lst s) -> (cid c < next p)%nat) ->
      pool (Side (c :: lst s) (c :: pool s) (prs s)) = lst (Side (c :: lst s) (c :: pool s) (prs s)) /\ prs (Side (c :: lst s) (c :: pool s) (prs s)) = [] /\
      NoDup (map cid (lst (Side (c :: lst s) (c :: pool s) (prs s)))) /\ (forall c', In c' (lst (Side (c :: lst s) (c :: pool s) (prs s))) -> (cid c' < S (next p))%nat)).
    { intros s (A & B & C & D). cbn [lst pool prs]. rewrite A. split; auto. split; auto. split.
      - cbn. constructor; auto. intros I. apply in_map_iff in I. destruct I as (c' & E & I). specialize (D c' I). lia.
      - intros c' [<-|I]; [cbn; lia|]. specialize (D c' I). lia. }
    assert (OLD : forall s : side, pool s = lst s /\ prs s = [] /\ NoDup (map cid (lst s)) /\ (forall c, In c (lst s) -> (cid c < next p)%nat) ->
      pool s = lst s /\ prs s = [] /\ NoDup (map cid (lst s)) /\ (forall c, In c (lst s) -> (cid c < S (next p))%nat)).
    { intros s (A & B & C & D). split; auto. split; auto. split; auto. intros c0 I0. specialize (D c0 I0). lia. }
    assert (DETC : negb (is_tol 0 (cm c)) = true <-> cm c <> 0).
    { destruct (is_tol 0 (cm c)) eqn:E; cbn; split; try discriminate; auto.
      - intros N. exfalso. apply N. apply is_tol_0 in E. exact E.
      - intros _ Z. apply is_tol_0 in Z. change (is_tol 0 (cm c) = true) in Z; rewrite Z in E; discriminate. }
    assert (MP : (fpos q = true -> pos_bounded q = true) /\ (fneg q = true -> neg_bounded q = true)).
    { unfold q; rs; destruct (Rltb_spec 0 a) as [G|G]; cbn [fpos fneg]; split; intros F.
      - apply POS in F. apply pos_bounded_spec in F; auto. apply pos_bounded_spec; cbn [up lo mu ml xmin xmax lst]; auto; [now apply rng_widen|]. destruct F as (A & B). split; auto.
        eapply bpos_mono; [| | |exact B]; auto; intros x X; auto. now right.
      - apply NEG in F. apply neg_bounded_spec in F; auto. apply neg_bounded_spec; cbn [up lo mu ml xmin xmax lst]; auto; [now apply rng_widen|]. destruct F as (A & B). split; auto.
        eapply bneg_mono; [| | |exact B]; auto; intros x X; auto. now right.
      - apply POS in F. apply pos_bounded_spec in F; auto. apply pos_bounded_spec; cbn [up lo mu ml xmin xmax lst]; auto; [now apply rng_widen|]. destruct F as (A & B). split; [discriminate|].
        eapply bpos_mono; [| | |exact B]; auto; intros x X; auto. now right.
      - apply NEG in F. apply neg_bounded_spec in F; auto. apply neg_bounded_spec; cbn [up lo mu ml xmin xmax lst]; auto; [now apply rng_widen|]. destruct F as (A & B). split; [discriminate|].
        eapply bneg_mono; [| | |exact B]; auto; intros x X; auto. now right. }
    destruct MP as (MP & MN).
    split; [|split; [|split; [|unfold q; rs; destruct (Rltb_spec 0 a); auto]]].
    2: { destruct (fpos q); auto. rewrite MP; auto. }
    2: { destruct (fneg q); auto. rewrite MN; auto. }
    assert (PB : forall f g h, pos_bounded (LP (c1 q) (c2 q) (xmin q) (xmax q) (up q) (lo q) (mu q) (ml q) f g h (next q)) = pos_bounded q) by reflexivity.
    assert (NB : forall f g h, neg_bounded (LP (c1 q) (c2 q) (xmin q) (xmax q) (up q) (lo q) (mu q) (ml q) f g h (next q)) = neg_bounded q) by reflexivity.
    constructor.
    8: { rewrite PB. cbn [fpos]. destruct (fpos q) eqn:E; auto. }
    8: { rewrite NB. cbn [fneg]. destruct (fneg q) eqn:E; auto. }
    all: cbn [c1 c2 up lo xmin xmax mu ml fdet next]; clear PB NB MP MN; unfold q; rs; destruct (Rltb_spec 0 a) as [G|G]; cbn [c1 c2 up lo xmin xmax mu ml fpos fneg fdet next]; auto.
    + (* semantics, upper *)
      intros x1 x2. rewrite feasible2_app, SEM, LINE. destruct (Rlt_dec 0 a); [|contradiction]. unfold feas. cbn [lst]. split.
      * intros ((A & B & C) & D). split; auto. split; auto. intros c' [<-|I]; auto.
      * intros (A & B & C). split; [|apply B; now left]. split; auto. split; auto. intros c' I. apply B. now right.
    + intros x1 x2. rewrite feasible2_app, SEM, LINE. destruct (Rlt_dec 0 a); [contradiction|]. unfold feas. cbn [lst]. split.
      * intros ((A & B & C) & D). split; auto. split; auto. intros c' [<-|I]; auto.
      * intros (A & B & C). split; [|apply C; now left]. split; auto. split; auto. intros c' I. apply C. now right.
    + now apply rng_widen.
    + now apply rng_widen.
    + cbn [lst]. intros [H|[H|(c' & I & N)]].
      1,2: rewrite DET; auto.
      destruct I as [[<-|I]|I]; [rewrite (proj2 DETC N); apply orb_true_r| |]; rewrite DET; auto; right; right; exists c'; auto.
    + cbn [lst]. intros [H|[H|(c' & I & N)]].
      1,2: rewrite DET; auto.
      destruct I as [I|[<-|I]]; [|rewrite (proj2 DETC N); apply orb_true_r|]; rewrite DET; auto; right; right; exists c'; auto.
Qed.
