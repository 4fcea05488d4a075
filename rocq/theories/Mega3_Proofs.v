(** The decisions of the method of Megiddo and Dyer keep the solutions, and the loop ends with one. *)
From Coq Require Import Reals Lra Permutation.
From Verif Require Import Prelude Scalar RealLib Complex_Model Mega_Model Mega_Proofs Mega2_Proofs.
Local Open Scope R_scope.
Local Notation cell := (@cell R).
Local Notation pair := (@pair R).
Local Notation lp := (@lp R).
Local Notation side := (@side R).

(** what is known when the solution is sought in direction d from xm *)
Definition decd (d : R) (u l : list cell) (xm : R) : Prop :=
  (exists v w, v > w /\ is_val (-1) l xm v /\ is_val 1 u xm w /\ forall c c', In c l -> ht c xm = v -> In c' u -> ht c' xm = w -> d * cm c < d * cm c')
  \/ (exists v, is_val (-1) l xm v /\ (forall c, In c u -> v <= ht c xm) /\ forall c, In c l -> ht c xm = v -> d * cm c < 0).

Lemma domi_val s d xm l l' v : s = 1 \/ s = -1 -> domi s d xm l l' -> is_val s l xm v -> is_val s l' xm v.
Proof.
  intros SS (I & D) ((c & Ic & Hc) & M). split; [|intros c' I'; auto].
  destruct (D c Ic) as (c' & I' & _ & H). exists c'. split; auto. specialize (H xm). specialize (M c' (I _ I')).
  rewrite Hc in H. assert (X : 0 <= d * (xm - xm)) by lra. specialize (H X). destruct SS as [-> | ->]; lra.
Qed.
Lemma decd_domi d u l u' l' xm : domi 1 d xm u u' -> domi (-1) d xm l l' -> decd d u l xm -> decd d u' l' xm.
Proof.
  intros DU DL [(v & w & VW & VL & VU & M)|(v & VL & FU & M)].
  - left. exists v, w. split; auto. split; [eapply domi_val; eauto|]. split; [eapply domi_val; eauto|].
    intros c c' I H I' H'. apply M; auto; [now apply DL|now apply DU].
  - right. exists v. split; [eapply domi_val; eauto|]. split; [intros c I; apply FU; now apply DU|]. intros c I H. apply M; auto. now apply DL.
Qed.

(** every feasible point on the wrong side of xm is beaten by the lowest point at xm *)
Definition toward (d : R) (u l : list cell) (xm : R) : Prop :=
  forall x y, d * (x - xm) < 0 -> feas u l x y -> exists y0, feas u l xm y0 /\ (forall y', feas u l xm y' -> y0 <= y') /\ y0 < y.
Lemma decd_toward d u l xm : d = 1 \/ d = -1 -> decd d u l xm -> toward d u l xm.
Proof.
  intros DD [(v & w & VW & ((c & I & H) & ML) & ((c' & I' & H') & MU) & M)|(v & ((c & I & H) & ML) & FU & M)] x y X (FX & GX).
  - exfalso. specialize (M c c' I H I' H'). specialize (FX c' I'). specialize (GX c I). unfold ht in *. destruct DD as [-> | ->]; nra.
  - exists v. split; [|split].
    + split; auto. intros c' I'. specialize (ML c' I'). lra.
    + intros y' (_ & G). specialize (G c I). lra.
    + specialize (M c I H). specialize (GX c I). unfold ht in *. destruct DD as [-> | ->]; nra.
Qed.

Definition same (u l u' l' : list cell) : Prop := (forall x y, sol u l x y <-> sol u' l' x y) /\ ((exists x y, feas u l x y) <-> (exists x y, feas u' l' x y)).
Lemma same_refl u l : same u l u l. Proof. split; [tauto|tauto]. Qed.
Lemma same_trans u1 l1 u2 l2 u3 l3 : same u1 l1 u2 l2 -> same u2 l2 u3 l3 -> same u1 l1 u3 l3.
Proof. intros (A & B) (C & D). split; [intros x y; rewrite A; apply C|tauto]. Qed.

Lemma domi_fs_u d xm u u' x y : domi 1 d xm u u' -> 0 <= d * (x - xm) -> (forall c, In c u' -> y <= ht c x) -> forall c, In c u -> y <= ht c x.
Proof. intros (_ & D) X F c I. destruct (D c I) as (c' & I' & _ & H). specialize (H x X). specialize (F c' I'). lra. Qed.
Lemma domi_fs_l d xm l l' x y : domi (-1) d xm l l' -> 0 <= d * (x - xm) -> (forall c, In c l' -> ht c x <= y) -> forall c, In c l -> ht c x <= y.
Proof. intros (_ & D) X F c I. destruct (D c I) as (c' & I' & _ & H). specialize (H x X). specialize (F c' I'). lra. Qed.
Lemma domi_feas d xm u u' l l' x y : domi 1 d xm u u' -> domi (-1) d xm l l' -> 0 <= d * (x - xm) -> feas u' l' x y -> feas u l x y.
Proof. intros DU DL X (A & B). split; [eapply domi_fs_u; eauto|eapply domi_fs_l; eauto]. Qed.
Lemma incl_feas (u u' l l' : list cell) x y : incl u' u -> incl l' l -> feas u l x y -> feas u' l' x y.
Proof. intros A B (F & G). split; auto. Qed.

(** lines removed because of parallel stricter ones *)
Lemma same_all u u' l l' : (forall d xm, domi 1 d xm u u') -> (forall d xm, domi (-1) d xm l l') -> forall x y, feas u l x y <-> feas u' l' x y.
Proof.
  intros DU DL x y. split.
  - apply incl_feas; [apply (DU 0 0)|apply (DL 0 0)].
  - apply (domi_feas 0 0); auto. lra.
Qed.
Lemma feas_same u u' l l' : (forall x y, feas u l x y <-> feas u' l' x y) -> same u l u' l'.
Proof.
  intros E. split.
  - intros x y. unfold sol. rewrite E. split; intros (A & B); split; auto; intros x' y' F; apply (B x'); now apply E.
  - split; intros (x & y & F); exists x, y; now apply E.
Qed.
(** lines removed on the wrong side of xm *)
Lemma same_step d u u' l l' xm : d = 1 \/ d = -1 -> domi 1 d xm u u' -> domi (-1) d xm l l' -> decd d u l xm -> same u l u' l'.
Proof.
  intros DD DU DL DE. pose proof (decd_toward d u' l' xm DD (decd_domi _ _ _ _ _ _ DU DL DE)) as TW.
  assert (Z : 0 <= d * (xm - xm)) by lra. assert (INC : forall x y, feas u l x y -> feas u' l' x y) by (intros x y; apply incl_feas; [apply DU|apply DL]).
  split.
  - intros x y. split; intros (F & M).
    + split; auto. intros x' y' F'. destruct (Rle_lt_dec 0 (d * (x' - xm))) as [X|X].
      * apply (M x'). eapply domi_feas; eauto.
      * destruct (TW x' y' X F') as (y0 & F0 & _ & L0). assert (y <= y0); [|lra]. apply (M xm). eapply domi_feas; eauto.
    + destruct (Rle_lt_dec 0 (d * (x - xm))) as [X|X].
      * split; [eapply domi_feas; eauto|]. intros x' y' F'. apply (M x'); auto.
      * exfalso. destruct (TW x y X F) as (y0 & F0 & _ & L0). specialize (M xm y0 F0). lra.
  - split; intros (x & y & F); [exists x, y; auto|]. destruct (Rle_lt_dec 0 (d * (x - xm))) as [X|X].
    + exists x, y. eapply domi_feas; eauto.
    + destruct (TW x y X F) as (y0 & F0 & _ & L0). exists xm, y0. eapply domi_feas; eauto.
Qed.

(** ** the decision *)
Lemma decide_spec (p : lp) x : lst (lo p) <> [] ->
  match decide 0 p x with
  | Invalid => False
  | UpdateXMin xm => xm = x /\ decd 1 (lst (up p)) (lst (lo p)) x
  | UpdateXMax xm => xm = x /\ decd (-1) (lst (up p)) (lst (lo p)) x
  | UnsolvableCode => forall x' y', ~ feas (lst (up p)) (lst (lo p)) x' y'
  | FoundOptimum x' y' => sol (lst (up p)) (lst (lo p)) x' y'
  end.
Proof.
  intros NL. unfold decide, upvalgrad, lovalgrad. set (u := lst (up p)) in *. set (l := lst (lo p)) in *.
  pose proof (listvalgrad_spec 1 less less_cmp u x) as VU. pose proof (listvalgrad_spec (-1) greater greater_cmp l x) as VL.
  destruct (listvalgrad 0 l x greater) as [[[yl mlmin] mlmax]|]; [|contradiction].
  destruct VL as (VL & (ln & In_ & Hn & <-) & (lx & Ix & Hx & <-) & BL).
  assert (FLAT : (forall c, In c u -> yl <= ht c x) -> 0 <= cm lx -> cm ln <= 0 -> sol u l x yl).
  { intros FU P N. destruct VL as (_ & ML). split; [split; auto; intros c I; specialize (ML c I); lra|].
    intros x' y' (_ & G). pose proof (G ln In_). pose proof (G lx Ix). unfold ht in *. destruct (Rle_lt_dec x x'); nra. }
  assert (FREE : (forall c, In c u -> yl <= ht c x) -> match (if slt (cm lx) 0 then UpdateXMin x else if slt 0 (cm ln) then UpdateXMax x else FoundOptimum x yl) with
    | Invalid => False | UpdateXMin xm => xm = x /\ decd 1 u l x | UpdateXMax xm => xm = x /\ decd (-1) u l x
    | UnsolvableCode => forall x' y', ~ feas u l x' y' | FoundOptimum x' y' => sol u l x' y' end).
  { intros FU. rs. destruct (Rltb_spec (cm lx) 0) as [P|P]; [|destruct (Rltb_spec 0 (cm ln)) as [Q|Q]].
    - split; auto. right. exists yl. split; auto. split; auto. intros c I H. destruct (BL c I H). lra.
    - split; auto. right. exists yl. split; auto. split; auto. intros c I H. destruct (BL c I H). lra.
    - apply FLAT; auto; lra. }
  destruct (listvalgrad 0 u x less) as [[[yu mumin] mumax]|].
  2: { apply FREE. rewrite VU. intros c []. }
  destruct VU as (VU & (un & Iun & Hun & <-) & (ux & Iux & Hux & <-) & BU).
  rs. destruct (Rltb_spec yu yl) as [L1|L1].
  - destruct (Rltb_spec (cm lx) (cm un)) as [P|P]; [|destruct (Rltb_spec (cm ux) (cm ln)) as [Q|Q]].
    + split; auto. left. exists yl, yu. repeat split; auto. 1,2: apply VL. 1,2: apply VU.
      intros c c' I H I' H'. destruct (BL c I H), (BU c' I' H'). lra.
    + split; auto. left. exists yl, yu. repeat split; auto. 1,2: apply VL. 1,2: apply VU.
      intros c c' I H I' H'. destruct (BL c I H), (BU c' I' H'). lra.
    + intros x' y' (F & G). pose proof (F un Iun). pose proof (F ux Iux). pose proof (G ln In_). pose proof (G lx Ix). unfold ht in *. destruct (Rle_lt_dec x x'); nra.
  - destruct (Rltb_spec yl yu) as [L2|L2].
    + apply FREE. intros c I. destruct VU as (_ & MU). specialize (MU c I). lra.
    + assert (E : yl = yu) by lra. assert (FU : forall c, In c u -> yl <= ht c x) by (intros c I; destruct VU as (_ & MU); specialize (MU c I); lra).
      destruct (Rltb_spec (cm lx) 0) as [P|P]; destruct (Rleb_spec (cm lx) (cm un)) as [P'|P']; cbn [andb].
      1: { split; auto. right. exists yl. split; auto. split; auto. intros c I H. destruct (BL c I H). lra. }
      all: destruct (Rltb_spec 0 (cm ln)) as [Q|Q]; destruct (Rleb_spec (cm ux) (cm ln)) as [Q'|Q']; cbn [andb].
      all: try (split; auto; right; exists yl; split; auto; split; auto; intros c I H; destruct (BL c I H); lra).
      all: split; [split; auto; intros c I; destruct VL as (_ & ML); specialize (ML c I); lra|].
      all: intros x' y' (F & G); pose proof (F un Iun); pose proof (F ux Iux); pose proof (G ln In_); pose proof (G lx Ix); unfold ht in *; destruct (Rle_lt_dec x x'); nra.
Qed.

(** ** the loop *)
Definition median_ok (median : list pair -> option (pair * list pair)) : Prop :=
  median [] = None /\ forall ps, ps <> [] -> exists q ps', median ps = Some (q, ps') /\ In q ps /\ Permutation ps ps'.

Section Loop.
  Variable median : list pair -> option (pair * list pair).
  Hypothesis MED : median_ok median.
  Variable u0 l0 : list cell.
  Local Notation u p := (lst (up p)).
  Local Notation l p := (lst (lo p)).

  Record inv (p : lp) : Prop := {
    i_wu : wf (up p);
    i_wl : wf (lo p);
    i_ne : l p <> [];
    i_same : same u0 l0 (u p) (l p);
    i_min : forall v, xmin p = Some v -> toward 1 (u p) (l p) v;
    i_max : forall v, xmax p = Some v -> toward (-1) (u p) (l p) v;
    i_pos : bpos (u p) (l p) (xmax p);
    i_neg : bneg (u p) (l p) (xmin p) }.

  (** the two bounds do not cross unless there is no feasible point *)
  Lemma cross_infeasible (u l : list cell) a b x y : b < a -> toward 1 u l a -> toward (-1) u l b -> ~ feas u l x y.
  Proof.
    intros AB TA TB F.
    assert (A : exists y1, feas u l a y1).
    { destruct (Rlt_le_dec x a) as [X|X]; [destruct (TA x y) as (y1 & F1 & _); [lra|auto|eauto]|].
      destruct (TB x y) as (y2 & F2 & _); [lra|auto|]. destruct (TA b y2) as (y1 & F1 & _); [lra|auto|eauto]. }
    destruct A as (y1 & F1). destruct (TB a y1) as (yb & Fb & Mb & Lb); [lra|auto|].
    destruct (TA b yb) as (ya & Fa & Ma & La); [lra|auto|]. destruct (TB a ya) as (yb' & Fb' & Mb' & Lb'); [lra|auto|].
    specialize (Mb yb' Fb'). lra.
  Qed.

  Lemma direct_inv p : inv p -> match direct 0 p with None => forall x y, ~ feas u0 l0 x y | Some (x, y) => sol u0 l0 x y end.
  Proof.
    intros [WU WL NE (S1 & S2) TA TB BP BN]. pose proof (direct_spec p NE BP BN) as D.
    (* a feasible point has one within the bounds that is not higher *)
    assert (IN : forall x y, feas (u p) (l p) x y -> exists x' y', inb (xmin p) (xmax p) x' /\ feas (u p) (l p) x' y' /\ y' <= y).
    { intros x y F. destruct (xmin p) as [a|] eqn:EA; destruct (xmax p) as [b|] eqn:EB.
      - destruct (Rlt_le_dec b a) as [AB|AB]; [exfalso; eapply (cross_infeasible (u p) (l p) a b); eauto|].
        destruct (Rlt_le_dec x a) as [X|X]; [|destruct (Rlt_le_dec b x) as [X'|X']].
        + destruct (TA a eq_refl x y) as (y0 & F0 & _ & L0); [lra|auto|]. exists a, y0. split; [split; intros v V; injection V as <-; lra|]. split; auto. lra.
        + destruct (TB b eq_refl x y) as (y0 & F0 & _ & L0); [lra|auto|]. exists b, y0. split; [split; intros v V; injection V as <-; lra|]. split; auto. lra.
        + exists x, y. split; [split; intros v V; injection V as <-; lra|]. split; auto. lra.
      - destruct (Rlt_le_dec x a) as [X|X].
        + destruct (TA a eq_refl x y) as (y0 & F0 & _ & L0); [lra|auto|]. exists a, y0. split; [split; intros v V; try discriminate; injection V as <-; lra|]. split; auto. lra.
        + exists x, y. split; [split; intros v V; try discriminate; injection V as <-; lra|]. split; auto. lra.
      - destruct (Rlt_le_dec b x) as [X'|X'].
        + destruct (TB b eq_refl x y) as (y0 & F0 & _ & L0); [lra|auto|]. exists b, y0. split; [split; intros v V; try discriminate; injection V as <-; lra|]. split; auto. lra.
        + exists x, y. split; [split; intros v V; try discriminate; injection V as <-; lra|]. split; auto. lra.
      - exists x, y. split; [split; intros v V; discriminate|]. split; auto. lra. }
    destruct (direct 0 p) as [[x y]|].
    - apply S1. destruct D as (_ & F & M). split; auto. intros x' y' F'. destruct (IN x' y' F') as (x'' & y'' & B & F'' & L). specialize (M x'' y'' B F''). lra.
    - intros x y F. destruct S2 as (S2 & _). destruct S2 as (x' & y' & F'); [eauto|]. destruct (IN x' y' F') as (x'' & y'' & B & F'' & L). now apply (D x'' y'' B).
  Qed.

  Lemma domi_ne s d xm (a b : list cell) : domi s d xm a b -> a <> [] -> b <> [].
  Proof. intros (_ & D) N. destruct a as [|c a]; [congruence|]. destruct (D c (or_introl eq_refl)) as (c' & I & _). intros ->. destruct I. Qed.
  Lemma domi_bpos (ul ul' ll ll' : list cell) d xm (b : option R) : d = 1 \/ d = -1 -> domi 1 d xm ul ul' -> domi (-1) d xm ll ll' ->
    ((exists c', In c' ll /\ 0 < d * cm c') \/ (exists c' c'', In c' ul /\ In c'' ll /\ d * cm c' < d * cm c'')) ->
    b <> None \/ (exists c', In c' ll' /\ 0 < d * cm c') \/ exists c' c'', In c' ul' /\ In c'' ll' /\ d * cm c' < d * cm c''.
  Proof.
    intros DD (_ & DU) (_ & DL) [(c & I & P)|(c & c' & I & I' & P)]; right.
    - left. destruct (DL c I) as (k & K & M & _). exists k. split; auto. lra.
    - right. destruct (DU c I) as (k & K & M & _). destruct (DL c' I') as (k' & K' & M' & _). exists k, k'. split; auto. split; auto. lra.
  Qed.
  Lemma toward_ext (ul ul' ll ll' : list cell) d v : (forall x y, feas ul ll x y <-> feas ul' ll' x y) -> toward d ul ll v -> toward d ul' ll' v.
  Proof. intros E TW x y X F. apply E in F. destruct (TW x y X F) as (y0 & F0 & M & L). exists y0. split; [now apply E|]. split; auto. intros y' F'. apply M. now apply E. Qed.

  (** replacing the sides by ones with the same feasible points *)
  Lemma inv_sides p us ls : inv p -> wf us -> wf ls -> (forall d xm, domi 1 d xm (u p) (lst us)) -> (forall d xm, domi (-1) d xm (l p) (lst ls)) ->
    inv (set_sides p (xmin p) (xmax p) us ls).
  Proof.
    intros [WU WL NE SM TA TB BP BN] Wu Wl DU DL. pose proof (same_all _ _ _ _ DU DL) as E. constructor; cbn [set_sides up lo xmin xmax]; auto.
    - eapply domi_ne; [apply (DL 0 0)|auto].
    - eapply same_trans; [exact SM|]. now apply feas_same.
    - intros v V. eapply toward_ext; [exact E|auto].
    - intros v V. eapply toward_ext; [exact E|auto].
    - destruct BP as [BP|BP]; [now left|]. eapply (domi_bpos (u p) (lst us) (l p) (lst ls) 1 0); auto.
    - destruct BN as [BN|BN]; [now left|]. eapply (domi_bpos (u p) (lst us) (l p) (lst ls) (-1) 0); auto.
  Qed.

  (** one step *)
  Lemma toward_keep d d' (ul ul' ll ll' : list cell) xm v : (d = 1 /\ d' = -1) \/ (d = -1 /\ d' = 1) ->
    domi 1 d xm ul ul' -> domi (-1) d xm ll ll' -> decd d ul ll xm -> toward d' ul ll v -> toward d' ul' ll' v.
  Proof.
    intros DD DU DL DE TW.
    assert (D1 : d = 1 \/ d = -1) by tauto. pose proof (decd_toward d ul ll xm D1 DE) as TD.
    pose proof (decd_toward d ul' ll' xm D1 (decd_domi _ _ _ _ _ _ DU DL DE)) as TD'.
    destruct (same_step d ul ul' ll ll' xm D1 DU DL DE) as (_ & SF).
    intros x y X F.
    destruct (Rle_lt_dec 0 (d * (v - xm))) as [C|C].
    - (* v is on the side that is kept *)
      assert (Y : 0 <= d * (x - xm)) by (destruct DD as [(-> & ->)|(-> & ->)]; lra).
      assert (F0 : feas ul ll x y) by (eapply domi_feas; eauto). destruct (TW x y X F0) as (y0 & Fv & Mv & Lv).
      exists y0. split; [eapply incl_feas; [apply DU|apply DL|exact Fv]|]. split; auto. intros y' F'. apply Mv. eapply domi_feas; eauto.
    - exfalso. destruct SF as (_ & SF). destruct SF as (x1 & y1 & F1); [eauto|]. destruct DD as [(-> & ->)|(-> & ->)].
      + apply (cross_infeasible ul ll xm v x1 y1); auto. lra.
      + apply (cross_infeasible ul ll v xm x1 y1); auto. lra.
  Qed.

  Lemma inv_smaller p xm : inv p -> decd 1 (u p) (l p) xm -> inv (discard_smaller p xm) /\
    (length (u (discard_smaller p xm)) <= length (u p))%nat /\ (length (l (discard_smaller p xm)) <= length (l p))%nat /\
    ((exists q, In q (prs (up p) ++ prs (lo p)) /\ px q = xm) -> (length (u (discard_smaller p xm)) + length (l (discard_smaller p xm)) < length (u p) + length (l p))%nat).
  Proof.
    intros [WU WL NE SM TA TB BP BN] DE. unfold discard_smaller, set_sides; cbn [up lo xmin xmax].
    destruct (discard_ok 1 1 greater greater xm (or_introl eq_refl)) with (sd := up p) as (Wu & DU & LU & LU'); auto.
    { intros x y. rewrite greater_cmp. lra. }
    { intros m m'. unfold greater. rs. destruct (Rltb_spec m' m); lra. }
    destruct (discard_ok (-1) 1 greater less xm (or_introl eq_refl)) with (sd := lo p) as (Wl & DL & LL & LL'); auto.
    { intros x y. rewrite greater_cmp. lra. }
    { intros m m'. unfold less. rs. destruct (Rltb_spec m m'); lra. }
    split; [|split; [auto|split; [auto|]]].
    - constructor; cbn [up lo xmin xmax]; auto.
      + eapply domi_ne; eauto.
      + eapply same_trans; [exact SM|]. eapply (same_step 1); eauto.
      + intros v V. injection V as <-. apply decd_toward; auto. eapply decd_domi; eauto.
      + intros v V. eapply (toward_keep 1 (-1)); eauto.
      + destruct BP as [BP|BP]; [now left|]. eapply (domi_bpos (u p) _ (l p) _ 1 xm); eauto.
      + left. discriminate.
    - intros (q & I & X). apply in_app_iff in I. destruct I as [I|I].
      + assert (K : exists q, In q (prs (up p)) /\ px q = xm) by eauto. specialize (LU' K). lia.
      + assert (K : exists q, In q (prs (lo p)) /\ px q = xm) by eauto. specialize (LL' K). lia.
  Qed.
  Lemma inv_greater p xm : inv p -> decd (-1) (u p) (l p) xm -> inv (discard_greater p xm) /\
    (length (u (discard_greater p xm)) <= length (u p))%nat /\ (length (l (discard_greater p xm)) <= length (l p))%nat /\
    ((exists q, In q (prs (up p) ++ prs (lo p)) /\ px q = xm) -> (length (u (discard_greater p xm)) + length (l (discard_greater p xm)) < length (u p) + length (l p))%nat).
  Proof.
    intros [WU WL NE SM TA TB BP BN] DE. unfold discard_greater, set_sides; cbn [up lo xmin xmax].
    destruct (discard_ok 1 (-1) less less xm (or_intror eq_refl)) with (sd := up p) as (Wu & DU & LU & LU'); auto.
    { intros x y. rewrite less_cmp. lra. }
    { intros m m'. unfold less. rs. destruct (Rltb_spec m m'); lra. }
    destruct (discard_ok (-1) (-1) less greater xm (or_intror eq_refl)) with (sd := lo p) as (Wl & DL & LL & LL'); auto.
    { intros x y. rewrite less_cmp. lra. }
    { intros m m'. unfold greater. rs. destruct (Rltb_spec m' m); lra. }
    split; [|split; [auto|split; [auto|]]].
    - constructor; cbn [up lo xmin xmax]; auto.
      + eapply domi_ne; eauto.
      + eapply same_trans; [exact SM|]. eapply (same_step (-1)); eauto.
      + intros v V. eapply (toward_keep (-1) 1); eauto.
      + intros v V. injection V as <-. apply decd_toward; auto. eapply decd_domi; eauto.
      + left. discriminate.
      + destruct BN as [BN|BN]; [now left|]. eapply (domi_bpos (u p) _ (l p) _ (-1) xm); eauto.
    - intros (q & I & X). apply in_app_iff in I. destruct I as [I|I].
      + assert (K : exists q, In q (prs (up p)) /\ px q = xm) by eauto. specialize (LU' K). lia.
      + assert (K : exists q, In q (prs (lo p)) /\ px q = xm) by eauto. specialize (LL' K). lia.
  Qed.

  Lemma wf_perm (s : side) ps : wf s -> Permutation (prs s) ps -> wf (Side (lst s) (pool s) ps).
  Proof.
    intros (A & B & C) P. split; [exact A|]. split; cbn [lst pool prs].
    - eapply perm_trans; [exact B|]. apply Permutation_app_head. unfold flat. now apply Permutation_flat_map.
    - eapply Permutation_Forall; eauto.
  Qed.
  Lemma domi_length s d xm (s1 s2 : list cell) : NoDup (map cid s2) -> domi s d xm s1 s2 -> (length s2 <= length s1)%nat.
  Proof. intros N (I & _). apply NoDup_incl_length; auto. eapply NoDup_map_inv; eauto. Qed.

  Definition answer_ok (a : @answer R) (p : lp) : Prop :=
    match a with
    | Found x1 x2 cost => sol u0 l0 x1 cost /\ x2 = xy_to_x2 p x1 cost
    | Unsolvable => forall x y, ~ feas u0 l0 x y
    | _ => False
    end.
  Lemma direct_answer p : inv p -> answer_ok (solve_direct_part 0 p) p.
  Proof.
    intros I. pose proof (direct_inv p I) as D. unfold solve_direct_part. destruct (direct 0 p) as [[x y]|]; cbn; auto.
  Qed.

  Lemma region_ok p : inv p -> exists c q, update_xregion 0 median p = Ok (c, q) /\ inv q /\ c1 q = c1 p /\ c2 q = c2 p
    /\ (length (u q) + length (l q) <= length (u p) + length (l p))%nat
    /\ match c with
       | Invalid => True
       | UpdateXMin xm => decd 1 (u q) (l q) xm /\ exists m, In m (prs (up q) ++ prs (lo q)) /\ px m = xm
       | UpdateXMax xm => decd (-1) (u q) (l q) xm /\ exists m, In m (prs (up q) ++ prs (lo q)) /\ px m = xm
       | UnsolvableCode => forall x' y', ~ feas u0 l0 x' y'
       | FoundOptimum x' y' => sol u0 l0 x' y'
       end.
  Proof.
    intros I. pose proof I as [WU WL NE SM TA TB BP BN]. unfold update_xregion.
    destruct (pair_create_ok 1 greater) with (fuel := length (pool (up p))) (sd := up p) as (us & -> & Wu & Lu & DU); auto.
    { intros x y. unfold greater. rs. destruct (Rltb_spec y x); lra. }
    destruct (pair_create_ok (-1) less) with (fuel := length (pool (lo p))) (sd := lo p) as (ls & -> & Wl & Ll & DL); auto.
    { intros x y. unfold less. rs. destruct (Rltb_spec x y); lra. }
    cbn [bind].
    assert (LEN : (length (lst us) + length (lst ls) <= length (u p) + length (l p))%nat).
    { pose proof (domi_length _ _ _ _ _ (proj1 Wu) (DU 0 0)). pose proof (domi_length _ _ _ _ _ (proj1 Wl) (DL 0 0)). lia. }
    assert (STEP : forall q m, inv q -> In m (prs (up q) ++ prs (lo q)) -> match decide 0 q (px m) with
       | Invalid => True
       | UpdateXMin xm => decd 1 (u q) (l q) xm /\ exists m, In m (prs (up q) ++ prs (lo q)) /\ px m = xm
       | UpdateXMax xm => decd (-1) (u q) (l q) xm /\ exists m, In m (prs (up q) ++ prs (lo q)) /\ px m = xm
       | UnsolvableCode => forall x' y', ~ feas u0 l0 x' y'
       | FoundOptimum x' y' => sol u0 l0 x' y'
       end).
    { intros q m Iq Im. pose proof (decide_spec q (px m) (i_ne _ Iq)) as D. destruct (i_same _ Iq) as (S1 & S2). destruct (decide 0 q (px m)); auto.
      - destruct D as (-> & D). split; eauto.
      - destruct D as (-> & D). split; eauto.
      - intros x y F. destruct S2 as (S2 & _). destruct S2 as (x' & y' & F'); eauto. now apply (D x' y').
      - now apply S1. }
    destruct MED as (M0 & M1).
    destruct (median (prs ls)) as [[m pl]|] eqn:EL.
    - destruct (prs ls) as [|z zs] eqn:EP; [rewrite M0 in EL; discriminate|]. rewrite <- EP in EL. destruct (M1 (prs ls)) as (m' & pl' & E & IM & PM); [rewrite EP; discriminate|].
      rewrite EL in E. injection E as <- <-.
      set (q := set_sides p (xmin p) (xmax p) us (Side (lst ls) (pool ls) pl)).
      assert (Iq : inv q) by (apply inv_sides; auto; apply wf_perm; auto).
      exists (decide 0 q (px m)), q. split; [reflexivity|]. split; auto. split; [reflexivity|]. split; [reflexivity|]. split; [exact LEN|].
      apply STEP; auto. apply in_app_iff. right. cbn. now apply (Permutation_in _ PM).
    - destruct (median (prs us)) as [[m pu]|] eqn:EU.
      + destruct (prs us) as [|z zs] eqn:EP; [rewrite M0 in EU; discriminate|]. rewrite <- EP in EU. destruct (M1 (prs us)) as (m' & pl' & E & IM & PM); [rewrite EP; discriminate|].
        rewrite EU in E. injection E as <- <-.
        set (q := set_sides p (xmin p) (xmax p) (Side (lst us) (pool us) pu) ls).
        assert (Iq : inv q) by (apply inv_sides; auto; apply wf_perm; auto).
        exists (decide 0 q (px m)), q. split; [reflexivity|]. split; auto. split; [reflexivity|]. split; [reflexivity|]. split; [exact LEN|].
        apply STEP; auto. apply in_app_iff. left. cbn. now apply (Permutation_in _ PM).
      + eexists _, _. split; [reflexivity|]. split; [apply inv_sides; auto|]. split; [reflexivity|]. split; [reflexivity|]. split; [exact LEN|]. exact Logic.I.
  Qed.

  Lemma loop_ok : forall fuel p, inv p -> (length (u p) + length (l p) <= fuel)%nat ->
    exists a q, solve_loop 0 median fuel p = Ok (a, q) /\ answer_ok a q /\ c1 q = c1 p /\ c2 q = c2 p.
  Proof.
    induction fuel as [|fuel IH]; intros p I Hl; cbn [solve_loop].
    - destruct (length (u p) + length (l p) <=? 4)%nat eqn:E; [|apply Nat.leb_gt in E; lia].
      eexists _, _. split; [reflexivity|]. split; [now apply direct_answer|auto].
    - destruct (length (u p) + length (l p) <=? 4)%nat eqn:E.
      + eexists _, _. split; [reflexivity|]. split; [now apply direct_answer|auto].
      + destruct (region_ok p I) as (c & q & -> & Iq & C1 & C2 & LEN & K). cbn [bind]. destruct c as [|xm|xm| |x y].
        * eexists _, _. split; [reflexivity|]. split; [now apply direct_answer|auto].
        * destruct K as (DE & M). destruct (inv_smaller q xm Iq DE) as (I' & _ & _ & LT). specialize (LT M).
          destruct (IH (discard_smaller q xm) I') as (a & q' & E' & A & C1' & C2'); [lia|]. exists a, q'. cbn in C1', C2'. split; auto. split; auto. split; congruence.
        * destruct K as (DE & M). destruct (inv_greater q xm Iq DE) as (I' & _ & _ & LT). specialize (LT M).
          destruct (IH (discard_greater q xm) I') as (a & q' & E' & A & C1' & C2'); [lia|]. exists a, q'. cbn in C1', C2'. split; auto. split; auto. split; congruence.
        * eexists _, _. split; [reflexivity|]. auto.
        * eexists _, _. split; [reflexivity|]. split; [|auto]. cbn. auto.
  Qed.
End Loop.
