(** The geometry of two-variable linear programs in the coordinates x, y: convex lower and concave upper boundary. *)
From Coq Require Import Reals Lra Permutation.
From Verif Require Import Prelude Scalar RealLib Complex_Model Mega_Model.
Local Open Scope R_scope.
Local Notation cell := (@cell R).
Local Notation pair := (@pair R).

(** the height of the line at x *)
Definition ht (c : cell) (x : R) : R := cm c * x + cy0 c.
Lemma cval_ht (c : cell) x : cval c x = ht c x. Proof. reflexivity. Qed.

Definition feas (u l : list cell) (x y : R) : Prop := (forall c, In c u -> y <= ht c x) /\ (forall c, In c l -> ht c x <= y).
Definition inb (a b : option R) (x : R) : Prop := (forall v, a = Some v -> v <= x) /\ (forall v, b = Some v -> x <= v).
Definition sol (u l : list cell) (x y : R) : Prop := feas u l x y /\ forall x' y', feas u l x' y' -> y <= y'.

(** ** minimum of a finite set of reals *)
Lemma min_exists {A} (f : A -> R) : forall l : list A, l <> [] -> exists a, In a l /\ forall b, In b l -> f a <= f b.
Proof.
  induction l as [|a l IH]; [congruence|]. intros _. destruct l as [|b l].
  - exists a. split; [now left|]. intros b [<-|[]]. lra.
  - destruct IH as (c & I & M); [discriminate|]. destruct (Rle_lt_dec (f a) (f c)) as [H|H].
    + exists a. split; [now left|]. intros d [<-|D]; [lra|]. specialize (M d D). lra.
    + exists c. split; [now right|]. intros d [<-|D]; [lra|]. auto.
Qed.

(** ** values of the lists *)
Section Val.
  (** s = 1: upper boundary, cmp = less; s = -1: lower boundary, cmp = greater *)
  Variable s : R.
  Variable cmp : R -> R -> bool.
  Hypothesis CMP : forall x y, cmp x y = true <-> s * x < s * y.

  Lemma cmp_false x y : cmp x y = false -> s * y <= s * x.
  Proof. intros H. destruct (Rle_lt_dec (s * y) (s * x)); auto. apply CMP in r. congruence. Qed.

  Definition is_val (l : list cell) x v := (exists c, In c l /\ ht c x = v) /\ forall c, In c l -> s * v <= s * ht c x.

  Lemma fold_some : forall (l : list cell) x v, exists w, fold_left (fun val c => match val with
                            | None => Some (cval c x)
                            | Some v => if cmp (cval c x) v then Some (cval c x) else val
                            end) l (Some v) = Some w /\ (w = v \/ exists c, In c l /\ ht c x = w) /\ s * w <= s * v /\ forall c, In c l -> s * w <= s * ht c x.
  Proof.
    induction l as [|a l IH]; intros x v; cbn [fold_left].
    - exists v. split; auto. split; auto. split; [lra|]. intros c [].
    - rewrite cval_ht. destruct (cmp (ht a x) v) eqn:E.
      + destruct (IH x (ht a x)) as (w & E1 & O & Le & M). exists w. split; auto. apply CMP in E. split; [|split].
        * right. destruct O as [->|(c & I & H)]; [exists a; split; auto; now left|exists c; split; auto; now right].
        * lra.
        * intros c [<-|I]; auto.
      + destruct (IH x v) as (w & E1 & O & Le & M). exists w. split; auto. apply cmp_false in E. split; [|split].
        * destruct O as [->|(c & I & H)]; auto. right. exists c; split; auto; now right.
        * lra.
        * intros c [<-|I]; auto. lra.
  Qed.
  Lemma listval_spec (l : list cell) x : match listval l x cmp with None => l = [] | Some v => is_val l x v end.
  Proof.
    unfold listval. destruct (rev l) as [|a r] eqn:E; cbn [fold_left].
    - apply (f_equal (@rev _)) in E. rewrite rev_involutive in E. exact E.
    - destruct (fold_some r x (cval a x)) as (w & -> & O & Le & M). rewrite cval_ht in *.
      assert (I : forall c, In c l <-> a = c \/ In c r) by (intros c; rewrite in_rev, E; reflexivity). split.
      + destruct O as [->|(c & H & K)]; [exists a|exists c]; split; auto; apply I; auto.
      + intros c H. apply I in H. destruct H as [<-|H]; auto.
  Qed.

  Definition is_vg (l : list cell) x v mn mx := is_val l x v
    /\ (exists c, In c l /\ ht c x = v /\ cm c = mn) /\ (exists c, In c l /\ ht c x = v /\ cm c = mx)
    /\ forall c, In c l -> ht c x = v -> mn <= cm c <= mx.

  Lemma zEqual_0 (x y : R) : zEqual x y 0 = true <-> x = y.
  Proof.
    unfold zEqual, is_tol. rs. rewrite Rmult_0_l. destruct (Rleb_spec (Rabs (x - y)) 0) as [H|H].
    - split; auto. intros _. pose proof (Rabs_pos (x - y)). assert (E : Rabs (x - y) = 0) by lra.
      destruct (Req_dec (x - y) 0) as [K|K]; [lra|]. apply Rabs_no_R0 in K. contradiction.
    - split; [discriminate|]. intros ->. exfalso. apply H. rewrite Rminus_diag_eq, Rabs_R0; lra.
  Qed.

  Hypothesis S2 : s * s = 1.
  Lemma s_inj x y : s * x = s * y -> x = y.
  Proof. intros H. replace x with (s * (s * x)) by (rewrite <- Rmult_assoc, S2; ring). rewrite H. rewrite <- Rmult_assoc, S2. ring. Qed.

  Lemma fold_vg : forall (l l0 : list cell) x v mn mx, is_vg l0 x v mn mx -> exists w mn' mx', fold_left (fun val c => match val with
                            | None => Some (cval c x, cm c, cm c)
                            | Some (v, mn, mx) =>
                                if zEqual (cval c x) v 0 then Some (v, if slt (cm c) mn then cm c else mn, if slt mx (cm c) then cm c else mx)
                                else if cmp (cval c x) v then Some (cval c x, cm c, cm c)
                                else val
                            end) l (Some (v, mn, mx)) = Some (w, mn', mx') /\ is_vg (rev l ++ l0) x w mn' mx'.
  Proof.
    induction l as [|a l IH]; intros l0 x v mn mx (((c0 & I0 & H0) & V2) & (c1 & I1 & H1 & M1) & (c2 & I2 & H2 & M2) & B); cbn [fold_left rev].
    - exists v, mn, mx. split; [reflexivity|]. cbn [app]. repeat split; eauto; apply B; auto.
    - rewrite cval_ht. rewrite <- app_assoc. cbn [app]. destruct (zEqual (ht a x) v 0) eqn:E.
      + apply zEqual_0 in E. apply IH. split; [|split; [|split]].
        * split; [exists c0; split; auto; now right|]. intros c [<-|I]; auto. rewrite E. lra.
        * rs. destruct (Rltb_spec (cm a) mn); [exists a|exists c1]; repeat split; auto; [now left|now right].
        * rs. destruct (Rltb_spec mx (cm a)); [exists a|exists c2]; repeat split; auto; [now left|now right].
        * intros c I H. rs. assert (mn <= mx) by (destruct (B c1 I1 H1); lra). destruct I as [<-|I].
          -- destruct (Rltb_spec (cm a) mn), (Rltb_spec mx (cm a)); lra.
          -- destruct (B c I H). destruct (Rltb_spec (cm a) mn), (Rltb_spec mx (cm a)); lra.
      + assert (N : ht a x <> v) by (intros K; apply zEqual_0 in K; congruence). destruct (cmp (ht a x) v) eqn:F.
        * apply CMP in F. apply IH. split; [|split; [|split]].
          -- split; [exists a; split; auto; now left|]. intros c [<-|I]; [lra|]. specialize (V2 c I). lra.
          -- exists a. repeat split; auto. now left.
          -- exists a. repeat split; auto. now left.
          -- intros c [<-|I] H; [lra|]. specialize (V2 c I). rewrite H in V2. lra.
        * apply cmp_false in F. apply IH. split; [|split; [|split]].
          -- split; [exists c0; split; auto; now right|]. intros c [<-|I]; auto.
          -- exists c1. repeat split; auto. now right.
          -- exists c2. repeat split; auto. now right.
          -- intros c [<-|I] H; [contradiction|]. auto.
  Qed.
  Lemma vg_ext l l' x v mn mx : (forall c, In c l <-> In c l') -> is_vg l x v mn mx -> is_vg l' x v mn mx.
  Proof.
    intros E (((c0 & I0 & H0) & V2) & (c1 & I1 & H1 & M1) & (c2 & I2 & H2 & M2) & B). repeat split.
    - exists c0. split; auto. now apply E.
    - intros c I. apply V2. now apply E.
    - exists c1. repeat split; auto. now apply E.
    - exists c2. repeat split; auto. now apply E.
    - apply B; auto. now apply E.
    - apply B; auto. now apply E.
  Qed.
  Lemma listvalgrad_spec (l : list cell) x : match listvalgrad 0 l x cmp with None => l = [] | Some (v, mn, mx) => is_vg l x v mn mx end.
  Proof.
    unfold listvalgrad. destruct (rev l) as [|a r] eqn:E; cbn [fold_left].
    - apply (f_equal (@rev _)) in E. rewrite rev_involutive in E. exact E.
    - destruct (fold_vg r [a] x (cval a x) (cm a) (cm a)) as (w & mn & mx & E1 & V).
      + rewrite cval_ht. repeat split.
        * exists a. split; [now left|auto].
        * intros c [<-|[]]. lra.
        * exists a. split; [now left|auto].
        * exists a. split; [now left|auto].
        * destruct H as [<-|[]]. lra.
        * destruct H as [<-|[]]. lra.
      + match goal with |- match ?t with _ => _ end => change t with (fold_left (fun (val : option (R * R * R)) c => match val with
                            | None => Some (cval c x, cm c, cm c)
                            | Some (v, mn, mx) =>
                                if zEqual (cval c x) v 0 then Some (v, if slt (cm c) mn then cm c else mn, if slt mx (cm c) then cm c else mx)
                                else if cmp (cval c x) v then Some (cval c x, cm c, cm c)
                                else val
                            end) r (Some (cval a x, cm a, cm a))) end.
        rewrite E1. eapply vg_ext; [|exact V]. intros c. rewrite (in_rev l c), E, in_app_iff, <- in_rev. cbn. tauto.
  Qed.
End Val.

Lemma less_cmp x y : less x y = true <-> 1 * x < 1 * y.
Proof. unfold less. rs. destruct (Rltb_spec x y); split; intros; try discriminate; auto; lra. Qed.
Lemma greater_cmp x y : greater x y = true <-> -1 * x < -1 * y.
Proof. unfold greater. rs. destruct (Rltb_spec y x); split; intros; try discriminate; auto; lra. Qed.

(** ** walking along the lower boundary to a vertex *)
Section Walk.
  (** d = 1: to the right, d = -1: to the left; e is the bound of x in that direction *)
  Variable d : R.
  Hypothesis D : d = 1 \/ d = -1.

  Definition cross (a b : cell) : R := - (cy0 a - cy0 b) / (cm a - cm b).
  Lemma cross_ht a b : cm a <> cm b -> ht a (cross a b) = ht b (cross a b).
  Proof. intros H. unfold ht, cross. field. lra. Qed.

  Lemma walk u l x y c (e : option R) : feas u l x y -> (forall v, e = Some v -> d * x <= d * v) ->
    In c l -> ht c x = y -> d * cm c <= 0 ->
    (e <> None \/ (exists c', In c' l /\ 0 < d * cm c') \/ exists c' c'', In c' u /\ In c'' l /\ d * cm c' < d * cm c'') ->
    exists x', feas u l x' (ht c x') /\ ht c x' <= y /\ d * x <= d * x' /\ (forall v, e = Some v -> d * x' <= d * v)
      /\ ((exists c', In c' (u ++ l) /\ cm c' <> cm c /\ x' = cross c' c) \/ e = Some x').
  Proof.
    intros (FU & FL) EB IC HC MC K.
    set (blockers := filter (fun c' => if Rlt_dec (d * cm c') (d * cm c) then true else false) u ++ filter (fun c' => if Rlt_dec (d * cm c) (d * cm c') then true else false) l).
    set (xs := map (fun c' => cross c' c) blockers ++ match e with Some v => [v] | None => [] end).
    assert (Bin : forall c', In c' blockers <-> (In c' u /\ d * cm c' < d * cm c) \/ (In c' l /\ d * cm c < d * cm c')).
    { intros c'. unfold blockers. rewrite in_app_iff, !filter_In.
      destruct (Rlt_dec (d * cm c') (d * cm c)), (Rlt_dec (d * cm c) (d * cm c')); intuition discriminate. }
    assert (NE : xs <> []).
    { unfold xs. destruct e as [v|]; [destruct (map _ blockers); discriminate|].
      assert (NB : exists c', In c' blockers).
      { destruct K as [K|[(c' & I & P)|(c' & c'' & I' & I'' & P)]]; [congruence| |].
        - exists c'. apply Bin. right. split; auto. lra.
        - destruct (Rlt_le_dec (d * cm c) (d * cm c'')) as [Q|Q].
          + exists c''. apply Bin. auto.
          + exists c'. apply Bin. left. split; auto. lra. }
      destruct NB as (c' & I). intros Z. apply app_eq_nil in Z. destruct Z as (Z & _). apply map_eq_nil in Z. rewrite Z in I. destruct I. }
    (* every blocker is met at or after x *)
    assert (D2 : d * d = 1) by (destruct D; subst d; lra).
    assert (DN : forall p q, d * p <> d * q -> p <> q) by (intros p q H ->; contradiction).
    assert (AFT : forall c', In c' blockers -> cm c' <> cm c /\ d * x <= d * cross c' c).
    { intros c' I. apply Bin in I. assert (N : cm c' <> cm c) by (apply DN; destruct I as [(_ & P)|(_ & P)]; lra). split; auto.
      pose proof (cross_ht c' c N) as X. unfold ht in X. set (z := cross c' c) in *. clearbody z.
      destruct I as [(I & P)|(I & P)].
      - specialize (FU c' I). unfold ht in *. destruct D; subst d; nra.
      - specialize (FL c' I). unfold ht in *. destruct D; subst d; nra. }
    destruct (min_exists (fun z => d * z) xs NE) as (x' & IX & MX).
    assert (LX : d * x <= d * x').
    { unfold xs in IX. apply in_app_iff in IX. destruct IX as [IX|IX].
      - apply in_map_iff in IX. destruct IX as (c' & <- & I). apply AFT, I.
      - destruct e as [v|]; [|destruct IX]. destruct IX as [<-|[]]. auto. }
    assert (BEF : forall c', In c' blockers -> d * x' <= d * cross c' c).
    { intros c' I. apply MX. unfold xs. apply in_app_iff. left. apply in_map_iff. eauto. }
    exists x'. split; [|split; [|split; [|split]]]; auto.
    - split.
      + intros c' I. specialize (FU c' I). destruct (Rlt_le_dec (d * cm c') (d * cm c)) as [P|P].
        * assert (IB : In c' blockers) by (apply Bin; auto). specialize (BEF c' IB). destruct (AFT c' IB) as (N & A).
          pose proof (cross_ht c' c N) as X. unfold ht in *. set (z := cross c' c) in *. clearbody z. destruct D; subst d; nra.
        * unfold ht in *. destruct D; subst d; nra.
      + intros c' I. specialize (FL c' I). destruct (Rlt_le_dec (d * cm c) (d * cm c')) as [P|P].
        * assert (IB : In c' blockers) by (apply Bin; auto). specialize (BEF c' IB). destruct (AFT c' IB) as (N & A).
          pose proof (cross_ht c' c N) as X. unfold ht in *. set (z := cross c' c) in *. clearbody z. destruct D; subst d; nra.
        * unfold ht in *. destruct D; subst d; nra.
    - rewrite <- HC. unfold ht. destruct D; subst d; nra.
    - intros v ->. apply MX. unfold xs. apply in_app_iff. right. now left.
    - unfold xs in IX. apply in_app_iff in IX. destruct IX as [IX|IX].
      + left. apply in_map_iff in IX. destruct IX as (c' & <- & I). exists c'. destruct (AFT c' I). apply Bin in I. rewrite in_app_iff. intuition.
      + right. destruct e as [v|]; [|destruct IX]. destruct IX as [<-|[]]. reflexivity.
  Qed.
End Walk.

(** what the flags mean *)
Definition bpos (u l : list cell) (b : option R) : Prop :=
  b <> None \/ (exists c', In c' l /\ 0 < 1 * cm c') \/ exists c' c'', In c' u /\ In c'' l /\ 1 * cm c' < 1 * cm c''.
Definition bneg (u l : list cell) (a : option R) : Prop :=
  a <> None \/ (exists c', In c' l /\ 0 < -1 * cm c') \/ exists c' c'', In c' u /\ In c'' l /\ -1 * cm c' < -1 * cm c''.

(** from a feasible point to a vertex that is not higher *)
Lemma to_vertex u l a b x y : l <> [] -> bpos u l b -> bneg u l a -> feas u l x y -> inb a b x ->
  exists x' y', feas u l x' y' /\ inb a b x' /\ y' <= y /\
    ((exists c c', In c l /\ In c' (u ++ l) /\ cm c' <> cm c /\ x' = cross c' c /\ y' = ht c x')
     \/ ((a = Some x' \/ b = Some x') /\ exists c, In c l /\ ht c x' = y' /\ forall c', In c' l -> ht c' x' <= y')).
Proof.
  intros NL BP BN (FU & FL) (IA & IB).
  destruct (min_exists (fun c => - ht c x) l NL) as (c & IC & MC).
  assert (F' : feas u l x (ht c x)).
  { split; intros c' I.
    - specialize (FU c' I). specialize (FL c IC). lra.
    - specialize (MC c' I). cbn in MC. lra. }
  assert (LY : ht c x <= y) by (apply FL; auto).
  assert (W : exists x', feas u l x' (ht c x') /\ ht c x' <= ht c x /\ inb a b x' /\ ((exists c', In c' (u ++ l) /\ cm c' <> cm c /\ x' = cross c' c) \/ a = Some x' \/ b = Some x')).
  { destruct (Rle_lt_dec (cm c) 0) as [M|M].
    - destruct (walk 1 (or_introl eq_refl) u l x (ht c x) c b) as (x' & F & Le & X & E & O); auto; try lra.
      + intros v V. specialize (IB v V). lra.
      + exists x'. split; auto. split; auto. split.
        * split; [intros v V; specialize (IA v V); lra|intros v V; specialize (E v V); lra].
        * destruct O as [O|O]; auto.
    - destruct (walk (-1) (or_intror eq_refl) u l x (ht c x) c a) as (x' & F & Le & X & E & O); auto; try lra.
      + intros v V. specialize (IA v V). lra.
      + exists x'. split; auto. split; auto. split.
        * split; [intros v V; specialize (E v V); lra|intros v V; specialize (IB v V); lra].
        * destruct O as [O|O]; auto. }
  destruct W as (x' & F & Le & I & O). exists x', (ht c x'). split; auto. split; auto. split; [lra|].
  destruct O as [(c' & I' & N & X)|O].
  - left. exists c, c'. auto.
  - right. split; auto. exists c. split; auto. split; auto. intros c' I'. apply F, I'.
Qed.
