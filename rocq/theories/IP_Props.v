(** Interpolation between points: properties C33-C37 and C69. *)
From Coq Require Import Reals Lra Lia QArith PrimFloat.
From Verif Require Import Prelude Prelude_Proofs Scalar RealLib Fmat Fmat_Proofs LE_Model IP_Model IP_Spec IP_Proofs IP2_Proofs IP3_Proofs IP4_Proofs IP5_Proofs.
Local Open Scope R_scope.
Local Notation points := (list (R * fvec R)).

Definition qv (l : list Q) : fvec Q := vec_of 0%Q l.
(** an interpolator of m components: position and velocity as functions of time *)
Definition interpolates (s : points) (m : nat) (pos vel : R -> fvec R -> res (fvec R)) : Prop :=
  forall v, vlen v = m ->
  (forall t, answers (pos t v) m /\ answers (vel t v) m) /\
  forall j, (j < m)%nat ->
    (forall i, (i < length s)%nat -> comp (pos (knot s i) v) j = pt s i j) /\
    (forall t, derivable_pt_lim (fun t => comp (pos t v) j) t (comp (vel t v) j)) /\
    (forall t, continuity_pt (fun t => comp (vel t v) j) t).
Lemma apart0 e s : 0 <= e -> apart e s -> apart 0 s.
Proof. intros He A i Hi. specialize (A i Hi). lra. Qed.

(** ** C33 *)
Theorem C33_segment (s : points) m : (2 <= length s)%nat -> dim s m -> apart 0 s ->
  exists d, zIPDataAlloc s = Ok d /\ forall t, exists i, zIPDataSeg d t = Ok i /\
    (S i < length s)%nat /\ (i = 0%nat \/ knot s i <= t) /\ (S (S i) = length s \/ t < knot s (S i)).
Proof.
  intros Hn D A. destruct (alloc_ok s m) as (d & E & H); auto; [intros ->; cbn in Hn; lia|]. exists d. split; auto.
  intros t. destruct (seg_ok s m _ d 0 t H) as (i & Ei & Hi); auto; [lra|]. exists i. auto.
Qed.
(** for any numbers, even if times are out of order or not numbers *)
Theorem C33_in_bounds {T} {ST : Scalar T} (s : list (T * fvec T)) d t : (2 <= length s)%nat -> zIPDataAlloc s = Ok d ->
  exists i, zIPDataSeg d t = Ok i /\ (S i < length s)%nat.
Proof.
  intros Hn E. assert (L : vlen (ip_t d) = length s /\ zIPDataSize d = length s).
  { destruct s as [|c r]; [discriminate|]. cbn [zIPDataAlloc] in E. inversion E. unfold zIPDataSize. cbn. rewrite ?length_times. auto. }
  destruct L as [L1 L2]. destruct (seg_safe d t) as (i & Ei & _ & Hi); [congruence|lia|]. exists i. split; auto. rewrite <- L2. apply Hi. lia.
Qed.

(** ** C34 *)
(** an inner time belongs to one segment or is the end of it *)
Lemma seg_inner s e i t : 0 <= e -> apart e s -> (S i < length s)%nat -> knot s i <= t < knot s (S i) -> in_seg s t i.
Proof. intros He A Hi Ht. split; auto. split; right; lra. Qed.
Lemma seg_knot s e i : 0 <= e -> apart e s -> (S i < length s)%nat -> in_seg s (knot s i) i.
Proof. intros He A Hi. split; auto. split; [right; lra|]. right. eapply knot_lt; eauto; lia. Qed.
Lemma seg_last s e i : 0 <= e -> apart e s -> S (S i) = length s -> in_seg s (knot s (S i)) i.
Proof. intros He A Hi. split; [lia|]. split; [right|left; auto]. left. eapply knot_lt; eauto; lia. Qed.
Lemma slope_end s e i j : 0 <= e -> apart e s -> (S i < length s)%nat -> pt s i j + slope s i j * (knot s (S i) - knot s i) = pt s (S i) j.
Proof. intros He A Hi. assert (knot s i < knot s (S i)) by (eapply knot_lt; eauto; lia). unfold slope. field. lra. Qed.
(** points further apart in time than the tolerance; see [C34_close_refuted] *)
Theorem C34_linear_partial (tol : R) (s : points) m : (2 <= length s)%nat -> dim s m -> 0 <= tol -> apart tol s ->
  exists d, zIPCreateLinear tol s = Ok d /\ forall v, vlen v = m ->
  (forall t, answers (zIPVecLinear d t v) m /\ answers (zIPVelLinear d t v) m) /\
  forall j, (j < m)%nat ->
    (forall i, (i < length s)%nat -> comp (zIPVecLinear d (knot s i) v) j = pt s i j) /\
    (forall i t, (S i < length s)%nat -> knot s i <= t <= knot s (S i) ->
       comp (zIPVecLinear d t v) j = pt s i j + (pt s (S i) j - pt s i j) / (knot s (S i) - knot s i) * (t - knot s i)) /\
    (forall i t, (S i < length s)%nat -> knot s i <= t < knot s (S i) ->
       comp (zIPVelLinear d t v) j = (pt s (S i) j - pt s i j) / (knot s (S i) - knot s i)) /\
    (forall t, continuity_pt (fun t => comp (zIPVecLinear d t v) j) t).
Proof.
  intros Hn D Ht A. destruct (linear_ok tol s m) as (d & E & Hd); auto; [intros ->; cbn in Hn; lia|]. exists d. split; auto. intros v Lv.
  assert (LV : forall t, exists i w u, in_seg s t i /\ zIPVecLinear d t v = Ok w /\ zIPVelLinear d t v = Ok u /\ vlen w = m /\ vlen u = m /\
    forall j, (j < m)%nat -> vel w j = pt s i j + slope s i j * (t - knot s i) /\ vel u j = slope s i j) by (intros t; eapply linear_vec; eauto).
  split.
  { intros t. destruct (LV t) as (i & w & u & _ & E1 & E2 & L1 & L2 & _). split; eexists; eauto. }
  intros j Hj.
  assert (P : forall t i, in_seg s t i -> comp (zIPVecLinear d t v) j = pt s i j + slope s i j * (t - knot s i)).
  { intros t i Hi. destruct (LV t) as (k & w & u & Hk & E1 & E2 & L1 & L2 & H). rewrite E1. cbn [comp]. rewrite (in_seg_fun s t tol i k); auto. apply H; auto. }
  assert (P2 : forall t i, in_seg s t i -> comp (zIPVelLinear d t v) j = slope s i j).
  { intros t i Hi. destruct (LV t) as (k & w & u & Hk & E1 & E2 & L1 & L2 & H). rewrite E2. cbn [comp]. rewrite (in_seg_fun s t tol i k); auto. apply H; auto. }
  assert (K : forall i, (i < length s)%nat -> comp (zIPVecLinear d (knot s i) v) j = pt s i j).
  { intros i Hi. destruct (Nat.eq_dec (S i) (length s)).
    - destruct i as [|i]; [lia|]. rewrite (P _ i) by (eapply seg_last; eauto). apply (slope_end s tol); auto; lia.
    - rewrite (P _ i) by (eapply seg_knot; eauto; lia). ring. }
  split; [auto|]. split; [|split].
  - intros i t Hi H. fold (slope s i j). destruct (Rlt_or_le t (knot s (S i))) as [L|L]; [apply P; eapply seg_inner; eauto; lra|].
    replace t with (knot s (S i)) by lra. rewrite K by lia. symmetry. eapply slope_end; eauto.
  - intros i t Hi H. fold (slope s i j). apply P2. eapply seg_inner; eauto.
  - intros t. destruct (LV t) as (i & w & u & Hi & _).
    apply (piece_continuous s tol Ht A Hn _ (fun i t => pt s i j + slope s i j * (t - knot s i)) P) with (i := i); auto.
    + intros k Hk. rewrite (slope_end s tol) by (auto; lia). ring.
    + intros k u' Hk. reg.
Qed.
(** two points closer in time than the tolerance: the velocity stays undivided and the second
    point is missed *)
Theorem C34_close_refuted : let s := [(0, qv [0]); (1 # 1024, qv [1])]%Q in
  match zIPCreateLinear (1 # 512)%Q s with
  | Ok d => match zIPVecLinear d (1 # 1024)%Q (qv [0%Q]) with Ok w => Qeq_bool (vel w 0) 1 = false | UB => False end
  | UB => False end.
Proof. reflexivity. Qed.

(** ** C35 *)
Theorem C35_lagrange (s : points) m : (1 <= length s)%nat -> dim s m -> (forall i j, (i < j < length s)%nat -> knot s i <> knot s j) ->
  exists d, zIPCreateLagrange s = Ok d /\ forall v, vlen v = m ->
  (forall t, answers (zIPVecLagrange d t v) m /\ answers (zIPVelLagrange d t v) m /\ answers (zIPAccLagrange d t v) m) /\
  forall j, (j < m)%nat ->
    (forall i, (i < length s)%nat -> comp (zIPVecLagrange d (knot s i) v) j = pt s i j) /\
    (forall c : nat -> R, (forall i, (i < length s)%nat -> pt s i j = rsum (length s) (fun k => c k * knot s i ^ k)) ->
       forall t, comp (zIPVecLagrange d t v) j = rsum (length s) (fun k => c k * t ^ k)) /\
    (forall t, derivable_pt_lim (fun t => comp (zIPVecLagrange d t v) j) t (comp (zIPVelLagrange d t v) j)) /\
    (forall t, derivable_pt_lim (fun t => comp (zIPVelLagrange d t v) j) t (comp (zIPAccLagrange d t v) j)).
Proof.
  intros Hn D Di. destruct (lagrange_create s m D Hn Di) as (d & E & Hd). exists d. split; auto. intros v Lv.
  pose proof (lagrange_vec s m Hn Di d v Hd Lv) as P. pose proof (lagrange_vel s m D Hn Di d v Hd Lv) as Q. pose proof (lagrange_acc s m D Hn Di d v Hd Lv) as A.
  split.
  { intros t. destruct (P t) as (w & E1 & L1 & _), (Q t) as (w2 & E2 & L2 & _), (A t) as (w3 & E3 & L3 & _). repeat split; eexists; eauto. }
  intros j Hj.
  assert (P' : forall t, comp (zIPVecLagrange d t v) j = lval s j t) by (intros t; destruct (P t) as (w & -> & _ & H); cbn [comp]; rewrite H; auto).
  assert (Q' : forall t, comp (zIPVelLagrange d t v) j = rsum (length s) (fun i => lva s i j * rsum (length s) (fun k => if (k =? i)%nat then 0 else P2 s t i k))) by (intros t; destruct (Q t) as (w & -> & _ & H); cbn [comp]; rewrite H; auto).
  assert (A' : forall t, comp (zIPAccLagrange d t v) j = rsum (length s) (fun i => lva s i j * rsum (length s) (fun k => if (k =? i)%nat then 0 else rsum (length s) (fun l => if (l =? i)%nat || (l =? k)%nat then 0 else P3 s t i k l)))) by (intros t; destruct (A t) as (w & -> & _ & H); cbn [comp]; rewrite H; auto).
  split; [intros i Hi; rewrite P'; eapply lval_knot; eauto|]. split; [intros c Hc t; rewrite P'; eapply lval_unique; eauto|]. split; intros t.
  - eapply (local_derive (lval s j) _ _ _ 1); [lra|intros; apply P'|]. rewrite Q'. apply lval_lim.
  - eapply (local_derive _ _ _ _ 1); [lra|intros; apply Q'|]. rewrite A'. apply lvel_lim.
Qed.

(** ** C36 *)
(** Shown here but for the condition of a free end at the last point; see [C36_free_end_refuted]. *)
Theorem C36_spline_partial (s : points) m e1 e2 : (2 <= length s)%nat -> dim s m -> apart 0 s ->
  match e1 with FixEdge v => vlen v = m | FreeEdge => True | BadEdge => False end ->
  match e2 with FixEdge v => vlen v = m | FreeEdge => True | BadEdge => False end ->
  match e1, e2 with FreeEdge, FreeEdge => (3 <= length s)%nat | _, _ => True end ->
  exists d, zIPCreateSpline s e1 e2 = Ok (Some d) /\ interpolates s m (zIPVecSpline d) (zIPVelSpline d) /\ forall v, vlen v = m ->
  (forall t, answers (zIPAccSpline d t v) m) /\
  forall j, (j < m)%nat ->
    (forall t, derivable_pt_lim (fun t => comp (zIPVelSpline d t v) j) t (comp (zIPAccSpline d t v) j)) /\
    (forall t, continuity_pt (fun t => comp (zIPAccSpline d t v) j) t) /\
    match e1 with FixEdge w => comp (zIPVelSpline d (knot s 0) v) j = vel w j | _ => comp (zIPAccSpline d (knot s 0) v) j = 0 end /\
    match e2 with FixEdge w => comp (zIPVelSpline d (knot s (length s - 1)) v) j = vel w j | _ => True end.
Proof.
  intros Hn D A H1 H2 H12. assert (S12 : solvable s e1 e2) by (destruct e1, e2; exact H12). destruct (spline_create s m A D Hn e1 e2 H1 H2 S12) as (d & V & E & Hd & Rw). exists d. split; auto.
  assert (Z0 : 0 <= 0) by lra.
  assert (W : forall v, vlen v = m -> (forall t, answers (zIPVecSpline d t v) m /\ answers (zIPVelSpline d t v) m /\ answers (zIPAccSpline d t v) m) /\
    (forall j t i, (j < m)%nat -> in_seg s t i -> comp (zIPVecSpline d t v) j = hp s V herm i j t /\ comp (zIPVelSpline d t v) j = hp s V hermd i j t /\ comp (zIPAccSpline d t v) j = hp s V hermdd i j t)).
  { intros v Lv. assert (Q : forall t, exists i w u a, in_seg s t i /\ zIPVecSpline d t v = Ok w /\ zIPVelSpline d t v = Ok u /\ zIPAccSpline d t v = Ok a /\ vlen w = m /\ vlen u = m /\ vlen a = m /\
      forall j, (j < m)%nat -> vel w j = hp s V herm i j t /\ vel u j = hp s V hermd i j t /\ vel a j = hp s V hermdd i j t).
    { intros t. destruct (spline_vec s m V d 0 Hd D Z0 A Hn t v Lv) as (i & w & Hi & Ew & Lw & Vw). destruct (spline_vel s m V d 0 Hd D Z0 A Hn t v Lv) as (i' & u & Hi' & Eu & Lu & Vu).
      destruct (spline_acc s m V d 0 Hd D Z0 A Hn t v Lv) as (i'' & a & Hi'' & Ea & La & Va).
      assert (i' = i) by (eapply in_seg_fun; eauto). assert (i'' = i) by (eapply in_seg_fun; eauto). subst i' i''. exists i, w, u, a. repeat split; auto. all: apply Hi. }
    split.
    - intros t. destruct (Q t) as (i & w & u & a & _ & E1 & E2 & E3 & L1 & L2 & L3 & _). repeat split; eexists; eauto.
    - intros j t i Hj Hi. destruct (Q t) as (k & w & u & a & Hk & -> & -> & -> & L1 & L2 & L3 & H). cbn [comp]. assert (k = i) by (eapply in_seg_fun; eauto). subst k. auto. }
  assert (Hc : forall v j, vlen v = m -> (j < m)%nat -> (forall i, (i < length s)%nat -> comp (zIPVecSpline d (knot s i) v) j = pt s i j /\ comp (zIPVelSpline d (knot s i) v) j = V i j) /\
    (forall t, derivable_pt_lim (fun t => comp (zIPVecSpline d t v) j) t (comp (zIPVelSpline d t v) j)) /\ (forall t, continuity_pt (fun t => comp (zIPVelSpline d t v) j) t)).
  { intros v j Lv Hj. apply (hermite_curve s m V d 0 Hd Z0 A Hn (fun t => comp (zIPVecSpline d t v) j) (fun t => comp (zIPVelSpline d t v) j) j).
    - intros t i Hi. apply (proj2 (W v Lv)); auto. - intros t i Hi. apply (proj2 (W v Lv)); auto. }
  split.
  { intros v Lv. split; [intros t; destruct (proj1 (W v Lv) t) as (? & ? & ?); auto|]. intros j Hj. destruct (Hc v j Lv Hj) as (C1 & C2 & C3). split; auto. intros i Hi. apply C1. auto. }
  intros v Lv. split; [intros t; apply (proj1 (W v Lv) t)|]. intros j Hj. destruct (Hc v j Lv Hj) as (C1 & C2 & C3).
  assert (SG : forall t, exists i, in_seg s t i) by (intros t; destruct (seg_ok _ _ _ _ _ t Hd Z0 A Hn) as (i & _ & Hi); eauto).
  assert (J1 : forall i, (S (S i) < length s)%nat -> hp s V hermd i j (knot s (S i)) = hp s V hermd (S i) j (knot s (S i))) by (intros i Hi; eapply hp_join; eauto).
  assert (J2 : forall i, (S (S i) < length s)%nat -> hp s V hermdd i j (knot s (S i)) = hp s V hermdd (S i) j (knot s (S i))).
  { intros i Hi. unfold hp. replace (knot s (S i) - knot s i) with (gap s (S i)) by (rewrite knot_S; ring). rewrite Rminus_diag_eq by reflexivity. apply (rows_join s A Hn e1 e2 j (fun k => V k j)); auto. }
  split; [|split; [|split]].
  - intros t. destruct (SG t) as (i & Hi). destruct (proj2 (W v Lv) j t i Hj Hi) as (_ & _ & ->).
    apply (piece_derive s 0 Z0 A Hn (fun t => comp (zIPVelSpline d t v) j) (fun i t => hp s V hermd i j t)) with (D := fun i t => hp s V hermdd i j t); auto.
    + intros u k Hk. apply (proj2 (W v Lv) j u k Hj Hk). + intros k u Hk. apply hermd_lim.
  - intros t. destruct (SG t) as (i & Hi). apply (piece_continuous s 0 Z0 A Hn (fun t => comp (zIPAccSpline d t v) j) (fun i t => hp s V hermdd i j t)) with (i := i); auto.
    + intros u k Hk. apply (proj2 (W v Lv) j u k Hj Hk). + intros k u Hk. unfold hp, hermdd. reg.
  - pose proof (rows_first s m A Hn e1 e2 j (fun k => V k j) (Rw j Hj) H1) as RF. destruct e1 as [w| |]; [rewrite (proj2 (C1 0%nat ltac:(lia))); auto| |contradiction].
    assert (I0 : in_seg s (knot s 0) 0) by (eapply seg_knot; eauto; lia). destruct (proj2 (W v Lv) j _ 0%nat Hj I0) as (_ & _ & ->). unfold hp. rewrite Rminus_diag_eq by reflexivity. exact RF.
  - destruct e2 as [w| |]; auto. rewrite (proj2 (C1 (length s - 1)%nat ltac:(lia))). apply (rows_last s Hn e1 w j (fun k => V k j)). auto.
Qed.
(** an unknown end type is refused *)
Theorem C36_bad_edge {T} {ST : Scalar T} (s : list (T * fvec T)) (e : etype T) o : s <> [] -> (forall c, In c s -> (1 <= vlen (snd c))%nat) ->
  zIPCreateSpline s BadEdge e = Ok o \/ zIPCreateSpline s e BadEdge = Ok o -> o = None.
Proof.
  intros Ne Hx H. destruct s as [|x r]; [contradiction|]. specialize (Hx x (or_introl eq_refl)). revert H. unfold zIPCreateSpline. cbn [zIPDataAlloc bind].
  assert (G : forall (dat : ipdata T) n q e1 e2 z, e1 = BadEdge \/ e2 = BadEdge -> spline_eq dat n q e1 e2 = Ok z -> z = None).
  { intros dat n q e1 e2 z Hb. unfold spline_eq.
    match goal with |- context [for_ ?lo ?hi ?f ?s00] => destruct (for_ lo hi f s00) as [[[[a b] c] d]|] end; [|discriminate]. cbn [bind].
    destruct Hb as [-> | ->]; [cbn; congruence|].
    destruct e1; cbn [bind].
    - destruct (vset b 0 1%S) as [b'|]; [|discriminate]. cbn [bind]. destruct (vget v q) as [y|]; [|discriminate]. cbn [bind]. destruct (vset d 0 y) as [d'|]; [|discriminate]. cbn. congruence.
    - destruct (free_edge dat 1 q) as [[[p1 p2] p3]|]; [|discriminate]. cbn [bind]. destruct (vset b 0 p1) as [b'|]; [|discriminate]. cbn [bind]. destruct (vset c 0 p2) as [c'|]; [|discriminate]. cbn [bind]. destruct (vset d 0 p3) as [d'|]; [|discriminate]. cbn. congruence.
    - cbn. congruence. }
  match goal with |- context [zIPDataSecVec ?d 0] => set (dat := d); destruct (zIPDataSecVec dat 0) as [x0|] eqn:Ex end; [|intros [H|H]; discriminate]. cbn [bind].
  assert (vlen x0 = vlen (snd x)) as L by (unfold zIPDataSecVec, dat in Ex; cbn in Ex; inversion Ex; reflexivity).
  unfold forb. rewrite L. destruct (vlen (snd x)) as [|k]; [lia|]. cbn [Nat.sub loopb].
  intros [H|H];
  match type of H with context [spline_eq dat ?n 0 ?e1 ?e2] => destruct (spline_eq dat n 0 e1 e2) as [z|] eqn:Ez; [|cbn in H; discriminate] end.
  - rewrite (G _ _ _ _ _ _ (or_introl eq_refl) Ez) in H. cbn in H. congruence.
  - rewrite (G _ _ _ _ _ _ (or_intror eq_refl) Ez) in H. cbn in H. congruence.
Qed.
(** the cubic handed out for a segment is the curve there *)
Theorem C36_coefficients (s : points) m e1 e2 d i a b c e : (2 <= length s)%nat -> dim s m -> apart 0 s ->
  edge_ok m e1 -> edge_ok m e2 -> solvable s e1 e2 -> zIPCreateSpline s e1 e2 = Ok (Some d) -> (S i < length s)%nat ->
  vlen a = m -> vlen b = m -> vlen c = m -> vlen e = m ->
  exists a' b' c' e', zIPSplineCoeff d i a b c e = Ok (Some (a', b', c', e')) /\
  forall v j t, vlen v = m -> (j < m)%nat -> knot s i <= t < knot s (S i) -> let u := t - knot s i in
    comp (zIPVecSpline d t v) j = vel a' j * u ^ 3 + vel b' j * u ^ 2 + vel c' j * u + vel e' j.
Proof.
  intros Hn D A H1 H2 H12 E Hi La Lb Lc Le. destruct (spline_create s m A D Hn e1 e2 H1 H2 H12) as (d' & V & E' & Hd & _). rewrite E in E'. inversion E'; subst d'; clear E'.
  unfold zIPSplineCoeff. destruct (repr_va _ _ _ _ Hd 0) as (w & -> & Lw & _); [lia|]. cbn [bind]. rewrite Lw, La, Lb, Lc, Le, Nat.eqb_refl. cbn [andb negb].
  rewrite (repr_dt _ _ _ _ Hd) by lia. cbn [bind].
  destruct (repr_vec _ _ _ _ Hd D i) as (x0 & -> & L0 & E0); [lia|]. destruct (repr_vec _ _ _ _ Hd D (i + 1)) as (x1 & -> & L1 & E1); [lia|].
  destruct (repr_va _ _ _ _ Hd i) as (v0 & -> & Lv0 & Ev0); [lia|]. destruct (repr_va _ _ _ _ Hd (i + 1)) as (v1 & -> & Lv1 & Ev1); [lia|]. cbn [bind].
  unfold zVecSubC, zVecAddC, zVecCopyC, zVecSubNC, zVecAddNC, zVecCopyNC, zVecMulNC.
  replace (vlen x0 =? vlen x1)%nat with true by nbts. replace (vlen x1 =? vlen c)%nat with true by nbts. replace (vlen v0 =? vlen v1)%nat with true by nbts. replace (vlen v1 =? vlen e)%nat with true by nbts. cbn [andb].
  rewrite vop2_ok by congruence. cbn [bind]. rewrite vop2_ok by congruence. cbn [bind]. rewrite vop1_ok by (cbn; congruence). cbn [bind]. rewrite catNCDRC_ok by (cbn; congruence). cbn [bind].
  rewrite vop1_ok by (cbn; congruence). cbn [bind]. rewrite catNCDRC_ok by (cbn; congruence). cbn [bind]. rewrite catNCDRC_ok by (cbn; congruence). cbn [bind].
  rewrite vop1_ok by (cbn; congruence). cbn [bind]. cbn [vlen]. replace (vlen x0 =? vlen e)%nat with true by nbts. rewrite vop1_ok by (cbn; congruence). cbn [bind].
  eexists _, _, _, _. split; [reflexivity|]. intros v j t Lv Hj Ht. cbv zeta. cbn [vel].
  destruct (spline_vec s m V d 0 Hd D (Rle_refl 0) A Hn t v Lv) as (k & z & Hk & -> & Lz & Ez). cbn [comp]. rewrite Ez by auto.
  assert (k = i) by (eapply in_seg_fun; [apply Rle_refl|exact A|exact Hk|apply (seg_inner s 0); auto; lra]). subst k.
  rewrite E0, E1, Ev0, Ev1 by auto. unfold hp, herm. replace (i + 1)%nat with (S i) by lia. pose proof (A (S i) ltac:(lia)). unfold sqr. rs. field. lra.
Qed.
(** the free end of 0, 1, 0 at times 0, 1, 2 has the acceleration 27, not 0 *)
Theorem C36_free_end_refuted : let s := [(0, qv [0]); (1, qv [1]); (1, qv [0])]%Q in
  match zIPCreateSpline s (FixEdge (qv [0%Q])) FreeEdge with
  | Ok (Some d) => match zIPAccSpline d 2%Q (qv [0%Q]) with Ok w => Qeq_bool (vel w 0) 0 = false | UB => False end
  | _ => False end.
Proof. vm_compute. reflexivity. Qed.
(** two points with free ends: the answers are not numbers *)
Theorem C36_two_free_refuted : let s := [(0, vec_of 0 [0]); (1, vec_of 0 [1])]%float in
  match zIPCreateSpline s FreeEdge FreeEdge with
  | Ok (Some d) => match zIPVecSpline d 0.5%float (vec_of 0%float [0%float]) with Ok w => PrimFloat.is_nan (vel w 0) = true | UB => False end
  | _ => False end.
Proof. vm_compute. reflexivity. Qed.

(** ** C37 *)
Lemma curve_interpolates s m V d (pos vel : R -> fvec R -> res (fvec R)) : repr s m V d -> apart 0 s -> (2 <= length s)%nat ->
  (forall t v, vlen v = m -> exists i w, in_seg s t i /\ pos t v = Ok w /\ vlen w = m /\ forall j, (j < m)%nat -> Fmat.vel w j = hp s V herm i j t) ->
  (forall t v, vlen v = m -> exists i w, in_seg s t i /\ vel t v = Ok w /\ vlen w = m /\ forall j, (j < m)%nat -> Fmat.vel w j = hp s V hermd i j t) ->
  interpolates s m pos vel /\
  forall v j, vlen v = m -> (j < m)%nat -> (forall i, (i < length s)%nat -> comp (vel (knot s i) v) j = V i j) /\
   forall t i, in_seg s t i -> comp (pos t v) j = hp s V herm i j t /\ comp (vel t v) j = hp s V hermd i j t.
Proof.
  intros Hd A Hn HP HV.
  assert (W : forall v j, vlen v = m -> (j < m)%nat -> forall t i, in_seg s t i -> comp (pos t v) j = hp s V herm i j t /\ comp (vel t v) j = hp s V hermd i j t).
  { intros v j Lv Hj t i Hi. destruct (HP t v Lv) as (k & w & Hk & -> & Lw & Ew), (HV t v Lv) as (k' & u & Hk' & -> & Lu & Eu).
    assert (k = i) by (eapply in_seg_fun; [apply Rle_refl|exact A|eauto|eauto]). assert (k' = i) by (eapply in_seg_fun; [apply Rle_refl|exact A|eauto|eauto]). subst k k'. split; [apply Ew|apply Eu]; auto. }
  assert (C : forall v j, vlen v = m -> (j < m)%nat -> (forall i, (i < length s)%nat -> comp (pos (knot s i) v) j = pt s i j /\ comp (vel (knot s i) v) j = V i j) /\
    (forall t, derivable_pt_lim (fun t => comp (pos t v) j) t (comp (vel t v) j)) /\ (forall t, continuity_pt (fun t => comp (vel t v) j) t)).
  { intros v j Lv Hj. apply (hermite_curve s m V d 0 Hd (Rle_refl 0) A Hn (fun t => comp (pos t v) j) (fun t => comp (vel t v) j) j); intros t i Hi; apply (W v j Lv Hj t i Hi). }
  split.
  - intros v Lv. split.
    + intros t. destruct (HP t v Lv) as (k & w & Hk & E1 & Lw & Ew), (HV t v Lv) as (k' & u & Hk' & E2 & Lu & Eu). split; eexists; eauto.
    + intros j Hj. destruct (C v j Lv Hj) as (C1 & C2 & C3). split; auto. intros i Hi. apply C1; auto.
  - intros v j Lv Hj. split; [intros i Hi; apply (proj1 (C v j Lv Hj)); auto|auto].
Qed.
Theorem C37_akima_smooth (tol : R) (s : points) m : (2 <= length s)%nat -> dim s m -> apart 0 s ->
  (exists d, zIPCreateAkima tol s = Ok d /\ interpolates s m (zIPVecAkima d) (zIPVelAkima d)) /\
  (exists d, zIPCreateModifiedAkima tol s = Ok d /\ interpolates s m (zIPVecAkima d) (zIPVelAkima d)).
Proof.
  intros Hn D A. split.
  - destruct (akima_create s m tol zIPAkimaWeight W1 D W1_ok) as (d & V & E & Hd & _); [lia|]. exists d. split; auto.
    eapply curve_interpolates; eauto; intros t v Lv; [eapply akima_vec|eapply akima_vel]; eauto; lra.
  - destruct (akima_create s m tol zIPModifiedAkimaWeight W2 D W2_ok) as (d & V & E & Hd & _); [lia|]. exists d. split; auto.
    eapply curve_interpolates; eauto; intros t v Lv; [eapply akima_vec|eapply akima_vel]; eauto; lra.
Qed.
Theorem C37_pchip_smooth (tol : R) (s : points) m : (3 <= length s)%nat -> dim s m -> apart 0 s -> 0 <= tol ->
  exists d, zIPCreatePCHIP tol s = Ok d /\ interpolates s m (zIPVecSpline d) (zIPVelSpline d).
Proof.
  intros Hn D A Ht. destruct (pchip_create s m tol D Ht Hn A) as (d & V & E & Hd & _). exists d. split; auto.
  assert (Hn2 : (2 <= length s)%nat) by lia. eapply curve_interpolates; eauto; intros t v Lv; [eapply (spline_vec s m V d 0)|eapply (spline_vel s m V d 0)]; eauto; lra.
Qed.
(** two points are too few for PCHIP: it reads past the end of the sequence *)
Theorem C37_pchip_two_refuted : zIPCreatePCHIP (1 # 1000)%Q [(0, qv [0]); (1, qv [1])]%Q = UB.
Proof. reflexivity. Qed.
(** at an inner point with two neighbours on either side the velocity is Akima's mean of the two
    adjacent slopes, weighted by the change of slope on the other side *)
Theorem C37_akima_velocity (tol : R) (s : points) m d v i j : dim s m -> apart 0 s -> 0 <= tol -> zIPCreateAkima tol s = Ok d -> vlen v = m -> (j < m)%nat ->
  (2 <= i)%nat -> (i + 2 < length s)%nat ->
  let m1 := slope s (i - 2) j in let m2 := slope s (i - 1) j in let m3 := slope s i j in let m4 := slope s (i + 1) j in
  tol < Rabs (m2 - m1) \/ tol < Rabs (m4 - m3) ->
  comp (zIPVelAkima d (knot s i) v) j = (Rabs (m4 - m3) * m2 + Rabs (m2 - m1) * m3) / (Rabs (m2 - m1) + Rabs (m4 - m3)).
Proof.
  intros D A Ht E Lv Hj Hi Hi2 m1 m2 m3 m4 HT.
  destruct (akima_create s m tol zIPAkimaWeight W1 D W1_ok) as (d' & V & E' & Hd & HV); [lia|]. change (zIPCreateAkimaW tol zIPAkimaWeight s) with (zIPCreateAkima tol s) in E'. rewrite E in E'. inversion E'; subst d'.
  assert (Hn : (2 <= length s)%nat) by lia.
  destruct (curve_interpolates s m V d (zIPVecAkima d) (zIPVelAkima d) Hd A Hn) as (_ & C).
  { intros; eapply (akima_vec s m V d 0); eauto; lra. } { intros; eapply (akima_vel s m V d 0); eauto; lra. }
  destruct (C v j Lv Hj) as (C1 & _). rewrite C1 by lia. rewrite HV by lia. unfold agrad. cbv zeta. unfold W1.
  assert (AE : forall k, (2 <= k <= length s)%nat -> aext s j k = slope s (k - 2) j).
  { intros k Hk. unfold aext. destruct k as [|[|k]]; try lia. replace (S k <? length s)%nat with true by nbts. f_equal. lia. }
  rewrite !AE by lia. replace (i + 1 - 2)%nat with (i - 1)%nat by lia. replace (i + 2 + 1 - 2)%nat with (i + 1)%nat by lia. replace (i + 2 - 2)%nat with i by lia.
  fold m1 m2 m3 m4. rewrite !(Rabs_pos_eq (Rabs _)) by apply Rabs_pos.
  destruct (Rleb_spec (Rabs (m2 - m1)) tol), (Rleb_spec (Rabs (m4 - m3)) tol); cbn [andb]; auto. lra.
Qed.
(** monotone data give a monotone PCHIP curve from the second to the last but one point, and from
    the first point if the three-point gradient there has the right sign *)
Theorem C37_pchip_monotone_partial (tol : R) (s : points) m sg d v j : (3 <= length s)%nat -> dim s m -> apart 0 s -> 0 <= tol -> sg = 1 \/ sg = -1 ->
  zIPCreatePCHIP tol s = Ok d -> vlen v = m -> (j < m)%nat ->
  (forall i, (S i < length s)%nat -> 0 <= sg * (pt s (S i) j - pt s i j)) ->
  let F t := sg * comp (zIPVecSpline d t v) j in
  (forall t u, knot s 1 <= t <= u -> u <= knot s (length s - 2) -> F t <= F u) /\
  (0 <= sg * ((2 * gap s 1 + gap s 2) * slope s 0 j - gap s 1 * slope s 1 j) ->
   forall t u, knot s 0 <= t <= u -> u <= knot s (length s - 2) -> F t <= F u).
Proof.
  intros Hn D A Ht Hs E Lv Hj M F.
  destruct (pchip_create s m tol D Ht Hn A) as (d' & V & E' & Hd & PI). rewrite E in E'. inversion E'; subst d'. clear E'.
  assert (Hn2 : (2 <= length s)%nat) by lia.
  destruct (curve_interpolates s m V d (zIPVecSpline d) (zIPVelSpline d) Hd A Hn2) as (I & C).
  { intros; eapply (spline_vec s m V d 0); eauto; lra. } { intros; eapply (spline_vel s m V d 0); eauto; lra. }
  destruct (C v j Lv Hj) as (C1 & C2). destruct (I v Lv) as (_ & I2). destruct (I2 j Hj) as (_ & I3 & _). destruct (PI j Hj) as (Q1 & Q2 & _).
  assert (GP : forall i, (1 <= i < length s)%nat -> 0 < gap s i) by (intros; apply A; lia).
  assert (SL : forall i, (S i < length s)%nat -> 0 <= sg * slope s i j).
  { intros i Hi. rewrite <- gap_slope. unfold Rdiv. rewrite <- Rmult_assoc. apply Rmult_le_pos; auto. left. apply Rinv_0_lt_compat. apply GP. lia. }
  assert (VI : forall i, (1 <= i)%nat -> (S i < length s)%nat -> 0 <= sg * V i j).
  { intros i Hi Hi2. destruct (Q1 i ltac:(lia)) as (l & Hl & ->). unfold pch0. replace (i =? 0)%nat with false by nbts. replace (S i =? length s)%nat with false by nbts.
    pose proof (GP i ltac:(lia)). pose proof (GP (S i) ltac:(lia)). pose proof (SL i Hi2). pose proof (SL (i - 1)%nat ltac:(lia)).
    replace (sg * (l * ((gap s (S i) * slope s (i - 1) j + gap s i * slope s i j) / (gap s i + gap s (S i))))) with (l * ((gap s (S i) * (sg * slope s (i - 1) j) + gap s i * (sg * slope s i j)) * / (gap s i + gap s (S i)))) by (field; lra).
    apply Rmult_le_pos; [lra|]. apply Rmult_le_pos; [|left; apply Rinv_0_lt_compat; lra]. apply Rplus_le_le_0_compat; apply Rmult_le_pos; lra. }
  assert (MON : forall a, (a <= length s - 2)%nat -> (forall i, (a <= i)%nat -> (S i < length s)%nat -> 0 <= sg * V i j) ->
     forall t u, knot s a <= t <= u -> u <= knot s (length s - 2) -> F t <= F u).
  { intros a Ha HV t u Htu Hu.
    assert (DP : forall c, t <= c <= u -> 0 <= sg * comp (zIPVelSpline d c v) j).
    { intros c Hc. destruct (seg_ok _ _ _ _ _ c Hd (Rle_refl 0) A Hn2) as (i & _ & Hi). destruct (C2 c i Hi) as (_ & ->). destruct Hi as (Hi1 & Hi2 & Hi3).
      assert (Hai : (a <= i)%nat). { destruct (Nat.le_gt_cases a i) as [L|L]; auto. destruct Hi3 as [Hi3|Hi3]; [lia|]. assert (knot s (S i) <= knot s a) by (eapply knot_le; [apply Rle_refl|exact A|lia]). lra. }
      assert (Hk : knot s i <= c). { destruct Hi2 as [->|]; auto. assert (a = 0)%nat by lia. subst a. lra. }
      unfold hp. destruct (Nat.eq_dec (S (S i)) (length s)) as [El|Nl].
      - replace i with (length s - 2)%nat in * by lia. replace (c - knot s (length s - 2)) with 0 by lra. rewrite hermd_0. apply HV; lia.
      - destruct Hi3 as [Hi3|Hi3]; [lia|]. rewrite knot_S in Hi3. destruct (Q2 i ltac:(lia)) as (B1 & B2). rewrite <- gap_slope in B1, B2.
        pose proof (SL i Hi1) as S1. rewrite <- gap_slope in S1. apply hermd_sign; auto; try (apply HV; lia); [apply GP; lia|lra]. }
    destruct (Req_dec t u) as [->|Ne]; [lra|]. destruct (MVT_cor2 F (fun c => sg * comp (zIPVelSpline d c v) j) t u) as (c & Ec & Hc); [lra| |].
    - intros c _. unfold F. apply (derivable_pt_lim_scal (fun t => comp (zIPVecSpline d t v) j)). auto.
    - assert (0 <= sg * comp (zIPVelSpline d c v) j * (u - t)) by (apply Rmult_le_pos; [apply DP; lra|lra]). lra. }
  split.
  - intros t u H1 H2. apply (MON 1%nat); auto; lia.
  - intros H0 t u H1 H2. apply (MON 0%nat); auto; [lia|]. intros i _ Hi. destruct i as [|i]; [|apply VI; auto; lia].
    destruct (Q1 0%nat ltac:(lia)) as (l & Hl & ->). unfold pch0. cbn [Nat.eqb]. pose proof (GP 1%nat ltac:(lia)). pose proof (GP 2%nat ltac:(lia)).
    replace (sg * (l * (((gap s 1 + (gap s 1 + gap s 2)) * slope s 0 j - gap s 1 * slope s 1 j) / (gap s 1 + gap s 2)))) with (l * ((sg * ((2 * gap s 1 + gap s 2) * slope s 0 j - gap s 1 * slope s 1 j)) * / (gap s 1 + gap s 2))) by (field; lra).
    apply Rmult_le_pos; [lra|]. apply Rmult_le_pos; auto. left. apply Rinv_0_lt_compat. lra.
Qed.
(** a straight line is reproduced up to the third point from the end *)
Lemma line_piece s m V d (A : apart 0 s) (Hd : repr s m V d) j al be F : (3 <= length s)%nat ->
  (forall i, (i < length s)%nat -> pt s i j = al + be * knot s i) -> (forall k, (k + 3 <= length s)%nat -> V k j = be) ->
  (forall t i, in_seg s t i -> F t = hp s V herm i j t) -> forall t, knot s 0 <= t <= knot s (length s - 3) -> F t = al + be * t.
Proof.
  intros Hn Hp HV HF t Ht. destruct (seg_ok _ _ _ _ _ t Hd (Rle_refl 0) A ltac:(lia)) as (i & _ & Hi). rewrite (HF t i Hi). destruct Hi as (H1 & H2 & H3).
  assert (GP : gap s (S i) <> 0) by (apply Rgt_not_eq; apply A; lia).
  assert (Hk : knot s i <= t) by (destruct H2 as [->|]; auto; lra).
  destruct (Nat.le_gt_cases (i + 3) (length s)) as [L|L].
  - destruct (Nat.eq_dec (i + 3) (length s)) as [El|Nl].
    + replace (length s - 3)%nat with i in Ht by lia. unfold hp. replace (t - knot s i) with 0 by lra. rewrite herm_0, Hp by lia. replace t with (knot s i) by lra. ring.
    + unfold hp. rewrite !HV by lia. rewrite !Hp by lia. replace (al + be * knot s (S i)) with (al + be * knot s i + be * gap s (S i)) by (rewrite knot_S; ring). rewrite herm_line by auto. ring.
  - exfalso. assert (knot s (length s - 3) < knot s i) by (eapply knot_lt; [apply Rle_refl|exact A|lia]). lra.
Qed.
Lemma line_slope s j al be i : apart 0 s -> (S i < length s)%nat -> (forall i, (i < length s)%nat -> pt s i j = al + be * knot s i) -> slope s i j = be.
Proof. intros A Hi Hp. pose proof (A (S i) ltac:(lia)). unfold slope. rewrite !Hp, knot_S by lia. field. lra. Qed.
Theorem C37_pchip_line_partial (tol : R) (s : points) m d v j al be : (4 <= length s)%nat -> dim s m -> apart 0 s -> 0 <= tol ->
  zIPCreatePCHIP tol s = Ok d -> vlen v = m -> (j < m)%nat -> be = 0 \/ tol < Rabs be ->
  (forall i, (i < length s)%nat -> pt s i j = al + be * knot s i) ->
  forall t, knot s 0 <= t <= knot s (length s - 3) -> comp (zIPVecSpline d t v) j = al + be * t.
Proof.
  intros Hn D A Ht E Lv Hj Hb Hp. assert (Hn3 : (3 <= length s)%nat) by lia.
  destruct (pchip_create s m tol D Ht Hn3 A) as (d' & V & E' & Hd & PI). rewrite E in E'. inversion E'; subst d'. clear E'.
  assert (Hn2 : (2 <= length s)%nat) by lia.
  destruct (curve_interpolates s m V d (zIPVecSpline d) (zIPVelSpline d) Hd A Hn2) as (I & C).
  { intros; eapply (spline_vec s m V d 0); eauto; lra. } { intros; eapply (spline_vel s m V d 0); eauto; lra. }
  destruct (C v j Lv Hj) as (C1 & C2). apply (line_piece s m V d A Hd j al be (fun t => comp (zIPVecSpline d t v) j)); auto; [|intros; apply C2; auto].
  destruct (PI j Hj) as (Q1 & Q2 & Q3 & Q4).
  assert (SL : forall i, (S i < length s)%nat -> slope s i j = be) by (intros; eapply line_slope; eauto).
  intros k Hk. destruct Hb as [->|Hb].
  - destruct (Q2 k ltac:(lia)) as (B & _). rewrite SL, Rabs_R0 in B by lia. pose proof (Rabs_pos (V k j)). destruct (Req_dec (V k j) 0) as [|N]; auto. apply Rabs_pos_lt in N. lra.
  - assert (P0 : forall i, (S i < length s)%nat -> pch0 s i j = be).
    { intros i Hi. unfold pch0. destruct (Nat.eqb_spec i 0) as [->|].
      - rewrite !SL by lia. pose proof (A 1%nat ltac:(lia)). pose proof (A 2%nat ltac:(lia)). field. lra.
      - replace (S i =? length s)%nat with false by nbts. rewrite !SL by lia. pose proof (A i ltac:(lia)). pose proof (A (S i) ltac:(lia)). field. lra. }
    assert (GD : forall i, (i < length s - 2)%nat -> good s tol j i).
    { intros i Hi. unfold good. rewrite SL, !P0 by lia. split; auto.
      assert (be <> 0) by (intros ->; rewrite Rabs_R0 in Hb; lra). replace (be / be * (be / be) + be / be * (be / be)) with 2 by (field; auto).
      apply Rsqr_incrst_0; [rewrite Rsqr_sqrt by lra; unfold Rsqr; lra|apply sqrt_pos|lra]. }
    rewrite (Q4 (length s - 2)%nat GD) by lia.
    apply P0. lia.
Qed.
Theorem C37_modified_akima_line_partial (tol : R) (s : points) m d v j al be : (3 <= length s)%nat -> dim s m -> apart 0 s -> 0 <= tol ->
  zIPCreateModifiedAkima tol s = Ok d -> vlen v = m -> (j < m)%nat -> be = 0 \/ tol < Rabs be ->
  (forall i, (i < length s)%nat -> pt s i j = al + be * knot s i) ->
  forall t, knot s 0 <= t <= knot s (length s - 3) -> comp (zIPVecAkima d t v) j = al + be * t.
Proof.
  intros Hn D A Ht E Lv Hj Hb Hp.
  destruct (akima_create s m tol zIPModifiedAkimaWeight W2 D W2_ok) as (d' & V & E' & Hd & HV); [lia|]. change (zIPCreateAkimaW tol zIPModifiedAkimaWeight s) with (zIPCreateModifiedAkima tol s) in E'. rewrite E in E'. inversion E'; subst d'.
  assert (Hn2 : (2 <= length s)%nat) by lia.
  destruct (curve_interpolates s m V d (zIPVecAkima d) (zIPVelAkima d) Hd A Hn2) as (I & C).
  { intros; eapply (akima_vec s m V d 0); eauto; lra. } { intros; eapply (akima_vel s m V d 0); eauto; lra. }
  destruct (C v j Lv Hj) as (C1 & C2). apply (line_piece s m V d A Hd j al be (fun t => comp (zIPVecAkima d t v) j)); auto; [|intros; apply C2; auto].
  assert (SL : forall i, (S i < length s)%nat -> slope s i j = be) by (intros; eapply line_slope; eauto).
  intros k Hk. rewrite HV by lia. unfold agrad. cbv zeta.
  assert (AE : forall i, (i <= length s)%nat -> aext s j i = be).
  { intros i Hi. unfold aext. destruct i as [|[|i]]; [rewrite !SL by lia; ring..|]. replace (S i <? length s)%nat with true by nbts. apply SL. lia. }
  unfold W2. rewrite !AE by lia. replace (be - be) with 0 by ring. rewrite Rabs_R0. replace (be + be) with (2 * be) by ring. rewrite Rabs_mult, (Rabs_pos_eq 2) by lra.
  replace (0 + / 2 * (2 * Rabs be)) with (Rabs be) by field. rewrite Rabs_Rabsolu. destruct Hb as [->|Hb].
  - rewrite Rabs_R0. rewrite Rleb_true by lra. cbn [andb]. field.
  - rewrite Rleb_false by lra. cbn [andb]. field. assert (0 <= tol) by auto. lra.
Qed.
(** Akima does not reproduce the line 0, 1, 2, 3, 4 *)
Theorem C37_akima_line_refuted : let s := [(0, qv [0]); (1, qv [1]); (1, qv [2]); (1, qv [3]); (1, qv [4])]%Q in
  match zIPCreateAkima (1 # 1000)%Q s with
  | Ok d => match zIPVecAkima d (3 # 4)%Q (qv [0%Q]) with Ok w => Qeq_bool (vel w 0) (3 # 4) = false | UB => False end
  | UB => False end.
Proof. vm_compute. reflexivity. Qed.
(** nor the modified one at the end of it *)
Theorem C37_modified_akima_line_refuted : let s := [(0, qv [0]); (1, qv [1]); (1, qv [2]); (1, qv [3]); (1, qv [4])]%Q in
  match zIPCreateModifiedAkima (1 # 1000)%Q s with
  | Ok d => match zIPVecAkima d (15 # 4)%Q (qv [0%Q]) with Ok w => Qeq_bool (vel w 0) (15 # 4) = false | UB => False end
  | UB => False end.
Proof. vm_compute. reflexivity. Qed.
(** the gradient of PCHIP at the last point of the line 4, 5, 6, 7 is not 1 *)
Theorem C37_pchip_line_refuted : let s := [(0, qv [4]); (1, qv [5]); (1, qv [6]); (1, qv [7])]%Q in
  match zIPInitPCHIP (match zIPDataAlloc s with Ok d => d | UB => IPD (FV 0 (fun _ => 0%Q)) (FV 0 (fun _ => (0%Q, qv []))) (FV 0 (fun _ => qv [])) end) with
  | Ok d => match ipva d 3 with Ok w => Qeq_bool (vel w 0) 1 = false | UB => False end
  | UB => False end.
Proof. vm_compute. reflexivity. Qed.
(** PCHIP on the increasing data 0, 1, 5 starts downwards *)
Definition r1 (x : R) : fvec R := FV 1 (fun _ => x).
Theorem C37_pchip_monotone_refuted : let s := [(0, r1 0); (1, r1 1); (1, r1 5)] in
  exists d, zIPCreatePCHIP (/ 1000) s = Ok d /\ comp (zIPVecSpline d 0 (r1 0)) 0 = 0 /\ comp (zIPVecSpline d (/ 10) (r1 0)) 0 < 0.
Proof.
  intros s. assert (D : dim s 1) by (intros c [<-|[<-|[<-|[]]]]; reflexivity).
  assert (A : apart 0 s) by (intros i Hi; cbn in Hi; destruct i as [|[|[|i]]]; try lia; unfold gap, s; cbn; lra).
  destruct (pchip_create s 1 (/ 1000) D ltac:(lra) ltac:(cbn; lia) A) as (d & V & E & Hd & PI). exists d. split; auto.
  destruct (curve_interpolates s 1 V d (zIPVecSpline d) (zIPVelSpline d) Hd A ltac:(cbn; lia)) as (I & C).
  { intros; eapply (spline_vec s 1 V d 0); eauto; [lra|cbn; lia]. } { intros; eapply (spline_vel s 1 V d 0); eauto; [lra|cbn; lia]. }
  destruct (C (r1 0) 0%nat eq_refl ltac:(lia)) as (_ & C2). destruct (PI 0%nat ltac:(lia)) as (_ & _ & Q3 & _).
  assert (S0 : slope s 0 0 = 1) by (rewrite <- gap_slope; unfold pt, gap, s; cbn; field). assert (S1 : slope s 1 0 = 4) by (rewrite <- gap_slope; unfold pt, gap, s; cbn; field).
  assert (P0 : pch0 s 0 0 = - / 2) by (unfold pch0; cbn [Nat.eqb]; rewrite S0, S1; unfold gap, s; cbn; field).
  assert (P1 : pch0 s 1 0 = 5 / 2) by (unfold pch0; cbn [Nat.eqb length s Nat.sub]; rewrite S0, S1; unfold gap, s; cbn; field).
  assert (P2 : pch0 s 2 0 = 15 / 2) by (unfold pch0; cbn [Nat.eqb length s Nat.sub]; unfold pt, gap, s; cbn; field).
  assert (G : forall k, (k < 2)%nat -> good s (/ 1000) 0 k).
  { intros k Hk. unfold good. destruct k as [|[|k]]; [| |lia]; rewrite ?S0, ?S1, ?P0, ?P1, ?P2; (split; [rewrite Rabs_pos_eq by lra; lra|]);
    (apply Rsqr_incrst_0; [rewrite Rsqr_sqrt by lra; unfold Rsqr; lra|apply sqrt_pos|lra]). }
  assert (V0 : V 0%nat 0%nat = - / 2) by (rewrite <- P0; apply Q3; [exact G|cbn; lia]). assert (V1 : V 1%nat 0%nat = 5 / 2) by (rewrite <- P1; apply Q3; [exact G|cbn; lia]).
  assert (K0 : knot s 0 = 0) by (unfold knot, gap, s; cbn; lra). assert (K1 : knot s 1 = 1) by (unfold knot, gap, s; cbn; lra).
  assert (I0 : forall t, t < 1 -> in_seg s t 0) by (intros t Ht; split; [cbn; lia|]; split; [left; auto|right; rewrite K1; auto]).
  rewrite (proj1 (C2 0 0%nat (I0 0 ltac:(lra)))), (proj1 (C2 (/ 10) 0%nat (I0 (/ 10) ltac:(lra)))). unfold hp, herm. rewrite V0, V1, K0. unfold pt, gap, s. cbn. lra.
Qed.

(** ** C69: the velocity and acceleration reported for point i are those of the curve at its time *)
Theorem C69_spline_velocity (s : points) m e1 e2 d v i j : (2 <= length s)%nat -> dim s m -> apart 0 s -> edge_ok m e1 -> edge_ok m e2 -> solvable s e1 e2 ->
  zIPCreateSpline s e1 e2 = Ok (Some d) -> vlen v = m -> (j < m)%nat -> (i < length s)%nat ->
  answers (zIPSecVelSpline d i v) m /\ comp (zIPSecVelSpline d i v) j = comp (zIPVelSpline d (knot s i) v) j.
Proof.
  intros Hn D A H1 H2 H12 E Lv Hj Hi. destruct (spline_create s m A D Hn e1 e2 H1 H2 H12) as (d' & V & E' & Hd & _). rewrite E in E'. inversion E'; subst d'.
  destruct (curve_interpolates s m V d (zIPVecSpline d) (zIPVelSpline d) Hd A Hn) as (I & C).
  { intros; eapply (spline_vec s m V d 0); eauto; lra. } { intros; eapply (spline_vel s m V d 0); eauto; lra. }
  destruct (C v j Lv Hj) as (C1 & _). rewrite C1 by auto. unfold zIPSecVelSpline. rewrite (repr_size _ _ _ _ Hd). replace (length s <=? i)%nat with false by nbts.
  destruct (repr_va _ _ _ _ Hd i Hi) as (x & -> & Lx & Ex). cbn [bind]. unfold zVecCopyNC. rewrite vop1_ok by congruence. split; [eexists; split; [reflexivity|auto]|]. cbn. auto.
Qed.
(** acceleration: not at the last point, where the velocities enter with the wrong sign *)
Theorem C69_spline_acceleration_partial (tol : R) (s : points) m e1 e2 d v i j : (2 <= length s)%nat -> dim s m -> 0 <= tol -> apart tol s -> edge_ok m e1 -> edge_ok m e2 -> solvable s e1 e2 ->
  zIPCreateSpline s e1 e2 = Ok (Some d) -> vlen v = m -> (j < m)%nat -> (S i < length s)%nat ->
  answers (zIPSecAccSpline tol d i v) m /\ comp (zIPSecAccSpline tol d i v) j = comp (zIPAccSpline d (knot s i) v) j.
Proof.
  intros Hn D Ht A H1 H2 H12 E Lv Hj Hi. pose proof (apart0 _ _ Ht A) as A0. destruct (spline_create s m A0 D Hn e1 e2 H1 H2 H12) as (d' & V & E' & Hd & _). rewrite E in E'. inversion E'; subst d'.
  unfold zIPSecAccSpline. rewrite (repr_size _ _ _ _ Hd). replace (length s <=? i)%nat with false by nbts. replace (i =? length s - 1)%nat with false by nbts.
  rewrite (repr_dt _ _ _ _ Hd) by lia. cbn [bind].
  destruct (repr_vec _ _ _ _ Hd D i) as (x0 & -> & L0 & E0); [lia|]. destruct (repr_vec _ _ _ _ Hd D (i + 1)) as (x1 & -> & L1 & E1); [lia|].
  destruct (repr_va _ _ _ _ Hd i) as (v0 & -> & Lv0 & Ev0); [lia|]. destruct (repr_va _ _ _ _ Hd (i + 1)) as (v1 & -> & Lv1 & Ev1); [lia|]. cbn [bind].
  do 4 (rewrite catNCDRC_ok by (cbn; congruence); cbn [bind]).
  unfold zVecDivDRC. rewrite is_tol_R. pose proof (A (i + 1)%nat ltac:(lia)) as G. rewrite Rleb_false by (rewrite Rabs_pos_eq; lra).
  unfold zVecDivNC. rewrite vop1_ok by reflexivity. split; [eexists; split; [reflexivity|auto]|]. cbn [comp vel].
  destruct (spline_acc s m V d 0 Hd D (Rle_refl 0) A0 Hn (knot s i) v Lv) as (k & z & Hk & -> & Lz & Ez). cbn [comp]. rewrite Ez by auto.
  assert (k = i) by (eapply in_seg_fun; [apply Rle_refl|exact A0|exact Hk|apply (seg_knot s 0); auto; lra]). subst k.
  rewrite E0, E1, Ev0, Ev1 by auto. unfold hp, hermdd. replace (knot s i - knot s i) with 0 by ring. replace (S i) with (i + 1)%nat by lia. cbn. rs. field. lra.
Qed.
Theorem C69_spline_last_refuted : let s := [(0, qv [0]); (1, qv [1]); (1, qv [0])]%Q in
  match zIPCreateSpline s FreeEdge (FixEdge (qv [1%Q])) with
  | Ok (Some d) => match zIPSecAccSpline (1 # 1000)%Q d 2 (qv [0%Q]), zIPAccSpline d 2%Q (qv [0%Q]) with Ok w, Ok a => Qeq_bool (vel w 0) (vel a 0) = false | _, _ => False end
  | _ => False end.
Proof. vm_compute. reflexivity. Qed.
Theorem C69_linear_velocity_partial (tol : R) (s : points) m d v i j : (2 <= length s)%nat -> dim s m -> 0 <= tol -> apart tol s -> zIPCreateLinear tol s = Ok d -> vlen v = m -> (j < m)%nat ->
  (S i < length s)%nat -> answers (zIPSecVelLinear d (Z.of_nat i) v) m /\ comp (zIPSecVelLinear d (Z.of_nat i) v) j = comp (zIPVelLinear d (knot s i) v) j.
Proof.
  intros Hn D Ht A E Lv Hj Hi. destruct (linear_ok tol s m) as (d' & E' & Hd); auto; [intros ->; cbn in Hn; lia|]. rewrite E in E'. inversion E'; subst d'.
  destruct (seg_ok _ _ _ _ _ (knot s i) Hd Ht A Hn) as (k & Ek & Hk). unfold zIPVelLinear. rewrite Ek. cbn [bind].
  assert (k = i) by (eapply in_seg_fun; [exact Ht|exact A|exact Hk|eapply seg_knot; eauto]). subst k. split; auto.
  unfold zIPSecVelLinear. rewrite (repr_size _ _ _ _ Hd). replace ((Z.of_nat i <? 0)%Z || (Z.of_nat (length s) <=? Z.of_nat i + 1)%Z) with false by (symmetry; apply orb_false_iff; split; [apply Z.ltb_ge|apply Z.leb_gt]; lia).
  rewrite Nat2Z.id. destruct (repr_va _ _ _ _ Hd i) as (x & -> & Lx & Ex); [lia|]. cbn [bind]. unfold zVecCopyNC. rewrite vop1_ok by congruence. eexists; split; [reflexivity|auto].
Qed.
(** the acceleration at an inner point: infinite in the direction in which the slope jumps; at the ends 0 *)
Theorem C69_linear_acceleration (tol : R) (s : points) m d v i : (2 <= length s)%nat -> dim s m -> 0 <= tol -> apart tol s -> zIPCreateLinear tol s = Ok d -> vlen v = m ->
  (S i < length s)%nat -> exists w, zIPSecAccLinear d (Z.of_nat i) v = Ok w /\ zIPAccLinear tol d (knot s i) v = Ok w /\ vlen w = m /\
  forall j, (j < m)%nat -> match vel w j with
    | PInf => (0 < i)%nat /\ slope s (i - 1) j < slope s i j
    | NInf => (0 < i)%nat /\ slope s i j < slope s (i - 1) j
    | Fin x => x = 0 /\ (i = 0%nat \/ slope s (i - 1) j = slope s i j) end.
Proof.
  intros Hn D Ht A E Lv Hi. destruct (linear_ok tol s m) as (d' & E' & Hd); auto; [intros ->; cbn in Hn; lia|]. rewrite E in E'. inversion E'; subst d'.
  destruct (seg_ok _ _ _ _ _ (knot s i) Hd Ht A Hn) as (k & Ek & Hk).
  assert (k = i) by (eapply in_seg_fun; [exact Ht|exact A|exact Hk|eapply seg_knot; eauto]). subst k.
  unfold zIPAccLinear. rewrite Ek. cbn [bind]. rewrite (repr_time _ _ _ _ Hd) by lia. cbn [bind].
  rewrite is_tol_R. cbn [ssub RealS]. rewrite Rminus_diag_eq by reflexivity. rewrite Rabs_R0, (Rleb_true 0 tol) by exact Ht.
  unfold zIPSecAccLinear. rewrite (repr_size _ _ _ _ Hd). destruct i as [|i].
  - cbn [Z.of_nat Z.leb Z.compare orb]. eexists. split; [reflexivity|]. split; [reflexivity|]. split; [exact Lv|]. intros j Hj. cbn. auto.
  - replace ((Z.of_nat (S i) <=? 0)%Z || (Z.of_nat (length s) <=? Z.of_nat (S i) + 1)%Z) with false by (symmetry; apply orb_false_iff; split; apply Z.leb_gt; lia).
    cbv zeta. rewrite Nat2Z.id. replace (S i - 1)%nat with i by lia.
    match goal with |- context [for_ 0 _ ?f ?v0] => destruct (vec_loop v0 0 (vlen v) f (fun j => if Rltb (slope s i j) (slope s (S i) j) then PInf else if Rltb (slope s (S i) j) (slope s i j) then NInf else Fin 0)) as (w & Ew & Lw & Hw); auto; try (cbn [vlen]; lia) end.
    + intros j v' Hj Lv' _. rewrite !(repr_vae _ _ _ _ Hd) by (cbn in *; lia). cbn [bind].
      rewrite (proj2 (Nat.ltb_lt (S (S i)) (length s)) Hi), (proj2 (Nat.ltb_lt (S i) (length s))) by lia. reflexivity.
    + exists w. split; [exact Ew|]. split; [exact Ew|]. cbn [vlen] in Lw. split; [lia|]. intros j Hj. rewrite Hw.
      rewrite (proj2 (Nat.ltb_lt j (vlen v))) by lia. cbn [Nat.leb andb].
      destruct (Rltb_spec (slope s i j) (slope s (S i) j)); [split; [lia|auto]|].
      destruct (Rltb_spec (slope s (S i) j) (slope s i j)); [split; [lia|auto]|]. split; [auto|right; lra].
Qed.
(** the velocity at the last point of a line of slope 1 is reported as 0 *)
Theorem C69_linear_last_refuted : match zIPCreateLinear (1 # 1000)%Q [(0, qv [0]); (1, qv [1])]%Q with
  | Ok d => match zIPSecVelLinear d 1 (qv [0%Q]), zIPVelLinear d 1%Q (qv [0%Q]) with Ok w, Ok u => Qeq_bool (vel w 0) (vel u 0) = false | _, _ => False end
  | UB => False end.
Proof. vm_compute. reflexivity. Qed.
Theorem C69_akima_velocity_partial (tol : R) (s : points) m d v i j : (2 <= length s)%nat -> dim s m -> apart 0 s ->
  zIPCreateAkima tol s = Ok d \/ zIPCreateModifiedAkima tol s = Ok d -> vlen v = m -> (j < m)%nat -> (1 <= i < length s)%nat ->
  answers (zIPSecVelAkima d i v) m /\ comp (zIPSecVelAkima d i v) j = comp (zIPVelAkima d (knot s i) v) j.
Proof.
  intros Hn D A E Lv Hj Hi.
  assert (exists V, repr s m V d) as (V & Hd).
  { destruct E as [E|E].
    - destruct (akima_create s m tol zIPAkimaWeight W1 D W1_ok) as (d' & V & E' & Hd & _); [lia|]. change (zIPCreateAkimaW tol zIPAkimaWeight s) with (zIPCreateAkima tol s) in E'. rewrite E in E'. inversion E'. eauto.
    - destruct (akima_create s m tol zIPModifiedAkimaWeight W2 D W2_ok) as (d' & V & E' & Hd & _); [lia|]. change (zIPCreateAkimaW tol zIPModifiedAkimaWeight s) with (zIPCreateModifiedAkima tol s) in E'. rewrite E in E'. inversion E'. eauto. }
  destruct (curve_interpolates s m V d (zIPVecAkima d) (zIPVelAkima d) Hd A Hn) as (I & C).
  { intros; eapply (akima_vec s m V d 0); eauto; lra. } { intros; eapply (akima_vel s m V d 0); eauto; lra. }
  destruct (C v j Lv Hj) as (C1 & _). rewrite C1 by lia. unfold zIPSecVelAkima. rewrite (repr_size _ _ _ _ Hd). replace (length s <=? i)%nat with false by nbts. replace (i =? 0)%nat with false by nbts. cbn [orb].
  destruct (repr_va _ _ _ _ Hd i) as (x & -> & Lx & Ex); [lia|]. cbn [bind]. unfold zVecCopyNC. rewrite vop1_ok by congruence. split; [eexists; split; [reflexivity|auto]|]. cbn. auto.
Qed.
(** the velocity at the first point is reported as 0 by Akima *)
Theorem C69_akima_first_refuted : match zIPCreateAkima (1 # 1000)%Q [(0, qv [0]); (1, qv [1]); (1, qv [0]); (1, qv [2])]%Q with
  | Ok d => match zIPSecVelAkima d 0 (qv [0%Q]), zIPVelAkima d 0%Q (qv [0%Q]) with Ok w, Ok u => Qeq_bool (vel w 0) (vel u 0) = false | _, _ => False end
  | UB => False end.
Proof. vm_compute. reflexivity. Qed.
(** the acceleration of PCHIP at a point is not that of the curve *)
Theorem C69_pchip_acceleration_refuted : let s := [(0, r1 0); (1, r1 1); (1, r1 5)] in
  exists d, zIPCreatePCHIP (/ 1000) s = Ok d /\ comp (zIPSecAccPCHIP d 0 (r1 0)) 0 <> comp (zIPAccSpline d 0 (r1 0)) 0.
Proof.
  intros s. assert (D : dim s 1) by (intros c [<-|[<-|[<-|[]]]]; reflexivity).
  assert (A : apart 0 s) by (intros i Hi; cbn in Hi; destruct i as [|[|[|i]]]; try lia; unfold gap, s; cbn; lra).
  destruct (pchip_create s 1 (/ 1000) D ltac:(lra) ltac:(cbn; lia) A) as (d & V & E & Hd & PI). exists d. split; auto.
  destruct (spline_acc s 1 V d 0 Hd D (Rle_refl 0) A ltac:(cbn; lia) 0 (r1 0) eq_refl) as (k & z & Hk & -> & Lz & Ez). cbn [comp]. rewrite Ez by lia.
  destruct (PI 0%nat ltac:(lia)) as (_ & _ & Q3 & _).
  assert (S0 : slope s 0 0 = 1) by (rewrite <- gap_slope; unfold pt, gap, s; cbn; field). assert (S1 : slope s 1 0 = 4) by (rewrite <- gap_slope; unfold pt, gap, s; cbn; field).
  assert (P0 : pch0 s 0 0 = - / 2) by (unfold pch0; cbn [Nat.eqb]; rewrite S0, S1; unfold gap, s; cbn; field).
  assert (P1 : pch0 s 1 0 = 5 / 2) by (unfold pch0; cbn [Nat.eqb length s Nat.sub]; rewrite S0, S1; unfold gap, s; cbn; field).
  assert (P2 : pch0 s 2 0 = 15 / 2) by (unfold pch0; cbn [Nat.eqb length s Nat.sub]; unfold pt, gap, s; cbn; field).
  assert (G : forall k, (k < 2)%nat -> good s (/ 1000) 0 k).
  { intros k' Hk'. unfold good. destruct k' as [|[|k']]; [| |lia]; rewrite ?S0, ?S1, ?P0, ?P1, ?P2; (split; [rewrite Rabs_pos_eq by lra; lra|]);
    (apply Rsqr_incrst_0; [rewrite Rsqr_sqrt by lra; unfold Rsqr; lra|apply sqrt_pos|lra]). }
  assert (V0 : V 0%nat 0%nat = - / 2) by (rewrite <- P0; apply Q3; [exact G|cbn; lia]). assert (V1 : V 1%nat 0%nat = 5 / 2) by (rewrite <- P1; apply Q3; [exact G|cbn; lia]).
  assert (K0 : knot s 0 = 0) by (unfold knot, gap, s; cbn; lra). assert (K1 : knot s 1 = 1) by (unfold knot, gap, s; cbn; lra).
  assert (k = 0%nat). { eapply in_seg_fun; [apply Rle_refl|exact A|exact Hk|]. split; [cbn; lia|]. split; [left; auto|right; rewrite K1; lra]. } subst k.
  unfold zIPSecAccPCHIP. destruct (repr_vec _ _ _ _ Hd D 0) as (x0 & -> & L0 & E0); [cbn; lia|]. cbn [bind]. unfold zVecMulC, zVecMulNC. rewrite L0. cbn [vlen r1 Nat.eqb]. rewrite vop1_ok by (cbn; auto). cbn [bind].
  rewrite (repr_dt _ _ _ _ Hd) by (cbn; lia). cbn [bind]. destruct (repr_va _ _ _ _ Hd 0) as (y & -> & Ly & Ey); [cbn; lia|]. cbn [bind]. rewrite catDRC_ok by (cbn; auto). cbn [comp vel].
  rewrite E0, Ey by lia. unfold hp, hermdd. rewrite V0, V1, K0. unfold pt, gap, s. cbn. rs. lra.
Qed.
(** Lagrange reports what its curve has *)
Theorem C69_lagrange {T} {ST : Scalar T} (d : ipdata T) i t v : zIPDataTime d i = Ok t -> zIPSecVelLagrange d i v = zIPVelLagrange d t v /\ zIPSecAccLagrange d i v = zIPAccLagrange d t v.
Proof. intros E. unfold zIPSecVelLagrange, zIPSecAccLagrange. rewrite E. auto. Qed.

(** ** cases that meet the hypotheses *)
Definition ex_s : points := [(0, r1 1); (1, r1 3); (2, r1 2); (1, r1 2)].
Lemma ex_dim : dim ex_s 1. Proof. intros c [<-|[<-|[<-|[<-|[]]]]]; reflexivity. Qed.
Lemma ex_apart : apart (/ 1000) ex_s.
Proof. intros i Hi. cbn in Hi. destruct i as [|[|[|[|i]]]]; try lia; unfold gap, ex_s; cbn; lra. Qed.
Lemma ex_apart0 : apart 0 ex_s. Proof. apply (apart0 (/ 1000)); [lra|apply ex_apart]. Qed.
Example C33_case : exists d, zIPDataAlloc ex_s = Ok d /\ forall t, exists i, zIPDataSeg d t = Ok i /\
    (S i < length ex_s)%nat /\ (i = 0%nat \/ knot ex_s i <= t) /\ (S (S i) = length ex_s \/ t < knot ex_s (S i)).
Proof. eapply C33_segment; [cbn; lia|apply ex_dim|apply ex_apart0]. Qed.
Example C34_case : exists d, zIPCreateLinear (/ 1000) ex_s = Ok d /\ comp (zIPVecLinear d 2 (r1 0)) 0 = 5 / 2.
Proof.
  destruct (C34_linear_partial (/ 1000) ex_s 1) as (d & E & H); [cbn; lia|apply ex_dim|lra|apply ex_apart|]. exists d. split; auto.
  destruct (H (r1 0) eq_refl) as (_ & H2). destruct (H2 0%nat ltac:(lia)) as (_ & P & _).
  rewrite (P 1%nat); [unfold pt, knot, gap, ex_s; cbn; field|cbn; lia|unfold knot, gap, ex_s; cbn; lra].
Qed.
(** three points on 1 + t^2: the parabola comes back *)
Definition ex_q : points := [(0, r1 1); (1, r1 2); (2, r1 10)].
Example C35_case : exists d, zIPCreateLagrange ex_q = Ok d /\ comp (zIPVecLagrange d 2 (r1 0)) 0 = 5.
Proof.
  destruct (C35_lagrange ex_q 1) as (d & E & H); [cbn; lia|intros c [<-|[<-|[<-|[]]]]; reflexivity| |].
  { intros i j Hij. cbn in Hij. unfold knot, gap, ex_q. destruct i as [|[|[|i]]], j as [|[|[|j]]]; try lia; cbn; lra. }
  exists d. split; auto. destruct (H (r1 0) eq_refl) as (_ & H2). destruct (H2 0%nat ltac:(lia)) as (_ & P & _).
  rewrite (P (fun k => match k with 0%nat => 1 | 1%nat => 0 | _ => 1 end)); [unfold ex_q; cbn; field|].
  intros i Hi. cbn in Hi. unfold pt, knot, gap, ex_q. destruct i as [|[|[|i]]]; try lia; cbn; field.
Qed.
Example C36_case : exists d, zIPCreateSpline ex_s FreeEdge (FixEdge (r1 7)) = Ok (Some d) /\ comp (zIPVelSpline d (knot ex_s 3) (r1 0)) 0 = 7 /\ comp (zIPAccSpline d (knot ex_s 0) (r1 0)) 0 = 0.
Proof.
  destruct (C36_spline_partial ex_s 1 FreeEdge (FixEdge (r1 7))) as (d & E & _ & H); [cbn; lia|apply ex_dim|apply ex_apart0|exact I|reflexivity|exact I|]. exists d. split; auto.
  destruct (H (r1 0) eq_refl) as (_ & H2). destruct (H2 0%nat ltac:(lia)) as (_ & _ & P & Q). split; [exact Q|exact P].
Qed.
Example C37_case : exists d, zIPCreatePCHIP (/ 1000) [(0, r1 0); (1, r1 1); (1, r1 5); (1, r1 6)] = Ok d /\ comp (zIPVecSpline d 1 (r1 0)) 0 <= comp (zIPVecSpline d (3 / 2) (r1 0)) 0.
Proof.
  set (s := [(0, r1 0); (1, r1 1); (1, r1 5); (1, r1 6)]).
  assert (D : dim s 1) by (intros c [<-|[<-|[<-|[<-|[]]]]]; reflexivity).
  assert (A : apart 0 s) by (intros i Hi; cbn in Hi; destruct i as [|[|[|[|i]]]]; try lia; unfold gap, s; cbn; lra).
  destruct (C37_pchip_smooth (/ 1000) s 1) as (d & E & _); [cbn; lia|auto|auto|lra|]. exists d. split; auto.
  destruct (C37_pchip_monotone_partial (/ 1000) s 1 1 d (r1 0) 0) as (H & _); auto; [cbn; lia|lra| |].
  { intros i Hi. cbn in Hi. unfold pt, s. destruct i as [|[|[|i]]]; try lia; cbn; lra. }
  specialize (H 1 (3 / 2)). cbv zeta in H. rewrite !Rmult_1_l in H. apply H; unfold knot, gap, s; cbn; lra.
Qed.
Print Assumptions C33_segment. Print Assumptions C33_in_bounds. Print Assumptions C34_linear_partial. Print Assumptions C34_close_refuted. Print Assumptions C35_lagrange.
Print Assumptions C36_spline_partial. Print Assumptions C36_bad_edge. Print Assumptions C36_coefficients. Print Assumptions C36_free_end_refuted. Print Assumptions C36_two_free_refuted.
Print Assumptions C37_akima_smooth. Print Assumptions C37_pchip_smooth. Print Assumptions C37_pchip_two_refuted. Print Assumptions C37_akima_velocity. Print Assumptions C37_pchip_monotone_partial. Print Assumptions C37_pchip_line_partial.
Print Assumptions C37_modified_akima_line_partial. Print Assumptions C37_akima_line_refuted. Print Assumptions C37_modified_akima_line_refuted. Print Assumptions C37_pchip_line_refuted. Print Assumptions C37_pchip_monotone_refuted.
Print Assumptions C69_spline_velocity. Print Assumptions C69_spline_acceleration_partial. Print Assumptions C69_spline_last_refuted. Print Assumptions C69_linear_velocity_partial. Print Assumptions C69_linear_last_refuted. Print Assumptions C69_linear_acceleration. Print Assumptions C69_akima_velocity_partial.
Print Assumptions C69_akima_first_refuted. Print Assumptions C69_pchip_acceleration_refuted. Print Assumptions C69_lagrange.
